(* When the costs of Tyler and Student grow at infinity.  Nothing here models code. *)
From Coq Require Import Reals String Lra Epsilon Classical_Prop.
From mathcomp Require Import all_ssreflect all_algebra.
From mathcomp Require Import complex zify.
From Verif Require Import RealsMC RealTac RealTac2 Star StarInst FunCalc Compact Spec_covariance Spec_fixedpoint Proofs_mest Proofs_cost Proofs_unique Proofs_unique2
  Proofs_converge.
Set Implicit Arguments.
Unset Strict Implicit.
Unset Printing Implicit Defensive.
Local Open Scope ring_scope.
Import GRing.Theory Num.Theory Order.TTheory.

(* ------------------------------------------------------------------ sums by layers *)
Section Layers.
Lemma layer_step n (y : 'I_n -> R) s e : s <= e -> (forall l, y l <= s \/ e <= y l) ->
  (\sum_l Num.min (y l) e) - (\sum_l Num.min (y l) s) = (e - s) * #|[set l | e <= y l]|%:R.
Proof.
move=> se h; rewrite -sumrB -sum1_card natr_sum mulr_sumr [RHS]big_mkcond; apply: eq_bigr => l _; rewrite inE mulr1.
case: ifP => [el|/negbT]; first by rewrite !min_r // (le_trans se).
rewrite -ltNge => lt; rewrite (min_l (ltW lt)) min_l ?subrr //; case: (h l) => //; by rewrite leNgt lt.
Qed.
Variables (n N : nat) (y : 'I_n -> R) (m : 'I_N -> R) (A B k : R).
Hypothesis my : forall i, exists l, m i = y l.
Definition lay t := A * (\sum_l Num.min (y l) t) - B * (\sum_i Num.min (m i) t).
Lemma layer_step2 s e : s <= e -> (forall l, y l <= s \/ e <= y l) ->
  lay e - lay s = (e - s) * (A * #|[set l | e <= y l]|%:R - B * #|[set i | e <= m i]|%:R).
Proof.
move=> se h; have hm i : m i <= s \/ e <= m i by have [l ->] := my i.
have E1 := layer_step se h; have E2 := layer_step se hm; rewrite /lay.
have -> (a b c d : R) : A * a - B * c - (A * b - B * d) = A * (a - b) - B * (c - d) by rring.
rewrite E1 E2; move: (#|_|%:R) (#|_|%:R) => f g; rring.
Qed.
Lemma layers (e : R) r : forall s : R, (#|[set l | (s < y l)%R]| <= r)%N -> s <= e ->
  (forall t, s < t -> t <= e -> k <= A * #|[set l | t <= y l]|%:R - B * #|[set i | t <= m i]|%:R) -> k * (e - s) <= lay e - lay s.
Proof.
elim: r => [|r IH] s hr se H; move: (se); rewrite le_eqVlt => /orP[/eqP->|lt]; rewrite ?subrr ?mulr0 //.
  rewrite layer_step2 // => [|l].
    by rewrite mulrC; apply: ler_wpmul2l; [rewrite subr_ge0 | exact: H].
  left; rewrite leNgt; apply/negP => sl; move: hr; rewrite leqn0 cards_eq0 => /eqP e0.
  have : l \in [set l | s < y l] by rewrite inE.
  by rewrite e0 inE.
case: (pickP [pred l | (s < y l) && (y l < e)]) => [l0 /= /andP[l1 l2]|no]; last first.
  rewrite layer_step2 // => [|l].
    by rewrite mulrC; apply: ler_wpmul2l; [rewrite subr_ge0 | exact: H].
  by move: (no l) => /=; case: (leP (y l) s) => h; [left | rewrite /= ltNge => /negbFE; right].
case: (@arg_minP _ _ _ l0 (fun l => s < y l) y l1) => l sl hl; have le : y l < e by apply: le_lt_trans l2; exact: hl.
have le' := ltW le.
have -> : lay e - lay s = (lay e - lay (y l)) + (lay (y l) - lay s) by rewrite addrA subrK.
have -> : e - s = (e - y l) + (y l - s) by rewrite addrA subrK.
rewrite mulrDr; apply: ler_add.
  apply: IH => // [|t lt1 lt2]; last by apply: H => //; exact: lt_trans lt1.
  rewrite -ltnS; apply: leq_trans hr; apply: proper_card; apply/properP; split.
    by apply/subsetP => j; rewrite !inE; apply: lt_trans.
  by exists l; rewrite !inE ?ltxx.
rewrite layer_step2; first by rewrite mulrC; apply: ler_wpmul2l; [rewrite subr_ge0 ltW | exact: H].
  exact: ltW.
by move=> j; case: (leP (y j) s) => h; [left | right; exact: hl].
Qed.
End Layers.

(* ------------------------------------------------------------------ samples near a subspace *)
Section Near.
Variable K : starField.
Local Notation ofR := (@ofR K).
Local Notation "A ^H" := (adj A) (at level 8, format "A ^H").
Lemma sq_eq0 (x : K) : sq x = 0 -> x = 0.
Proof. by move=> h; apply/eqP; rewrite -mul_cj_eq0 -ofR_sq h rmorph0. Qed.
Lemma fin_min (T : finType) (P : T -> R -> Prop) : (forall t, exists2 c : R, 0 < c & P t c) ->
  (forall t c c', 0 < c' -> c' <= c -> P t c -> P t c') -> exists2 c : R, 0 < c & forall t, P t c.
Proof.
move=> h mono; suff H (r : seq T) : exists2 c : R, 0 < c & forall t, t \in r -> P t c.
  by have [c c0 hc] := H (enum T); exists c => // t; apply: hc; rewrite mem_enum.
elim: r => [|t r [c c0 hc]]; first by exists 1; rewrite ?ltr01.
have [d d0 hd] := h t; exists (Num.min c d); first by rewrite lt_minr c0 d0.
have m0 : 0 < Num.min c d by rewrite lt_minr c0 d0.
move=> u; rewrite inE => /orP[/eqP->|ur]; first by apply: mono hd => //; rewrite le_minl lexx orbT.
by apply: mono (hc u ur) => //; rewrite le_minl lexx.
Qed.
Definition indicator p (W : {set 'I_p}) : 'M[K]_p := \sum_(l in W) delta_mx l l.
Lemma rank_indicator p (W : {set 'I_p}) : (\rank (indicator W) <= #|W|)%N.
Proof.
rewrite /indicator -sum1_card; elim/big_rec2: _ => [|l a b _ h]; first by rewrite mxrank0.
by apply: leq_trans (mxrank_add _ _) _; rewrite mxrank_delta leq_add2l.
Qed.
Lemma indicatorE p (W : {set 'I_p}) (z : 'rV[K]_p) : (forall l, l \notin W -> z 0 l = 0) -> z *m indicator W = z.
Proof.
move=> h; apply/rowP => j; rewrite /indicator mulmx_sumr summxE.
rewrite (eq_bigr (fun l => (if l == j then z 0 j else 0))) => [|l _]; last first.
  rewrite mxE (bigD1 l) //= big1 => [|t tl]; first by rewrite mxE eqxx /= addr0 [j == l]eq_sym; case: eqP => [->|]; rewrite ?mulr1 ?mulr0.
  by rewrite mxE (negbTE tl) mulr0.
case: (boolP (j \in W)) => jW.
  by rewrite (bigD1 j) //= eqxx big1 ?addr0 // => t /andP[_ /negbTE ->].
by rewrite h // big1 // => t _; case: ifP.
Qed.
Hypothesis cK : compactK K.
Variables (N p : nat) (X : 'M[K]_(N, p)).
Lemma near_fixed (W : {set 'I_p}) (I : {set 'I_N}) : exists2 c : R, 0 < c & forall U, unitary U ->
  (forall i l, i \in I -> l \notin W -> sq ((U^H *m samp X i) l 0) < c) ->
  exists2 V : 'M[K]_p, (\rank V <= #|W|)%N & forall i, i \in I -> (row i X <= V)%MS.
Proof.
apply: NNPP => no.
have ex (k : nat) : exists U : 'M[K]_p, unitary U /\ forall i l, i \in I -> l \notin W -> sq ((U^H *m samp X i) l 0) < k.+1%:R^-1.
  apply: NNPP => h; apply: no; exists (k.+1%:R^-1); first by rewrite invr_gt0 ltr0n.
  by move=> U uU hU; case: h; exists U.
have noV : ~ exists2 V : 'M[K]_p, (\rank V <= #|W|)%N & forall i, i \in I -> (row i X <= V)%MS.
  by move=> hV; apply: no; exists 1; rewrite ?ltr01.
pose u k := epsilon (inhabits (1%:M : 'M[K]_p)) (fun U => unitary U /\ forall i l, i \in I -> l \notin W -> sq ((U^H *m samp X i) l 0) < k.+1%:R^-1).
have hu k : unitary (u k) /\ forall i l, i \in I -> l \notin W -> sq (((u k)^H *m samp X i) l 0) < k.+1%:R^-1.
  exact: (epsilon_spec (inhabits (1%:M : 'M[K]_p)) _ (ex k)).
have bd k : fro2 (u k) <= fro2 (1%:M : 'M[K]_p).
  by rewrite -{1}[u k]mulmx1 -[u k *m 1%:M]mulmx1 fro2_unitary //; [exact: (hu k).1 | exact: unitary1].
have small (M e : R) : 0 <= M -> 0 < e -> exists2 d : R, 0 < d & d * M <= e.
  move=> M0 e0; have M1 : 0 < M + 1 by rewrite ltr_spaddr ?ltr01.
  exists (e / (M + 1)); first by rewrite divr_gt0.
  by rewrite mulrAC ler_pdivr_mulr // ler_pmul2l // ler_addl ler01.
have [L hL] := cK bd; have uL : unitary L.
  apply/eqP; rewrite -subr_eq0; apply/eqP/fro2_eq0/eqP; rewrite eq_le fro2_ge0 andbT.
  apply: small_all => e e0; have [|d d0 hd] := small (fro2 (1%:M : 'M[K]_p) + fro2 L) e _ e0; first by rewrite addr_ge0 ?fro2_ge0.
  have [k _ hk] := hL d 0%N d0; have [uk _] := hu k.
  have -> : L^H *m L - 1%:M = - ((u k - L)^H *m u k + L^H *m (u k - L)).
    by rewrite -uk adjB mulmxBl mulmxBr addrA subrK opprB.
  rewrite fro2N; apply: le_trans (fro2D _ _) _.
  have -> : 4%:R * e = 2%:R * (2%:R * e) by rewrite mulrA -natrM.
  rewrite ler_pmul2l ?ltr0n //; apply: (@le_trans _ _ (fro2 (u k - L) * (fro2 (1%:M : 'M[K]_p) + fro2 L))).
    rewrite mulrDr; apply: ler_add; apply: le_trans (fro2_mul _ _) _; last by rewrite mulrC.
    by apply: ler_wpmul2l; [exact: fro2_ge0 | exact: bd].
  apply: (@le_trans _ _ e); last by rewrite ler_pemull ?ler1n // ltW.
  by apply: le_trans hd; apply: ler_wpmul2r => //; rewrite addr_ge0 ?fro2_ge0.
have zero i l : i \in I -> l \notin W -> (L^H *m samp X i) l 0 = 0.
  move=> iI lW; apply: sq_eq0; apply/eqP; rewrite eq_le sq_ge0 andbT; apply: small_all => e e0.
  have [d d0 hd] := small _ _ (fro2_ge0 (samp X i)) e0.
  have [k0 hk0] := arch 1 e0; have [k kk hk] := hL d k0 d0; have [uk nk] := hu k.
  have ke : k.+1%:R^-1 <= e.
    rewrite -[_^-1]mul1r ler_pdivr_mulr ?ltr0n // mulrC; apply: le_trans (ltW hk0) _; apply: ler_wpmul2r; first exact: ltW.
    by rewrite ler_nat; exact: leqW.
  have -> : L^H *m samp X i = (u k)^H *m samp X i + - ((u k - L)^H *m samp X i).
    by rewrite adjB mulmxBl opprB addrC subrK.
  rewrite mxE; apply: le_trans (sqD _ _) _; have -> : 4%:R * e = 2%:R * (e + e) by rewrite -[e + e]mulr2n -[e *+ 2]mulr_natl mulrA -natrM.
  rewrite ler_pmul2l ?ltr0n //; apply: ler_add; first exact: le_trans (ltW (nk i l iI lW)) ke.
  rewrite mxE sqN; apply: (@le_trans _ _ (fro2 ((u k - L)^H *m samp X i))).
    rewrite fro2E (bigD1 l) //= big_ord1 ler_addl; apply: sumr_ge0 => a _; apply: sumr_ge0 => b _; exact: sq_ge0.
  apply: le_trans (fro2_mul _ _) _; apply: le_trans hd; apply: ler_wpmul2r => //; exact: fro2_ge0.
apply: noV; exists (indicator W *m L^T); first by apply: leq_trans (mxrankM_maxl _ _) (rank_indicator W).
move=> i iI; have -> : row i X = (L^H *m samp X i)^T *m (indicator W *m L^T).
  rewrite mulmxA indicatorE => [|l lW]; last by rewrite mxE zero.
  by rewrite -trmx_mul mulmxA unitaryV // mul1mx /samp trmxK.
exact: submxMl.
Qed.
(* the samples whose components outside W are small lie in a subspace of dimension at most #|W| *)
Lemma near_subspace : exists2 c : R, 0 < c & forall U (W : {set 'I_p}), unitary U ->
  exists2 V : 'M[K]_p, (\rank V <= #|W|)%N &
    forall i, (forall l, l \notin W -> sq ((U^H *m samp X i) l 0) < c) -> (row i X <= V)%MS.
Proof.
have [||c c0 hc] := @fin_min [finType of {set 'I_p} * {set 'I_N}] (fun t c => forall U, unitary U ->
  (forall i l, i \in t.2 -> l \notin t.1 -> sq ((U^H *m samp X i) l 0) < c) ->
  exists2 V : 'M[K]_p, (\rank V <= #|t.1|)%N & forall i, i \in t.2 -> (row i X <= V)%MS).
- by move=> [W I]; have [c c0 hc] := near_fixed W I; exists c.
- by move=> t c c' c0 cc h U uU hU; apply: (h U uU) => i l iI lW; exact: lt_le_trans (hU i l iI lW) cc.
exists c => // U W uU; have [|V rV hV] := hc (W, [set i | [forall l, (l \notin W) ==> (sq ((U^H *m samp X i) l 0) < c)]]) U uU.
  by move=> i l /=; rewrite inE => /forallP /(_ l) /implyP h lW; exact: h.
by exists V => // i hi; apply: hV; rewrite inE; apply/forallP => l; apply/implyP; exact: hi.
Qed.
End Near.

(* ------------------------------------------------------------------ the costs at infinity *)
Section Coercive.
Variable K : starField.
Local Notation ofR := (@ofR K).
Local Notation toR := (@toR K).
Local Notation "A ^H" := (adj A) (at level 8, format "A ^H").
Hypothesis cK : compactK K.
Variables (N p : nat) (X : 'M[K]_(N, p.+1)).
Hypothesis (X0 : forall i, row i X != 0) (N0 : (0 < N)%N).
Definition inside (V : 'M[K]_p.+1) := [set i | (row i X <= V)%MS].
Lemma eigdec_pos (T : 'M[K]_p.+1) d U : pd T -> eigdec T d U -> forall l, 0 < d 0 l.
Proof. by move=> pT dec l; apply: (eigval_gt0 pT); exact: eigdec_eigval dec. Qed.
Lemma maha_eig (T : 'M[K]_p.+1) d U x : pd T -> eigdec T d U -> maha T x = \sum_l sq ((U^H *m x) l 0) / d 0 l.
Proof.
move=> pT dec; have d0 := eigdec_pos pT dec; have [uU eT] := dec.
rewrite -maha_dia // -[in LHS](mul1mx x) -(unitaryV uU) -mulmxA eT maha_congr //; first exact: unitary_unit.
by rewrite unitmxE det_diag unitfE; apply/prodf_neq0 => j _; rewrite mxE fmorph_eq0 gt_eqF.
Qed.
Lemma lndet_eig (T : 'M[K]_p.+1) d U : pd T -> eigdec T d U -> ln (toR (\det T)) = \sum_l ln (d 0 l).
Proof. by move=> pT dec; rewrite (eigdec_det dec) toRK ln_prod //; exact: eigdec_pos dec. Qed.
Lemma eig_layers : exists2 c : R, 0 < c & forall T d U, pd T -> eigdec T d U -> exists m : 'I_N -> R,
  [/\ forall i, exists l, m i = ln (d 0 l), forall i, ln c - m i <= ln (maha T (samp X i)) &
      forall t, exists2 V : 'M[K]_p.+1, (\rank V <= #|[set l | (t <= ln (d 0 l))%R]|)%N & [set i | t <= m i] \subset inside V].
Proof.
have [c c0 hc] := near_subspace cK X.
have [||c1 c10 hc1] := @fin_min [finType of 'I_N] (fun i c => p.+1%:R * c <= \sum_j sq (samp X i j 0)).
- move=> i; have h : 0 < \sum_j sq (samp X i j 0).
    rewrite -(maha1 (samp X i)); apply: maha_gt0; [exact: pd1 | exact: samp0].
  by exists ((\sum_j sq (samp X i j 0)) / p.+1%:R); [rewrite divr_gt0 ?ltr0n | rewrite mulrC divfK // pnatr_eq0].
- by move=> i a b b0 ba; apply: le_trans; rewrite ler_pmul2l ?ltr0n.
pose c2 := Num.min c c1; have c20 : 0 < c2 by rewrite lt_minr c0 c10.
exists c2 => // T d U pT dec; have d0 := eigdec_pos pT dec; have [uU eT] := dec.
have big i : exists l, c2 <= sq ((U^H *m samp X i) l 0).
  apply: NNPP => no; have lt l : sq ((U^H *m samp X i) l 0) < c2 by rewrite ltNge; apply/negP => h; apply: no; exists l.
  have : \sum_l sq ((U^H *m samp X i) l 0) < \sum_(l < p.+1) c2.
    by rewrite !big_ord_recl; apply: ltr_le_add => //; apply: ler_sum => l _; apply: ltW.
  have -> : \sum_l sq ((U^H *m samp X i) l 0) = \sum_l sq (samp X i l 0).
    have uH := unitary_unit (unitary_adj uU).
    by have := maha_congr (samp X i) uH (unitmx1 K p.+1); rewrite mulmx1 adjK uU !maha1.
  rewrite sumr_const card_ord -mulr_natl ltNge; apply/negP/negPn; apply: le_trans (hc1 i).
  by rewrite ler_pmul2l ?ltr0n // le_minl lexx orbT.
have am i : exists l, c2 <= sq ((U^H *m samp X i) l 0) /\ forall j, c2 <= sq ((U^H *m samp X i) j 0) -> ln (d 0 l) <= ln (d 0 j).
  have [l hl] := big i.
  by case: (@arg_minP _ _ _ l (fun l => c2 <= sq ((U^H *m samp X i) l 0)) (fun l => ln (d 0 l)) hl) => l1 h1 h2; exists l1.
pose lm i := epsilon (inhabits ord0) (fun l => c2 <= sq ((U^H *m samp X i) l 0) /\ forall j, c2 <= sq ((U^H *m samp X i) j 0) -> ln (d 0 l) <= ln (d 0 j)).
have hlm i : c2 <= sq ((U^H *m samp X i) (lm i) 0) /\ forall j, c2 <= sq ((U^H *m samp X i) j 0) -> ln (d 0 (lm i)) <= ln (d 0 j).
  exact: (epsilon_spec (inhabits ord0) _ (am i)).
exists (fun i => ln (d 0 (lm i))); split.
- by move=> i; exists (lm i).
- move=> i; have [h _] := hlm i; rewrite -lnD //; apply: ln_le; first by rewrite divr_gt0.
  rewrite (maha_eig _ pT dec) (bigD1 (lm i)) //= -[X in X <= _]addr0; apply: ler_add; first by rewrite ler_pmul2r ?invr_gt0.
  by apply: sumr_ge0 => l _; rewrite divr_ge0 ?sq_ge0 // ltW.
- move=> t; have [V rV hV] := hc U [set l | t <= ln (d 0 l)] uU; exists V => //.
  apply/subsetP => i; rewrite !inE => ti; apply: hV => l; rewrite inE -ltNge => lt.
  have [_ h] := hlm i; apply: (@lt_le_trans _ _ c2); last by rewrite le_minl lexx.
  rewrite ltNge; apply/negP => /h; rewrite leNgt => /negP; apply; exact: lt_le_trans ti.
Qed.
Lemma arg_ord (f : 'I_p.+1 -> R) : exists l, forall j, f l <= f j.
Proof. by case: (@arg_minP _ _ _ ord0 xpredT f isT) => l _ h; exists l => j; exact: h. Qed.
Lemma inside0 (V : 'M[K]_p.+1) : \rank V = 0%N -> #|inside V| = 0%N.
Proof.
move=> /eqP; rewrite mxrank_eq0 => /eqP ->; apply/eqP; rewrite cards_eq0; apply/eqP/setP => i; rewrite !inE submx0.
exact: negbTE (X0 i).
Qed.
(* the layers above t, when the number of samples in a subspace is bounded by a function of its dimension *)
Lemma tyler_coercive : (forall V : 'M[K]_p.+1, (0 < \rank V < p.+1)%N -> (p.+1 * #|inside V| < N * \rank V)%N) ->
  exists C : R, forall T d U, pd T -> eigdec T d U -> forall l l',
    C + (ln (d 0 l) - ln (d 0 l')) <= mcost (fun q => p.+1%:R * ln q) X T.
Proof.
move=> cond; have [c c0 hc] := eig_layers; exists (p.+1%:R * N%:R * ln c) => T d U pT dec l l'.
have [m [m1 m2 m3]] := hc T d U pT dec; pose y l := ln (d 0 l).
have [s hs] := arg_ord y; have [e' he] := arg_ord (fun l => - y l); have {}he j : y j <= y e' by rewrite -ler_opp2.
have L : 1 * (y e' - y s) <= lay y m N%:R p.+1%:R (y e') - lay y m N%:R p.+1%:R (y s).
  apply: (layers m1 (leqnn _)) => // t st te; have [V rV sV] := m3 t.
  rewrite -!natrM ler_subr_addr -[1]/(1%:R) -natrD ler_nat add1n.
  apply: (@leq_ltn_trans (p.+1 * #|inside V|)); first by rewrite leq_mul2l subset_leq_card.
  have Wp : (#|[set l | (t <= y l)%R]| < p.+1)%N.
    rewrite -[X in (_ < X)%N]card_ord -cardsT; apply: proper_card; rewrite properT; apply/negP => /eqP /setP /(_ s).
    by rewrite !inE leNgt st.
  have W0 : (0 < #|[set l | (t <= y l)%R]|)%N by apply/card_gt0P; exists e'; rewrite inE.
  case: (posnP (\rank V)) => [/inside0 -> |r0]; first by rewrite muln0 muln_gt0 N0.
  by apply: leq_trans (cond V _) _; [rewrite r0 (leq_ltn_trans rV) | rewrite leq_mul2l rV orbT].
have lay_e : lay y m N%:R p.+1%:R (y e') = N%:R * (\sum_l y l) - p.+1%:R * (\sum_i m i).
  rewrite /lay; congr (_ * _ - _ * _); apply: eq_bigr => j _; first by rewrite min_l.
  by have [j' ->] := m1 j; rewrite min_l //; exact: he.
have lay_s : lay y m N%:R p.+1%:R (y s) = 0.
  rewrite /lay (eq_bigr (fun=> y s)) => [|j _]; last by rewrite min_r.
  rewrite [X in _ - _ * X](eq_bigr (fun=> y s)) => [|j _]; last by have [j' ->] := m1 j; rewrite min_r //; exact: hs.
  by rewrite !sumr_const !card_ord -[y s *+ p.+1]mulr_natl -[y s *+ N]mulr_natl mulrCA subrr.
rewrite mul1r lay_e lay_s subr0 in L.
rewrite /mcost (lndet_eig pT dec) -mulr_sumr; apply: (@le_trans _ _ (p.+1%:R * (\sum_i (ln c - m i)) + N%:R * (\sum_l y l))).
  rewrite sumrB sumr_const card_ord -[ln c *+ N]mulr_natl mulrBr mulrA -addrA ler_add2l [X in _ <= X]addrC; apply: le_trans L.
  by apply: ler_sub; [exact: he | exact: hs].
by rewrite ler_add2r; apply: ler_wpmul2l; [exact: ler0n | apply: ler_sum => i _; exact: m2].
Qed.
(* a strict bound between numbers taken from finite sets holds with a margin *)
Lemma margin (a : R) : exists2 g : R, 0 < g & forall n d : nat, (n <= N)%N -> (d <= p)%N ->
  (a + p.+1%:R) * n%:R < N%:R * (a + d%:R) -> (a + p.+1%:R) * n%:R + g <= N%:R * (a + d%:R).
Proof.
have [||g g0 hg] := @fin_min [finType of 'I_N.+1 * 'I_p.+1] (fun t g => (a + p.+1%:R) * t.1%:R < N%:R * (a + t.2%:R) -> (a + p.+1%:R) * t.1%:R + g <= N%:R * (a + t.2%:R)).
- move=> t; case: (ltP ((a + p.+1%:R) * t.1%:R) (N%:R * (a + t.2%:R))) => h; last by exists 1; rewrite ?ltr01.
  by exists (N%:R * (a + t.2%:R) - (a + p.+1%:R) * t.1%:R); [rewrite subr_gt0 | rewrite addrC subrK].
- by move=> t g g' g0 gg h lt; apply: le_trans (h lt); rewrite ler_add2l.
by exists g => // n d nN dp; exact: (hg (Ordinal (nN : (n < N.+1)%N), Ordinal (dp : (d < p.+1)%N))).
Qed.
Lemma student_coercive (a : R) : 0 < a -> (forall V : 'M[K]_p.+1, (\rank V < p.+1)%N -> (a + p.+1%:R) * #|inside V|%:R < N%:R * (a + (\rank V)%:R)) ->
  exists C : R, exists2 g : R, 0 < g & forall T d U, pd T -> eigdec T d U -> forall l,
    C + N%:R * ln (d 0 l) <= mcost (fun q => (a + p.+1%:R) * ln (a + q)) X T /\ C - g * ln (d 0 l) <= mcost (fun q => (a + p.+1%:R) * ln (a + q)) X T.
Proof.
move=> a0 cond; have [c c0 hc] := eig_layers; have [g g0 hg] := margin a.
have b0 : 0 < a + p.+1%:R by rewrite ltr_spaddl ?ler0n.
pose C0 := Num.min (ln a) (ln c); exists ((a + p.+1%:R) * (N%:R * C0)), g => // T d U pT dec l.
have [m [m1 m2 m3]] := hc T d U pT dec; pose y l := ln (d 0 l).
have [s hs] := arg_ord y; pose f := lay y m N%:R (a + p.+1%:R).
have lay_s (t : R) : t <= y s -> f t = - (N%:R * a * t).
  move=> ts; rewrite /f /lay (eq_bigr (fun=> t)) => [|j _]; last by rewrite min_r // (le_trans ts).
  rewrite [X in _ - _ * X](eq_bigr (fun=> t)) => [|j _]; last by have [j' ->] := m1 j; rewrite min_r // (le_trans ts) //; exact: hs.
  rewrite !sumr_const !card_ord -[t *+ p.+1]mulr_natl -[t *+ N]mulr_natl; move: (p.+1%:R) (N%:R) => P M; rring.
have L0 : 0 <= f 0 /\ - (g * y s) <= f 0.
  case: (leP 0 (y s)) => h; first by rewrite lay_s // mulr0 oppr0 lexx oppr_le0 mulr_ge0 // ltW.
  have L : (g - N%:R * a) * (0 - y s) <= f 0 - f (y s).
    apply: (layers m1 (leqnn _)) => [|t st te]; first exact: ltW.
    have [V rV sV] := m3 t.
    have Wp : (#|[set l | (t <= y l)%R]| < p.+1)%N.
      rewrite -[X in (_ < X)%N]card_ord -cardsT; apply: proper_card; rewrite properT; apply/negP => /eqP /setP /(_ s).
      by rewrite !inE leNgt st.
    have rp := leq_ltn_trans rV Wp.
    have nN : (#|inside V| <= N)%N by rewrite -[X in (_ <= X)%N]card_ord max_card.
    have := hg _ _ nN rp (cond V rp) => q.
    have i1 : #|[set i | t <= m i]|%:R <= #|inside V|%:R :> R by rewrite ler_nat subset_leq_card.
    have i2 : (\rank V)%:R <= #|[set l | t <= y l]|%:R :> R by rewrite ler_nat.
    have i3 : (a + p.+1%:R) * #|[set i | t <= m i]|%:R <= (a + p.+1%:R) * #|inside V|%:R by rewrite ler_pmul2l.
    have i4 : N%:R * (a + (\rank V)%:R) <= N%:R * a + N%:R * #|[set l | t <= y l]|%:R.
      by rewrite -mulrDr; apply: ler_wpmul2l; rewrite ?ler0n // ler_add2l.
    rewrite ler_subr_addr addrAC ler_subl_addr [g + _]addrC [X in _ <= X]addrC.
    exact: le_trans (ler_add i3 (lexx g)) (le_trans q i4).
  have e1 : - (g * y s) <= f 0.
    move: L; rewrite (lay_s (y s)) //; move: (f 0) (N%:R * a) (y s) => u v w q; apply: (@le_trans _ _ ((g - v) * (0 - w) - v * w)); last by rewrite -ler_subr_addr opprK; move: q; rewrite opprK.
    by rewrite le_eqVlt; apply/orP; left; apply/eqP; rring.
  split=> //; apply: le_trans e1; by rewrite oppr_ge0 pmulr_rle0 // ltW.
have low : (a + p.+1%:R) * (N%:R * C0) + f 0 + N%:R * (\sum_l (y l - Num.min (y l) 0)) <= mcost (fun q => (a + p.+1%:R) * ln (a + q)) X T.
  rewrite /mcost (lndet_eig pT dec) -mulr_sumr.
  have -> : (a + p.+1%:R) * (N%:R * C0) + f 0 + N%:R * (\sum_l (y l - Num.min (y l) 0)) =
      (a + p.+1%:R) * (\sum_i (C0 - Num.min (m i) 0)) + N%:R * (\sum_l y l).
    rewrite /f /lay !sumrB sumr_const card_ord -[C0 *+ N]mulr_natl; move: (p.+1%:R) (N%:R) (\sum_i _) (\sum_i _) (\sum_i _) => P M u v w; rring.
  rewrite ler_add2r ler_pmul2l //; apply: ler_sum => i _.
  have q0 := maha_gt0 pT (samp0 X0 i); case: (leP (m i) 0) => h.
    apply: (@le_trans _ _ (ln c - m i)); first by rewrite ler_add2r le_minl lexx orbT.
    by apply: le_trans (m2 i) _; apply: ln_le => //; rewrite ler_addr ltW.
  by rewrite subr0; apply: (@le_trans _ _ (ln a)); [rewrite le_minl lexx | apply: ln_le => //; rewrite ler_addl ltW].
have pos j : 0 <= y j - Num.min (y j) 0 by rewrite subr_ge0 le_minl lexx.
have sum0 : 0 <= \sum_l (y l - Num.min (y l) 0) by apply: sumr_ge0 => j _.
have [f0 f1] := L0; split; apply: le_trans low; rewrite -addrA ler_add2l.
- apply: (@le_trans _ _ (N%:R * (\sum_l (y l - Num.min (y l) 0)))); last by rewrite ler_addr.
  apply: ler_wpmul2l; first exact: ler0n.
  apply: (@le_trans _ _ (y l - Num.min (y l) 0)); first by rewrite -/(y l) ler_addl oppr_ge0 le_minl lexx orbT.
  by rewrite (bigD1 l) //= ler_addl; apply: sumr_ge0.
- rewrite -[X in X <= _]addr0; apply: ler_add; last by rewrite mulr_ge0 ?ler0n.
  by apply: le_trans f1; rewrite ler_opp2 ler_pmul2l //; exact: hs.
Qed.
End Coercive.
