(* Tyler's equation when the samples move a little.  Nothing here models code. *)
From Coq Require Import Reals Epsilon Lra Classical_Prop.
From mathcomp Require Import all_ssreflect all_algebra.
From mathcomp Require Import zify.
From Verif Require Import RealsMC RealTac RealTac2 Star FunCalc Spec_covariance Spec_fixedpoint Spec_exist Proofs_mest Proofs_cost Proofs_unique Proofs_unique2
  Compact Proofs_estimators Proofs_converge Props_cost Props_robust Props_unique Props_converge Proofs_exist Proofs_exist2 Props_exist Spec_breakdown Proofs_breakdown
  Proofs_stable Proofs_stable2.
Set Implicit Arguments.
Unset Strict Implicit.
Unset Printing Implicit Defensive.
Local Open Scope ring_scope.
Import GRing.Theory Num.Theory Order.TTheory.

(* the rank does not decrease *)
Section Rank.
Variable K : starField.
Variables (N p : nat).
Implicit Types (X Y : 'M[K]_(N, p)).
Lemma cont_prod (I : finType) (f : I -> 'M[K]_(N, p) -> K) X : (forall i, contK (f i) X) -> contK (fun Y => \prod_i f i Y) X.
Proof.
move=> cf; suff H (s : seq I) : contK (fun Y => \prod_(i <- s) f i Y) X by exact: H.
elim: s => [|i s IH] e e0.
  by apply: near_imp (cont_const 1 X e0) => Y; rewrite !big_nil.
by apply: near_imp (cont_mul (cf i) IH e0) => Y; rewrite !big_cons.
Qed.
Lemma cont_det n (f : 'M[K]_(N, p) -> 'M[K]_n) X : (forall i j, contK (fun Y => f Y i j) X) -> contK (fun Y => \det (f Y)) X.
Proof.
move=> cf; apply: cont_sum => s; apply: cont_mul; first exact: cont_const.
by apply: cont_prod => i; exact: cf.
Qed.
Lemma cont_lin m n (A : 'M[K]_(m, N)) (B : 'M[K]_(p, n)) X i j : contK (fun Y => (A *m Y *m B) i j) X.
Proof.
move=> e e0; apply: near_imp (_ : near_data X (fun Y => sq ((\sum_k (\sum_l A i l * Y l k) * B k j) - (\sum_k (\sum_l A i l * X l k) * B k j)) <= e)).
  have E Y : (A *m Y *m B) i j = \sum_k (\sum_l A i l * Y l k) * B k j by rewrite mxE; apply: eq_bigr => k _; rewrite mxE.
  by move=> Y; rewrite !E.
apply: (_ : contK (fun Y => \sum_k (\sum_l A i l * Y l k) * B k j) X) => //.
apply: cont_sum => k; apply: cont_mul; last exact: cont_const.
by apply: cont_sum => l; apply: cont_mul; [exact: cont_const | exact: cont_entry].
Qed.
Lemma near_rank m (D : 'M[K]_(m, N)) X : near_data X (fun Y => (\rank (D *m X) <= \rank (D *m Y))%N).
Proof.
set r := \rank (D *m X).
pose A : 'M[K]_(r, m) := pid_mx r *m invmx (col_ebase (D *m X)); pose B : 'M[K]_(p, r) := invmx (row_ebase (D *m X)) *m pid_mx r.
have e : A *m D *m X *m B = 1%:M.
  rewrite -[A *m D *m X]mulmxA -[X in A *m X *m B]mulmx_ebase /A /B !mulmxA mulmxKV ?col_ebase_unit // mulmxK ?row_ebase_unit //.
  by rewrite -/r !pid_mx_id ?rank_leq_row ?rank_leq_col // pid_mx_1.
have c : contK (fun Y => \det (A *m D *m Y *m B)) X by apply: cont_det => i j; exact: cont_lin.
have q0 : 0 < 4%:R^-1 :> R by rewrite invr_gt0 ltr0n.
apply: near_imp (c _ q0) => Y; rewrite e det1 => h.
have d0 : \det (A *m D *m Y *m B) != 0.
  apply/eqP => d; move: h; rewrite d sub0r sqN sq1 leNgt => /negP; apply; by rewrite invf_lt1 ?ltr0n // ltr1n.
have u : A *m D *m Y *m B \in unitmx by rewrite unitmxE unitfE.
rewrite -(mxrank_unit u); apply: leq_trans (mxrankM_maxl _ _) _; rewrite -mulmxA; exact: mxrankM_maxr.
Qed.
(* the condition on the samples holds for the samples near them *)
Definition only (I : {set 'I_N}) : 'M[K]_N := diag_mx (\row_i (i \in I)%:R).
Lemma row_only I X i : row i (only I *m X) = if i \in I then row i X else 0.
Proof.
by apply/rowP => j; rewrite mxE mul_diag_mx !mxE; case: ifP => _; rewrite ?mxE ?mul1r ?mul0r.
Qed.
Lemma near_condition X : (forall i, row i X != 0) -> tyler_condition X -> near_data X (@tyler_condition K N p).
Proof.
move=> X0 cond; have nr := @near_all K N p [finType of {set 'I_N}] X (fun I Y => (\rank (only I *m X) <= \rank (only I *m Y))%N) (fun I => near_rank (only I) X).
apply: near_imp nr => Y nr V /andP[r0 rp]; pose I := [set i | (row i Y <= V)%MS]; rewrite /count_in -/I.
have le : (\rank (only I *m X) <= \rank V)%N.
  apply: leq_trans (nr I) _; apply: mxrankS; apply/row_subP => i; rewrite row_only; case: ifP => h; last exact: sub0mx.
  by move: h; rewrite inE.
pose W := (<<only I *m X>>)%MS; have rW : \rank W = \rank (only I *m X) by rewrite mxrank_gen.
have sI : I \subset [set i | (row i X <= W)%MS].
  apply/subsetP => i iI; rewrite inE genmxE; have <- : row i (only I *m X) = row i X by rewrite row_only iI.
  exact: row_sub.
case: (posnP (\rank W)) => [w0|w0].
  have -> : #|I| = 0%N.
    apply/eqP; rewrite cards_eq0; apply/eqP/setP => i; rewrite in_set0; apply/negP => iI.
    have := subsetP sI i iI; rewrite inE => /mxrankS; rewrite w0 leqn0 mxrank_eq0 => /eqP e.
    by have := X0 i; rewrite e eqxx.
  have := cond V; rewrite r0 rp => /(_ isT); rewrite muln0; exact: leq_ltn_trans.
apply: leq_ltn_trans (_ : p * count_in X W < _)%N; first by rewrite leq_mul2l subset_leq_card ?orbT.
apply: leq_trans (cond W _) _; first by rewrite w0 rW (leq_ltn_trans le rp).
by rewrite leq_mul2l rW le orbT.
Qed.
End Rank.

Section Layers.
Variable K : starField.
Local Notation ofR := (@ofR K).
Local Notation toR := (@toR K).
Local Notation "A ^H" := (adj A) (at level 8, format "A ^H").
Hypothesis cK : compactK K.
Variables (N p : nat) (X : 'M[K]_(N, p.+1)).
Hypothesis X0 : forall i, row i X != 0.
Lemma layers_gen (c2 : R) (Y : 'M[K]_(N, p.+1)) : 0 < c2 -> (forall i, p.+1%:R * c2 <= nrm2 (samp Y i)) ->
  (forall U (W : {set 'I_p.+1}), unitary U -> exists2 V : 'M[K]_p.+1, (\rank V <= #|W|)%N & forall i, (forall l, l \notin W -> sq ((U^H *m samp Y i) l 0) < c2) -> (row i X <= V)%MS) ->
  forall T d U, pd T -> eigdec T d U -> exists m : 'I_N -> R,
  [/\ forall i, exists l, m i = ln (d 0 l), forall i, ln c2 - m i <= ln (maha T (samp Y i)) &
      forall t, exists2 V : 'M[K]_p.+1, (\rank V <= #|[set l | (t <= ln (d 0 l))%R]|)%N & [set i | t <= m i] \subset inside X V].
Proof.
move=> c20 large hc T d U pT dec; have d0 := eigdec_pos pT dec; have [uU eT] := dec.
have big i : exists l, c2 <= sq ((U^H *m samp Y i) l 0).
  apply: NNPP => no; have lt l : sq ((U^H *m samp Y i) l 0) < c2 by rewrite ltNge; apply/negP => h; apply: no; exists l.
  have : \sum_l sq ((U^H *m samp Y i) l 0) < \sum_(l < p.+1) c2.
    by rewrite !big_ord_recl; apply: ltr_le_add => //; apply: ler_sum => l _; apply: ltW.
  have -> : \sum_l sq ((U^H *m samp Y i) l 0) = nrm2 (samp Y i).
    have uH := unitary_unit (unitary_adj uU).
    by have := maha_congr (samp Y i) uH (unitmx1 K p.+1); rewrite mulmx1 adjK uU !maha1.
  by rewrite sumr_const card_ord -mulr_natl ltNge; apply/negP/negPn/large.
have am i : exists l, c2 <= sq ((U^H *m samp Y i) l 0) /\ forall j, c2 <= sq ((U^H *m samp Y i) j 0) -> ln (d 0 l) <= ln (d 0 j).
  have [l hl] := big i.
  by case: (@arg_minP _ _ _ l (fun l => c2 <= sq ((U^H *m samp Y i) l 0)) (fun l => ln (d 0 l)) hl) => l1 h1 h2; exists l1.
pose lm i := epsilon (inhabits ord0) (fun l => c2 <= sq ((U^H *m samp Y i) l 0) /\ forall j, c2 <= sq ((U^H *m samp Y i) j 0) -> ln (d 0 l) <= ln (d 0 j)).
have hlm i : c2 <= sq ((U^H *m samp Y i) (lm i) 0) /\ forall j, c2 <= sq ((U^H *m samp Y i) j 0) -> ln (d 0 (lm i)) <= ln (d 0 j).
  exact: (epsilon_spec (inhabits ord0) _ (am i)).
exists (fun i => ln (d 0 (lm i))); split.
- by move=> i; exists (lm i).
- move=> i; have [h _] := hlm i; rewrite -lnD //; apply: ln_le; first by rewrite divr_gt0.
  rewrite (maha_eig _ pT dec) (bigD1 (lm i)) //= -[X in X <= _]addr0; apply: ler_add; first by rewrite ler_pmul2r ?invr_gt0.
  by apply: sumr_ge0 => l _; rewrite divr_ge0 ?sq_ge0 // ltW.
- move=> t; have [V rV hV] := hc U [set l | t <= ln (d 0 l)] uU; exists V => //.
  apply/subsetP => i; rewrite !inE => ti; apply: hV => l; rewrite inE -ltNge => lt.
  have [_ h] := hlm i; rewrite ltNge; apply/negP => /h; rewrite leNgt => /negP; apply; exact: lt_le_trans ti.
Qed.
Lemma sq_le_nrm2 (x : 'cV[K]_p.+1) l : sq (x l 0) <= nrm2 x.
Proof. by rewrite /nrm2 (bigD1 l) //= ler_addl; apply: sumr_ge0 => j _; exact: sq_ge0. Qed.
Lemma nrm2_unitary U (x : 'cV[K]_p.+1) : unitary U -> nrm2 (U^H *m x) = nrm2 x.
Proof.
move=> uU; have uH := unitary_unit (unitary_adj uU).
by have := maha_congr x uH (unitmx1 K p.+1); rewrite mulmx1 adjK uU !maha1.
Qed.
Lemma nrm2_le_fro2 (Y : 'M[K]_(N, p.+1)) i : nrm2 (samp Y i - samp X i) <= fro2 (Y - X).
Proof.
rewrite fro2E (bigD1 i) //= ler_paddr //; first by apply: sumr_ge0 => k _; apply: sumr_ge0 => j _; exact: sq_ge0.
by rewrite /nrm2; apply: ler_sum => j _; rewrite !mxE.
Qed.
Lemma nrm2D (x y : 'cV[K]_p.+1) : nrm2 (x + y) <= 2%:R * (nrm2 x + nrm2 y).
Proof. by rewrite /nrm2 -big_split mulr_sumr; apply: ler_sum => j _; rewrite mxE; exact: sqD. Qed.
Lemma nrm2N (x : 'cV[K]_p.+1) : nrm2 (- x) = nrm2 x.
Proof. by apply: eq_bigr => j _; rewrite mxE sqN. Qed.
Lemma quarter (a b d : R) : a <= 2%:R * (b + d) -> 4%:R * d <= a -> a <= 4%:R * b.
Proof. by rewrite -[2%:R]/(1 + 1) -[4%:R]/(1 + (1 + (1 + 1))) => h1 h2; rlra2. Qed.
Lemma halves (x y d c : R) : x <= 2%:R * (y + d) -> y < c -> d <= c -> x < 4%:R * c.
Proof. by rewrite -[2%:R]/(1 + 1) -[4%:R]/(1 + (1 + (1 + 1))) => h1 h2 h3; rlra2. Qed.
Lemma near_layers : exists2 c : R, 0 < c & forall Y, fro2 (Y - X) <= c -> forall T d U, pd T -> eigdec T d U -> exists m : 'I_N -> R,
  [/\ forall i, exists l, m i = ln (d 0 l), forall i, ln c - m i <= ln (maha T (samp Y i)) &
      forall t, exists2 V : 'M[K]_p.+1, (\rank V <= #|[set l | (t <= ln (d 0 l))%R]|)%N & [set i | t <= m i] \subset inside X V].
Proof.
have [c c0 hc] := near_subspace cK X.
have [||c1 c10 hc1] := @fin_min [finType of 'I_N] (fun i c => 4%:R * (p.+1%:R * c) <= nrm2 (samp X i)).
- move=> i; have h := nrm2_gt0 (samp0 X0 i); exists (nrm2 (samp X i) / (4%:R * p.+1%:R)); first by rewrite divr_gt0 // mulr_gt0 ?ltr0n.
  by rewrite mulrA mulrC divfK // mulf_neq0 // pnatr_eq0.
- by move=> i a b b0 ba; apply: le_trans; rewrite !ler_pmul2l ?ltr0n.
pose c2 := Num.min (c / 4%:R) c1; have c20 : 0 < c2 by rewrite lt_minr c10 divr_gt0 ?ltr0n.
have c21 : 4%:R * c2 <= c by rewrite mulrC -ler_pdivl_mulr ?ltr0n // le_minl lexx.
have c22 : c2 <= c1 by rewrite le_minl lexx orbT.
exists c2 => // Y hY; have near i := le_trans (nrm2_le_fro2 Y i) hY.
apply: layers_gen => // [i|U W uU].
  have h := nrm2D (samp Y i) (- (samp Y i - samp X i)); rewrite subKr nrm2N in h.
  have l1 : 4%:R * (p.+1%:R * c2) <= nrm2 (samp X i) by apply: le_trans (hc1 i); rewrite !ler_pmul2l ?ltr0n.
  rewrite -(@ler_pmul2l _ 4%:R) ?ltr0n //; apply: le_trans l1 (quarter h _).
  apply: le_trans (hc1 i); rewrite ler_pmul2l ?ltr0n //; apply: le_trans (near i) _; apply: le_trans c22 _.
  by rewrite ler_pemull ?(ltW c10) // ler1n.
have [V rV hV] := hc U W uU; exists V => // i h; apply: hV => l lW; apply: lt_le_trans c21.
have e : (U^H *m samp X i) l 0 = (U^H *m samp Y i) l 0 + - (U^H *m (samp Y i - samp X i)) l 0.
  by rewrite mulmxBr; move: (U^H *m samp Y i) (U^H *m samp X i) => a b; rewrite !mxE opprB addrC subrK.
rewrite e; have := sqD ((U^H *m samp Y i) l 0) (- (U^H *m (samp Y i - samp X i)) l 0); rewrite sqN => g.
apply: halves g (h l lW) _; apply: le_trans (sq_le_nrm2 _ _) _; rewrite nrm2_unitary //; exact: near.
Qed.
End Layers.

Section Cost.
Variable K : starField.
Local Notation ofR := (@ofR K).
Local Notation toR := (@toR K).
Local Notation cj := (@cj K).
Local Notation "A ^H" := (adj A) (at level 8, format "A ^H").
Hypothesis cK : compactK K.
Variables (N p : nat) (X : 'M[K]_(N, p.+1)).
Hypotheses (X0 : forall i, row i X != 0) (N0 : (0 < N)%N).
Lemma near_coercive : tyler_condition X -> exists C : R, near_data X (fun Y =>
  forall T d U, pd T -> eigdec T d U -> forall l l', C + (ln (d 0 l) - ln (d 0 l')) <= tcost Y T).
Proof.
move=> cond; have [c c0 hc] := near_layers cK X0; exists (p.+1%:R * N%:R * ln c), c => // Y nY T d U pT dec l l'.
have [m [m1 m2 m3]] := hc Y nY T d U pT dec; pose y l := ln (d 0 l).
have [s hs] := arg_ord y; have [e' he] := arg_ord (fun l => - y l); have {}he j : y j <= y e' by rewrite -ler_opp2.
have L : 1 * (y e' - y s) <= lay y m N%:R p.+1%:R (y e') - lay y m N%:R p.+1%:R (y s).
  apply: (layers m1 (leqnn _)) => // t st te; have [V rV sV] := m3 t.
  rewrite -!natrM ler_subr_addr -[1]/(1%:R) -natrD ler_nat add1n.
  apply: (@leq_ltn_trans (p.+1 * #|inside X V|)); first by rewrite leq_mul2l subset_leq_card.
  have Wp : (#|[set l | (t <= y l)%R]| < p.+1)%N.
    rewrite -[X in (_ < X)%N]card_ord -cardsT; apply: proper_card; rewrite properT; apply/negP => /eqP /setP /(_ s).
    by rewrite !inE leNgt st.
  have W0 : (0 < #|[set l | (t <= y l)%R]|)%N by apply/card_gt0P; exists e'; rewrite inE.
  case: (posnP (\rank V)) => [/(inside0 X0) -> |r0]; last first.
    by apply: leq_trans (cond _ _) _; [rewrite r0 (leq_ltn_trans rV) | rewrite leq_mul2l rV orbT].
  by rewrite muln0 muln_gt0 N0 W0.
have lay_e : lay y m N%:R p.+1%:R (y e') = N%:R * (\sum_l y l) - p.+1%:R * (\sum_i m i).
  rewrite /lay; congr (_ * _ - _ * _); apply: eq_bigr => j _; first by rewrite min_l.
  by have [j' ->] := m1 j; rewrite min_l //; exact: he.
have lay_s : lay y m N%:R p.+1%:R (y s) = 0.
  rewrite /lay (eq_bigr (fun=> y s)) => [|j _]; last by rewrite min_r.
  rewrite [X in _ - _ * X](eq_bigr (fun=> y s)) => [|j _]; last by have [j' ->] := m1 j; rewrite min_r //; exact: hs.
  by rewrite !sumr_const !card_ord -[y s *+ p.+1]mulr_natl -[y s *+ N]mulr_natl mulrCA subrr.
rewrite mul1r lay_e lay_s subr0 in L.
rewrite /tcost (lndet_eig pT dec); apply: (@le_trans _ _ (p.+1%:R * (\sum_i (ln c - m i)) + N%:R * (\sum_l y l))).
  rewrite sumrB sumr_const card_ord -[ln c *+ N]mulr_natl mulrBr mulrA -addrA ler_add2l [X in _ <= X]addrC; apply: le_trans L.
  by apply: ler_sub; [exact: he | exact: hs].
by rewrite ler_add2r; apply: ler_wpmul2l; [exact: ler0n | apply: ler_sum => i _; exact: m2].
Qed.
(* the solutions for the samples near X have a bounded condition number *)
Lemma near_conditioned : tyler_condition X -> exists M, near_data X (fun Y => forall T, tyler_solution Y T -> conditioned M T).
Proof.
move=> cond; have [C hC] := near_coercive cond; have [Q Q0 hQ] := near_maha X (pd1 K p.+1).
exists (Rtrigo_def.exp (p.+1%:R * (N%:R * Num.max 0 (ln Q)) - C)).
apply: near_imp (near_and (near_nonzero X0) (near_and hC hQ)) => Y [Y0 [hY qY]] T [pT eT].
have dec := specdecP (pd_herm pT); apply: (ratio_conditioned pT dec) => l l'; rewrite ler_subr_addl.
apply: le_trans (hY T _ _ pT dec l l') _; apply: le_trans (tyler_min N0 Y0 pT (pd1 K _) eT) _.
rewrite /tcost det1 toR1 ln1 mulr0 addr0; apply: ler_wpmul2l; first exact: ler0n.
rewrite mulr_natl -[N in _ *+ N]card_ord -sumr_const; apply: ler_sum => i _.
rewrite le_maxr; apply/orP; right; apply: ln_le; [exact: (maha_gt0 (pd1 _ _) (samp0 Y0 i)) | exact: qY].
Qed.
(* Mahalanobis distances of near vectors *)
Lemma sq_split (u v : K) (s : R) : 0 < s -> sq (u + v) <= (1 + s) * sq u + (1 + s^-1) * sq v.
Proof.
move=> s0; have := sq_ge0 (ofR s * u - v); rewrite !sqDe sqN sq_scale rmorphN mulrN raddfN -mulrA toRZ => h.
have {}h : 0 <= s^-1 * (s ^+ 2 * sq u + sq v + (- (s * toR (u * cj v)) - s * toR (u * cj v))) by rewrite mulr_ge0 // invr_ge0 ltW.
move: h; move: (toR _) (sq u) (sq v) => a b c; have sn : s <> 0 by apply/eqP; rewrite gt_eqF.
have -> : s^-1 * (s ^+ 2 * b + c + (- (s * a) - s * a)) = s * b + s^-1 * c - a - a by rfield.
rewrite [(1 + s) * b]mulrDl [(1 + s^-1) * c]mulrDl !mul1r; move: (s * b) (s^-1 * c) => x y h; rlra2.
Qed.
Lemma maha_split (T : 'M[K]_p.+1) a b (s : R) : pd T -> 0 < s -> maha T (a + b) <= (1 + s) * maha T a + (1 + s^-1) * maha T b.
Proof.
move=> pT s0; have dec := specdecP (pd_herm pT); have d0 := eigdec_pos pT dec; rewrite !(maha_eig _ pT dec) !mulr_sumr -big_split.
apply: ler_sum => l _ /=; rewrite !mulrA -mulrDl; apply: ler_wpmul2r; first by rewrite invr_ge0 ltW.
by rewrite mulmxDr; move: (_ *m a) (_ *m b) => u v; rewrite mxE; exact: sq_split.
Qed.
Lemma maha_near (M n e : R) : 0 < n -> 0 < e -> exists2 dl : R, 0 < dl & forall T, pd T -> conditioned M T -> forall a b : 'cV[K]_p.+1,
  n <= nrm2 a -> nrm2 b <= dl -> maha T (a + b) <= (1 + e) * maha T a.
Proof.
move=> n0 e0; have [s s0 es] : exists2 s : R, 0 < s & e = s + s by exists (e / 2%:R); [rewrite divr_gt0 ?ltr0n | rfield].
pose k := (1 + s^-1) * (1 + `|M|); have s1 : 0 < 1 + s^-1 by rewrite addr_gt0 ?ltr01 ?invr_gt0.
have k0 : 0 < k by rewrite mulr_gt0 // ltr_spaddl ?ltr01.
exists (s * n / k); first by rewrite divr_gt0 // mulr_gt0.
move=> T pT [c c0 [lo up]] a b na nb; have ma := maha_ge0 a pT.
have h1 : maha T b <= c^-1 * nrm2 b.
  rewrite /nrm2 -maha1; apply: maha_loewner => //; [exact: pd1|].
  have ci : 0 <= c^-1 by rewrite invr_ge0 ltW.
  by have := loewnerZ ci lo; rewrite scalerA -rmorphM mulVf ?gt_eqF // rmorph1 scale1r.
have h2 : nrm2 a <= M * c * maha T a by rewrite /nrm2 -maha1; apply: maha_loewner => //; exact: pd1.
have h3 : c^-1 * n <= (1 + `|M|) * maha T a.
  rewrite mulrC ler_pdivr_mulr //; apply: le_trans na _; apply: le_trans h2 _; rewrite mulrAC; apply: ler_wpmul2r; first exact: ltW.
  by apply: ler_wpmul2r => //; apply: le_trans (ler_norm M) _; rewrite ler_addr ler01.
apply: le_trans (maha_split a b pT s0) _.
have -> : (1 + e) * maha T a = (1 + s) * maha T a + s * maha T a by rewrite -mulrDl es addrA.
rewrite ler_add2l; apply: le_trans (_ : (1 + s^-1) * (c^-1 * (s * n / k)) <= _).
  by rewrite ler_pmul2l //; apply: le_trans h1 _; rewrite ler_pmul2l ?invr_gt0.
have -> : (1 + s^-1) * (c^-1 * (s * n / k)) = s * (c^-1 * n) * ((1 + s^-1) / k).
  move: (1 + s^-1) c^-1 k^-1 => x y z; rring.
have -> : (1 + s^-1) / k = (1 + `|M|)^-1 by rewrite /k invfM mulrA divff ?mul1r // gt_eqF.
by rewrite -mulrA ler_pmul2l // ler_pdivr_mulr ?ltr_spaddl ?ltr01 // [X in _ <= X]mulrC.
Qed.
(* the cost of well conditioned matrices is continuous in the samples, uniformly *)
Lemma nrm2_bound : exists2 n : R, 0 < n & forall i, n <= nrm2 (samp X i).
Proof.
apply: (@fin_min [finType of 'I_N] (fun i n => n <= nrm2 (samp X i))) => [i|i a b b0 ba]; last exact: le_trans.
by exists (nrm2 (samp X i)) => //; apply: nrm2_gt0; exact: samp0.
Qed.
Lemma cost_near (M e : R) : 0 < e -> near_data X (fun Y => forall T, pd T -> conditioned M T -> tcost Y T <= tcost X T + e /\ tcost X T <= tcost Y T + e).
Proof.
move=> e0; have [n n0 hn] := nrm2_bound; pose f := e / (p.+1 * N)%:R; have f0 : 0 < f by rewrite divr_gt0 // ltr0n muln_gt0 N0.
have n4 : 0 < n / 4%:R by rewrite divr_gt0 ?ltr0n.
have [dl dl0 hd] := maha_near M n4 f0; pose d := Num.min dl (n / 4%:R).
exists d; first by rewrite lt_minr dl0.
move=> Y; rewrite le_minr => /andP[h1 h2] T pT cT; have near i := le_trans (nrm2_le_fro2 X Y i) h1.
have bx i : n / 4%:R <= nrm2 (samp X i) by apply: le_trans (hn i); rewrite ler_pdivr_mulr ?ltr0n // ler_pemulr ?(ltW n0) // ler1n.
have by_ i : n / 4%:R <= nrm2 (samp Y i).
  have h := nrm2D (samp Y i) (- (samp Y i - samp X i)); rewrite subKr nrm2N in h.
  rewrite ler_pdivr_mulr ?ltr0n // [X in _ <= X]mulrC; apply: quarter (le_trans (hn i) h) _.
  rewrite mulrC -ler_pdivl_mulr ?ltr0n //; exact: le_trans (nrm2_le_fro2 X Y i) h2.
have a1 i : maha T (samp Y i) <= (1 + f) * maha T (samp X i).
  by have -> : samp Y i = samp X i + (samp Y i - samp X i) by [rewrite addrC subrK]; apply: hd.
have a2 i : maha T (samp X i) <= (1 + f) * maha T (samp Y i).
  by have {1}-> : samp X i = samp Y i + - (samp Y i - samp X i) by [rewrite subKr]; apply: hd => //; rewrite nrm2N.
have gen (A B : 'M[K]_(N, p.+1)) : (forall i, samp A i != 0) -> (forall i, samp B i != 0) ->
    (forall i, maha T (samp A i) <= (1 + f) * maha T (samp B i)) -> tcost A T <= tcost B T + e.
  move=> A0 B0 h; rewrite /tcost addrAC ler_add2r; have -> : e = p.+1%:R * (N%:R * f).
    by rewrite mulrA -natrM /f mulrC divfK // pnatr_eq0 -lt0n muln_gt0 N0.
  rewrite -mulrDr; apply: ler_wpmul2l; first exact: ler0n.
  rewrite mulr_natl -[N in _ *+ N]card_ord -sumr_const -big_split; apply: ler_sum => i _.
  have mA := maha_gt0 pT (A0 i); have mB := maha_gt0 pT (B0 i); have f1 : 0 < 1 + f by rewrite addr_gt0 ?ltr01.
  apply: le_trans (ln_le mA (h i)) _; rewrite lnM // [X in _ <= X]addrC ler_add2r; apply: le_trans (ln_le_sub1 f1) _.
  by rewrite addrC addKr.
have nz (A : 'M[K]_(N, p.+1)) i : n / 4%:R <= nrm2 (samp A i) -> samp A i != 0.
  move=> h; apply/eqP => z; move: (lt_le_trans n4 h); rewrite z /nrm2 big1 ?ltxx // => j _; by rewrite mxE sq0.
by split; apply: gen => // i; apply: nz.
Qed.
(* matrices of almost minimal cost are near the solutions *)
Variable S : 'M[K]_p.+1.
Hypotheses (sol : tyler_solution X S) (cond : tyler_condition X).
Let F := mstep (tyl_w N p.+1) X.
Lemma excess_close (M t : R) : 0 < t -> exists2 eta : R, 0 < eta & forall s, pd s -> conditioned M s -> tcost X s <= tcost X S + eta ->
  exists2 c : R, 0 < c & close t (ofR c *: s) S.
Proof.
move=> t0; apply: NNPP => no.
have ex k : exists s, [/\ pd s, conditioned M s, tcost X s <= tcost X S + k.+1%:R^-1 & forall c : R, 0 < c -> ~ close t (ofR c *: s) S].
  apply: NNPP => nk; apply: no; exists k.+1%:R^-1; first by rewrite invr_gt0 ltr0n.
  by move=> s ps cs es; apply: NNPP => nc; apply: nk; exists s; split=> // c c0 h; apply: nc; exists c.
have ex2 k : exists s, [/\ loewner 1%:M s, loewner s (ofR M *: 1%:M), tcost X s <= tcost X S + k.+1%:R^-1, pd s & forall c : R, 0 < c -> ~ close t (ofR c *: s) S].
  have [s [ps [c c0 [lo up]] es hs]] := ex k; have ci : 0 < c^-1 by rewrite invr_gt0.
  exists (ofR c^-1 *: s); split.
  - by have := loewnerZ (ltW ci) lo; rewrite scalerA -rmorphM mulVf ?gt_eqF // rmorph1 scale1r.
  - by have := loewnerZ (ltW ci) up; rewrite scalerA -rmorphM mulrCA mulVf ?gt_eqF // mulr1.
  - by rewrite tcost_scale.
  - by apply: pdZ; rewrite ?ofR_gt0.
  - by move=> d d0; rewrite scalerA -rmorphM; apply: hs; rewrite mulr_gt0.
pose P k s := [/\ loewner 1%:M s, loewner s (ofR M *: 1%:M), tcost X s <= tcost X S + k.+1%:R^-1, pd s & forall c : R, 0 < c -> ~ close t (ofR c *: s) S].
pose s k := epsilon (inhabits (1%:M : 'M[K]_p.+1)) (P k).
have hs k : P k (s k) by exact: (epsilon_spec (inhabits (1%:M : 'M[K]_p.+1)) (P k) (ex2 k)).
have sp := tyler_spanning sol; have Fpd T := @tyl_pd K N p X X0 T N0 sp.
pose l := 1 + `|M|; have l0 : 0 < l by rewrite ltr_spaddl ?ltr01.
have ps k : pd (s k) by case: (hs k).
have lo k : loewner 1%:M (ofR l *: s k).
  have [a _ _ _ _] := hs k; apply: loewner_trans a _; rewrite -{1}[s k]scale1r -(rmorph1 (@Star.ofR K)); apply: loewner_le; first exact/pd_psd/ps.
  by rewrite ler_addl.
have up k : loewner (s k) (ofR l *: 1%:M).
  have [_ a _ _ _] := hs k; apply: loewner_trans a _; apply: loewner_le; first exact/pd_psd/pd1.
  by apply: le_trans (ler_norm M) _; rewrite ler_addr ler01.
have cv q q' : 0 < q -> 0 < q' -> p.+1%:R * ln q' <= p.+1%:R * ln q + N%:R * tyl_w N p.+1 q * (q' - q) by move=> q0 q'0; rewrite scaledN //; exact: tyler_concave.
have ev (e : R) : 0 < e -> exists k0, forall k, (k0 <= k)%N -> close e (F (s k)) (s k).
  move=> e0; have tt : 0 < e / (1 + e) by rewrite divr_gt0 // addr_gt0 ?ltr01.
  pose dl := N%:R * phi (e / (1 + e)); have dl0 : 0 < dl by rewrite mulr_gt0 ?ltr0n // phi_gt0.
  have [k0 hk] := arch 1 dl0; exists k0 => k kk; apply: NNPP => nc.
  have [_ /(_ nc) h] := update_drop X0 Fpd cv e0 (ps k); have [_ _ c _ _] := hs k.
  have low := tyl_bounded_below X0 sol (Fpd _ (ps k)); rewrite !tcost_mcost in c.
  have : k.+1%:R * dl <= 1.
    rewrite mulrC -ler_pdivl_mulr ?ltr0n // mul1r; move: c h low; rewrite -/F -/dl; move: (mcost _ _ _) (mcost _ _ _) (mcost _ _ _) k.+1%:R^-1 => x y z w a b d; rlra2.
  rewrite leNgt => /negP; apply; apply: lt_le_trans hk _; apply: ler_wpmul2r; [exact: ltW | by rewrite ler_nat leqW].
have [L [pL fL hL]] := fixed_cluster X0 (tyl_subhom p N0) Fpd cK l0 ps lo up ev.
have sL : tyler_solution X L by split=> //; rewrite -{1}fL.
have [c c0 eL] := tyler_unique N0 X0 (tyler_irreducible X0 N0 cond) sol sL.
have [k _ h] := hL t 0%N t0; have [_ _ _ _ nc] := hs k; have ci : 0 < c^-1 by rewrite invr_gt0.
apply: (nc _ ci); have := close_scale (ltW ci) h; by rewrite eL scalerA -rmorphM mulVf ?gt_eqF // rmorph1 scale1r.
Qed.
Lemma tyler_near (t : R) : 0 < t -> near_data X (fun Y => forall T, tyler_solution Y T -> exists2 c : R, 0 < c & close t (ofR c *: T) S).
Proof.
move=> t0; have [M hM] := near_conditioned cond; have cS : conditioned M S.
  by case: hM => d d0 h; apply: (h X) sol; rewrite subrr -fro_sq fro0 expr0n ltW.
have [eta e0 he] := excess_close M t0; have e2 : 0 < eta / 2%:R by rewrite divr_gt0 ?ltr0n.
apply: near_imp (near_and (near_nonzero X0) (near_and hM (cost_near M e2))) => Y [Y0 [bY cY]] T sT; apply: he; [exact: sT.1 | exact: bY | ].
have [_ h1] := cY T sT.1 (bY T sT); have [h2 _] := cY S sol.1 cS; apply: le_trans h1 _; have h3 := tyler_min N0 Y0 sT.1 sol.1 sT.2.
have -> : eta = eta / 2%:R + eta / 2%:R by rfield.
move: (eta / 2%:R) h2 h3; move: (tcost _ _) (tcost _ _) (tcost _ _) => a b c q h2 h3; rlra2.
Qed.
(* Tyler's iteration is continuous in the samples *)
Lemma cont_tstep (T : 'M[K]_p.+1) : pd T -> forall e : R, 0 < e -> near_data X (fun Y => fro2 (mstep (tyl_w N p.+1) Y T - mstep (tyl_w N p.+1) X T) <= e).
Proof.
move=> pT; apply: cont_mx => j k.
pose f (Y : 'M[K]_(N, p.+1)) := \sum_i ofR (p.+1%:R / N%:R) * (\sum_l (\sum_m cj (Y i m) * invmx T m l) * Y i l)^-1 * (Y i j * cj (Y i k)).
have E Y : mstep (tyl_w N p.+1) Y T j k = f Y.
  rewrite /mstep /wsum summxE; apply: eq_bigr => i _; rewrite !mxE big_ord1 adjE !mxE; congr (_ * _).
  rewrite /tyl_w rmorphM fmorphV; congr (_ * (_)^-1); rewrite ofR_maha // /qf /sesq mxE; apply: eq_bigr => l _.
  by rewrite !mxE; congr (_ * _); apply: eq_bigr => m _; rewrite adjE !mxE.
move=> e e0; apply: near_imp (_ : near_data X (fun Y => sq (f Y - f X) <= e)); first by move=> Y h; rewrite !E; exact: h.
apply: (_ : contK f X) => //; apply: cont_sum => i; apply: cont_mul; last by apply: cont_mul; [exact: cont_entry | apply: cont_cj; exact: cont_entry].
apply: cont_mul; first exact: cont_const.
apply: cont_inv.
  have -> : \sum_l (\sum_m cj (X i m) * invmx T m l) * X i l = ofR (maha T (samp X i)).
    rewrite ofR_maha // /qf /sesq mxE; apply: eq_bigr => l _; rewrite !mxE; congr (_ * _); apply: eq_bigr => m _; by rewrite adjE !mxE.
  by rewrite fmorph_eq0 gt_eqF // (maha_gt0 pT (samp0 X0 i)).
apply: cont_sum => l; apply: cont_mul; last exact: cont_entry.
apply: cont_sum => m; apply: cont_mul; last exact: cont_const.
apply: cont_cj; exact: cont_entry.
Qed.
Lemma near_spanning : near_data X (fun Y => (forall i, row i Y != 0) /\ spanning Y).
Proof.
by apply: near_imp (near_and (near_nonzero X0) (near_condition X0 cond)) => Y [Y0 cY]; split=> //; exact: tyler_condition_spanning.
Qed.
(* starting points that depend continuously on the samples *)
Definition start (s0 : 'M[K]_(N, p.+1) -> 'M[K]_p.+1) :=
  near_data X (fun Y => pd (s0 Y)) /\ forall e : R, 0 < e -> near_data X (fun Y => close e (s0 Y) (s0 X)).
Lemma near_at P : near_data X P -> P X.
Proof. by move=> [d d0]; apply; rewrite subrr -fro_sq fro0 expr0n ltW. Qed.
Lemma start_const s0 : pd s0 -> start (fun=> s0).
Proof.
move=> p0; split; first by exists 1 => // ; exact: ltr01.
move=> e e0; exists 1 => [|Y _]; [exact: ltr01 | rewrite /close; split; rewrite -{1}[s0]scale1r -(rmorph1 (@Star.ofR K)); apply: loewner_le (pd_psd p0) _; by rewrite ler_addl ltW].
Qed.
Lemma start_mean_of : near_data X (@spanning K N p.+1) -> start (wsum (fun=> N%:R^-1)).
Proof.
move=> nsp; have pm : near_data X (fun Y => pd (wsum (fun=> N%:R^-1) Y)).
  by apply: near_imp nsp => Y sp; apply: wsum_pd => // i; rewrite invr_gt0 ltr0n.
split=> // e e0; have [d d0 hd] := close_fro (near_at pm) e0.
have c : near_data X (fun Y => fro2 (wsum (fun=> N%:R^-1) Y - wsum (fun=> N%:R^-1) X) <= d).
  apply: cont_mx d0 => j k; pose f (Y : 'M[K]_(N, p.+1)) := \sum_i ofR N%:R^-1 * (Y i j * cj (Y i k)).
  have E Y : wsum (fun=> N%:R^-1) Y j k = f Y by rewrite /wsum summxE; apply: eq_bigr => i _; rewrite !mxE big_ord1 adjE !mxE.
  move=> e1 e10; apply: near_imp (_ : near_data X (fun Y => sq (f Y - f X) <= e1)); first by move=> Y h; rewrite !E; exact: h.
  apply: (_ : contK f X) => //; apply: cont_sum => i; apply: cont_mul; first exact: cont_const.
  by apply: cont_mul; [exact: cont_entry | apply: cont_cj; exact: cont_entry].
apply: near_imp (near_and pm c) => Y [pY h]; apply: hd h; exact: pd_herm.
Qed.
Lemma start_mean : start (wsum (fun=> N%:R^-1)).
Proof. by apply: start_mean_of; apply: near_imp near_spanning => Y []. Qed.
Lemma cont_iter s0 k (e : R) : start s0 -> 0 < e -> near_data X (fun Y => close e (iter k (mstep (tyl_w N p.+1) Y) (s0 Y)) (iter k F (s0 X))).
Proof.
move=> [p0 c0]; have sp := tyler_spanning sol; have pX j : pd (iter j F (s0 X)) by elim: j => [|j] /=; [exact: (near_at p0) | exact: tyl_pd].
elim: k e => [|k IH] e e0; first exact: c0.
have [f f0 hf] := small3 e0; have [d d0 hd] := close_fro (pX k.+1) f0.
apply: near_imp (near_and p0 (near_and near_spanning (near_and (IH f f0) (cont_tstep (pX k) d0)))) => Y [pY0 [[Y0 spY] [c1 c2]]].
have pY j : pd (iter j (mstep (tyl_w N p.+1) Y) (s0 Y)) by elim: j => //= j; exact: tyl_pd.
have c3 := F_close Y0 (tyl_subhom p N0) (pY k) (pX k) (ltW f0) c1.
have c4 : close f (mstep (tyl_w N p.+1) Y (iter k F (s0 X))) (iter k.+1 F (s0 X)) by apply: hd c2; apply/pd_herm/tyl_pd.
have c5 := close_trans (ltW f0) (ltW f0) c3 c4; apply: close_le c5; [exact/pd_psd/(pY k.+1) | exact/pd_psd/(pX k.+1) |].
apply: le_trans hf; rewrite ler_add2r addrCA subrr addr0 ler_pemull ?ler_addl ?(ltW f0) //; by rewrite mulr_ge0 // addr_ge0 ?ler01 // ltW.
Qed.
(* from some iteration on, the iterates for the samples near X are near the limit of those for X *)
Lemma tyler_solution_scale (Y : 'M[K]_(N, p.+1)) c T : 0 < c -> tyler_solution Y T -> tyler_solution Y (ofR c *: T).
Proof.
move=> c0 [pT eT]; split; first by apply: pdZ; rewrite ?ofR_gt0.
rewrite {1}eT /wsum scaler_sumr; apply: eq_bigr => i _; rewrite maha_scale //.
by rewrite scalerA -rmorphM invf_div; congr (ofR _ *: _); rewrite [RHS]mulrCA.
Qed.
Lemma small_chain (f e : R) : 0 < f -> (1 + f) * (1 + ((1 + f) * (1 + f) - 1)) - 1 <= e -> f <= e /\ (1 + f) * (1 + f) - 1 <= e.
Proof.
move=> f0 h; have f1 : 1 <= 1 + f by rewrite ler_addl ltW.
have a : (1 + f) * (1 + f) - 1 <= e.
  by apply: le_trans h; rewrite ler_add2r addrCA subrr addr0 ler_pemull // mulr_ge0 // (le_trans ler01).
split=> //; apply: le_trans a; by rewrite ler_subr_addl ler_pemull // (le_trans ler01).
Qed.
Lemma tyler_near_runs s0 : start s0 -> exists2 L, tyler_solution X L & forall t : R, 0 < t ->
  exists n, near_data X (fun Y => forall k, (n <= k)%N -> close t (iter k (mstep (tyl_w N p.+1) Y) (s0 Y)) L).
Proof.
move=> p0; have [L sL hL] := tyl_converges cK X0 sol (near_at p0.1); exists L => // t t0.
have [f f0 hf] := small3 t0; have [f1 f2] := small_chain f0 hf; have [g g0 hg] := small3 f0; have [g1 _] := small_chain g0 hg.
have [n hn] := hL g g0; exists n; have cn := hn n (leqnn n).
have [c c0 eL] := tyler_unique N0 X0 (tyler_irreducible X0 N0 cond) sol sL.
apply: near_imp (near_and p0.1 (near_and (near_and near_spanning (near_condition X0 cond)) (near_and (cont_iter n p0 g0) (tyler_near g0)))) => Y [pY0 [[[Y0 spY] cY] [c1 h]]] k nk.
have [T sT] := tyler_exists cK Y0 N0 cY; have [d d0 c2] := h T sT.
have pY j : pd (iter j (mstep (tyl_w N p.+1) Y) (s0 Y)) by elim: j => //= j; exact: tyl_pd.
pose T' := ofR (c * d) *: T; have cd : 0 < c * d by rewrite mulr_gt0.
have sT' : tyler_solution Y T' by exact: tyler_solution_scale.
have c3 : close g T' L by rewrite eL /T' rmorphM -scalerA; apply: close_scale c2; exact: ltW.
have c4 : close f (iter n (mstep (tyl_w N p.+1) Y) (s0 Y)) T'.
  have := close_trans (ltW g0) _ c1 (close_trans (ltW g0) (ltW g0) cn (close_sym c3)) => /(_ _) h4.
  apply: close_le (pd_psd (pY n)) (pd_psd sT'.1) hg (h4 _); by rewrite subr_ge0 mulr_ege1 // ler_addl ltW.
have c5 := tyl_stays Y0 (k - n)%N f0 sT' (pY n) c4; rewrite -iterD subnK // in c5.
apply: close_le (pd_psd (pY k)) (pd_psd sL.1) f2 (close_trans (ltW f0) (ltW f0) c5 _).
exact: close_le (pd_psd sT'.1) (pd_psd sL.1) g1 c3.
Qed.
End Cost.
