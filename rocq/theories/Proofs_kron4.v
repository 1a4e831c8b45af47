(* Passes of the MM algorithm: decrease of the cost, continuity, cluster points of pairs of matrices. *)
From Coq Require Import Reals Lra Classical_Prop Epsilon.
From mathcomp Require Import all_ssreflect all_algebra.
From mathcomp Require Import mxtens.
From Verif Require Import RealsMC RealTac RealTac2 Star FunCalc Spec_covariance Proofs_mest Proofs_cost Proofs_unique Proofs_unique2 Model_structured Proofs_structured Props_structured
  Compact Proofs_converge Props_converge Spec_kron Proofs_kron Proofs_kron1 Proofs_kron2 Proofs_kron3.
Set Implicit Arguments.
Unset Strict Implicit.
Unset Printing Implicit Defensive.
Local Open Scope ring_scope.
Import GRing.Theory Num.Theory Order.TTheory.

(* a sequence bounded below has no infinity of drops *)
Lemma drops (c : nat -> R) (m dl : R) : (forall k, c k.+1 <= c k) -> (forall k, m <= c k) -> 0 < dl ->
  exists k0, forall k, (k0 <= k)%N -> c k - dl < c k.+1.
Proof.
move=> mono lo dl0; apply: NNPP => nk.
have mon k j : c (j + k)%N <= c k by elim: j => [|j IH] //; rewrite addSn; exact: le_trans (mono _) IH.
have H n : exists k, c k <= c 0%N - n%:R * dl.
  elim: n => [|n [k hk]]; first by exists 0%N; rewrite mul0r subr0.
  have [k' kk nc] : exists2 k', (k <= k')%N & c k'.+1 <= c k' - dl.
    apply: NNPP => h; apply: nk; exists k => k' kk; rewrite ltNge; apply/negP => le; apply: h; by exists k'.
  exists k'.+1; apply: le_trans nc _; rewrite -addn1 natrD mulrDl mul1r opprD addrA ler_add2r; apply: le_trans hk.
  by rewrite -(subnK kk).
have [n hn] := arch (c 0%N - m) dl0; have [k hk] := H n.
by have := le_trans (lo k) hk; rewrite leNgt => /negP; apply; rewrite ltr_subl_addr -ltr_subl_addl.
Qed.
Lemma pow_le m (f : R) : 0 < f -> f <= 1 -> (1 + f) ^+ m <= 1 + 3%:R ^+ m * f.
Proof.
move=> f0 f1; elim: m => [|m IH]; first by rewrite expr0 mul1r ler_addl ltW.
rewrite exprS; apply: (@le_trans _ _ ((1 + f) * (1 + 3%:R ^+ m * f))); first by rewrite ler_pmul2l // addr_gt0 ?ltr01.
rewrite exprS; have t1 : 1 <= 3%:R ^+ m :> R by rewrite exprn_ege1 // ler1n.
move: (3%:R ^+ m) t1 {IH} => t t1; have q1 : t * f * f <= t * f by apply: ler_pimulr => //; rewrite mulr_ge0 ?(ltW f0) // (le_trans ler01).
have q2 : f <= t * f by rewrite ler_pemull // ltW.
rewrite (_ : 3%:R * t * f = t * f + t * f + t * f); last by rewrite -mulrA mulr_natl !mulrS mulr0n addr0 addrA.
rewrite (_ : (1 + f) * (1 + t * f) = 1 + f + t * f + t * f * f); [move: q1 q2|rring]; move: (t * f * f) (t * f) => u v h1 h2; rlra2.
Qed.
Lemma small_pow m (e : R) : 0 < e -> exists2 f : R, 0 < f & (1 + f) ^+ m - 1 <= e.
Proof.
move=> e0; have p0 : 0 < 3%:R ^+ m :> R by rewrite exprn_gt0 ?ltr0n.
pose f := Num.min 1 (e / 3%:R ^+ m); have f0 : 0 < f by rewrite lt_minr ltr01 divr_gt0.
have f1 : f <= 1 by rewrite le_minl lexx.
exists f => //; have := pow_le m f0 f1.
move=> h; rewrite ler_subl_addl; apply: le_trans h _; rewrite ler_add2l mulrC -ler_pdivl_mulr //.
by rewrite le_minl lexx orbT.
Qed.

Section ClosePow.
Variables (K : starField) (p : nat).
Local Notation ofR := (@ofR K).
Local Notation toR := (@toR K).
Local Notation "A ^H" := (adj A) (at level 8, format "A ^H").
Implicit Types S T L : 'M[K]_p.
(* close up to a factor (1+f)^m *)
Definition cl (f : R) m S T := close ((1 + f) ^+ m - 1) S T.
Lemma powB (f : R) m : 0 <= f -> 0 <= (1 + f) ^+ m - 1.
Proof. by move=> f0; rewrite subr_ge0 exprn_ege1 // ler_addl. Qed.
Lemma cl_trans f m n S T L : 0 <= f -> cl f m S T -> cl f n T L -> cl f (m + n) S L.
Proof.
move=> f0 h1 h2; have := close_trans (powB m f0) (powB n f0) h1 h2.
by rewrite ![1 + (_ - 1)]addrC !subrK -exprD.
Qed.
Lemma cl_sym f m S T : cl f m S T -> cl f m T S. Proof. exact: close_sym. Qed.
Lemma cl1 f S T : close f S T -> cl f 1 S T. Proof. by rewrite /cl expr1 addrC addKr. Qed.
Lemma cl_eq m S T : pd S -> pd T -> (forall f : R, 0 < f -> cl f m S T) -> S = T.
Proof.
move=> pS pT h; apply: close_eq => // e /(small_pow m) [f f0 hf].
by apply: close_le hf (h f f0); exact: pd_psd.
Qed.
Lemma cl_loew f m S T : loewner S (ofR ((1 + f) ^+ m) *: T) -> loewner T (ofR ((1 + f) ^+ m) *: S) -> cl f m S T.
Proof. by move=> h1 h2; split; rewrite addrC subrK. Qed.
Lemma clP f m S T : cl f m S T -> loewner S (ofR ((1 + f) ^+ m) *: T) /\ loewner T (ofR ((1 + f) ^+ m) *: S).
Proof. by rewrite /cl /close addrC subrK. Qed.
(* determinants *)
Lemma ln_det_le S T c : pd S -> pd T -> 0 < c -> loewner S (ofR c *: T) -> ln (toR (\det S)) <= p%:R * ln c + ln (toR (\det T)).
Proof.
move=> pS pT c0 h; have pT' : pd (ofR c *: T) by apply: pdZ; rewrite ?ofR_gt0.
have := det_loewner pS pT' h; rewrite detZ -rmorphX => /toR_le; rewrite toRZ => le.
rewrite -lnX // -lnM ?exprn_gt0 ?toR_gt0 ?det_pd //; apply: ln_le => //; by rewrite toR_gt0 ?det_pd.
Qed.
End ClosePow.

(* two sequences at once *)
Lemma cluster2 (K : starField) p q (s : nat -> 'M[K]_p) (t : nat -> 'M[K]_q) (l : R) : compactK K -> 0 < l ->
  (forall k, herm (s k)) -> (forall k, loewner 1%:M (@ofR K l *: s k)) -> (forall k, loewner (s k) (@ofR K l *: 1%:M)) ->
  (forall k, herm (t k)) -> (forall k, loewner 1%:M (@ofR K l *: t k)) -> (forall k, loewner (t k) (@ofR K l *: 1%:M)) ->
  exists L M, [/\ pd L, pd M & forall (e : R) k0, 0 < e -> exists k, [/\ (k0 <= k)%N, close e (s k) L & close e (t k) M]].
Proof.
move=> cK l0 hs lo up ht lo' up'; have [L pL hL] := cluster cK l0 hs lo up.
have e0 n' : 0 < n'.+1%:R^-1 :> R by rewrite invr_gt0 ltr0n.
have psd_s k : psd (s k).
  have : psd (@ofR K l^-1 *: (@ofR K l *: s k - 1%:M) + @ofR K l^-1 *: 1%:M).
    apply: psdD; apply: psdZ; rewrite ?ofRge0 ?invr_ge0 ?(ltW l0) //; [exact: lo | exact/pd_psd/pd1].
  by rewrite -scalerDr subrK scalerA -rmorphM mulVf ?gt_eqF // rmorph1 scale1r.
pose Q k k' := (k <= k')%N /\ close (k.+1%:R^-1) (s k') L.
have [phi H] : exists phi, forall k, Q k (phi k).
  by exists (fun k => epsilon (inhabits 0%N) (Q k)) => k; apply: epsilon_spec; have [k' a b] := hL _ k (e0 k); exists k'.
have [M pM hM] := cluster cK l0 (fun k => ht (phi k)) (fun k => lo' (phi k)) (fun k => up' (phi k)).
exists L, M; split=> // e k0 e1; have [n' hn] := arch 1 e1; have [k kk hk] := hM e (maxn k0 n') e1.
exists (phi k); have [a b] := H k; move: kk; rewrite geq_max => /andP[kk1 kk2]; split=> //; first exact: leq_trans kk1 a.
apply: close_le b; [exact: psd_s|exact: pd_psd|].
rewrite -[_^-1]mul1r ler_pdivr_mulr ?ltr0n // mulrC; apply: le_trans (ltW hn) _.
by apply: ler_wpmul2r; [exact: ltW|rewrite ler_nat leqW].
Qed.

Lemma karith5 (u v w x y z : R) : u <= v - z -> w <= x + (v - z) -> v <= z ->
  let D := y + u + w - (y + x) in D <= - (z - v *+ 2 + z) /\ D <= y + u - y.
Proof. by rewrite mulr2n => h1 h2 h3; split; rlra2. Qed.
Section Half.
Variable K : starField.
Local Notation ofR := (@ofR K).
Local Notation toR := (@toR K).
Local Notation "A ^H" := (adj A) (at level 8, format "A ^H").
Variables (n N : nat) (A M : 'M[K]_n) (T : 'I_N -> 'M[K]_n) (t t' : 'I_N -> R).
Hypotheses (pA : pd A) (pM : psd M) (N0 : (0 < N)%N).
Let g := gmean A M.
Hypotheses (t0 : forall i, 0 < t i) (t'0 : forall i, 0 < t' i) (et : forall i, \tr (invmx A *m T i) = ofR (t i))
  (et' : forall i, \tr (invmx g *m T i) = ofR (t' i)) (eM : M = \sum_i (n%:R / N%:R) *: ((\tr (invmx A *m T i))^-1 *: T i)) (pg : pd g).
Lemma half_gap : exists (G : 'M[K]_n) (s : 'rV[R]_n), [/\ A = G *m G^H, g = G *m dia K s *m G^H, (forall j, 0 < s 0 j) /\ M = G *m dia K (\row_j (s 0 j * s 0 j)) *m G^H,
  ln (toR (\det A)) + \sum_j ln (s 0 j) = ln (toR (\det g)) /\ \sum_j ln (s 0 j) <= 0 &
  let D := (ln (toR (\det g)) + n%:R / N%:R * (\sum_i ln (t' i))) - (ln (toR (\det A)) + n%:R / N%:R * (\sum_i ln (t i))) in
  D <= - (\sum_j (s 0 j - 1) ^+ 2) /\ D <= ln (toR (\det g)) - ln (toR (\det A))].
Proof.
have [G [s [uG eA eg s0]]] := simdiag pA pg; exists G, s.
have N1 : N%:R != 0 :> R by rewrite pnatr_eq0 -lt0n.
have uGH : G^H \in unitmx by rewrite unitmx_adj.
have eGM : M = G *m dia K (\row_j (s 0 j * s 0 j)) *m G^H.
  have := gmean_eq pA pM; rewrite -/g eg eA invmxM' // => <-; by rewrite -diaM !mulmxA mulmxK // mulmxKV.
have trM (B : 'M[K]_n) (u : 'I_N -> R) : (forall i, \tr (B *m T i) = ofR (u i)) ->
    \tr (B *m M) = ofR (n%:R / N%:R * \sum_i (u i / t i)).
  move=> h; rewrite eM mulmx_sumr raddf_sum rmorphM rmorph_sum /= mulr_sumr; apply: eq_bigr => i _.
  rewrite -!scalemxAr !mxtraceZ h et rmorphM fmorphV rmorphM fmorphV !ofR_nat; congr (_ * _); exact: mulrC.
have trD (d : 'rV[R]_n) : \tr (dia K d) = ofR (\sum_j d 0 j).
  by rewrite /mxtrace rmorph_sum; apply: eq_bigr => j _; rewrite diaE eqxx mulr1n.
have E2 : \sum_j s 0 j ^+ 2 = n%:R.
  apply: (@ofR_inj K); transitivity (\tr (invmx A *m M)).
    rewrite eGM eA invmxM' // !mulmxA -(mulmxA _ (invmx G) G) mulVmx // mulmx1 mxtrace_mulC !mulmxA mulmxV // mul1mx trD.
    by congr (ofR _); apply: eq_bigr => j _; rewrite mxE expr2.
  rewrite (trM _ t et); congr (ofR _); rewrite (eq_bigr (fun=> 1)) => [|i _]; last by rewrite divff // gt_eqF.
  by rewrite sumr_const card_ord -mulrA mulVf ?mulr1.
have E1 : n%:R / N%:R * (\sum_i (t' i / t i)) = \sum_j s 0 j.
  apply: (@ofR_inj K); rewrite -(trM _ t' et') eGM eg !invmxM' ?unitmx_mul ?uG ?dia_unit //.
  rewrite !mulmxA -(mulmxA _ (invmx G) G) mulVmx // mulmx1 mxtrace_mulC !mulmxA mulmxV // mul1mx dia_inv // diaM trD.
  by congr (ofR _); apply: eq_bigr => j _; rewrite !mxE mulrA mulVf ?mul1r // gt_eqF.
have eD : ln (toR (\det g)) = ln (toR (\det A)) + \sum_j ln (s 0 j) by rewrite eg det_simdiag // -eA.
have s2 : \sum_j (s 0 j - 1) ^+ 2 = \sum_j s 0 j ^+ 2 - (\sum_j s 0 j) *+ 2 + n%:R.
  rewrite (eq_bigr (fun j => s 0 j ^+ 2 - s 0 j *+ 2 + 1)) => [|j _]; last by rewrite sqrrB1.
  by rewrite big_split sumrB sumrMnl sumr_const card_ord.
have s2_0 : 0 <= \sum_j (s 0 j - 1) ^+ 2 by apply: sumr_ge0 => j _; exact: sqr_ge0.
have sn : \sum_j s 0 j <= n%:R.
  move: s2_0; rewrite s2 E2; move: (\sum_j s 0 j) (n%:R : R) => u v; rewrite mulr2n => h; rlra2.
have lnS : \sum_j ln (s 0 j) <= \sum_j s 0 j - n%:R.
  have -> : \sum_j s 0 j - n%:R = \sum_j (s 0 j - 1) by rewrite sumrB sumr_const card_ord.
  by apply: ler_sum => j _; exact: ln_le_sub1.
have sumln : n%:R / N%:R * (\sum_(i < N) ln (t' i)) <= n%:R / N%:R * (\sum_(i < N) ln (t i)) + (\sum_j s 0 j - n%:R).
  have -> : \sum_j s 0 j - n%:R = n%:R / N%:R * (\sum_i (t' i / t i - 1)).
    by rewrite sumrB mulrBr E1 sumr_const card_ord -mulrA mulVf ?mulr1.
  rewrite -mulrDr -big_split /=; apply: ler_wpmul2l; first by rewrite divr_ge0 ?ler0n.
  apply: ler_sum => i _; rewrite -ler_subl_addl -lnD //.
  by apply: ln_le_sub1; rewrite divr_gt0.
split=> //; first by split=> //; apply: le_trans lnS _; rewrite subr_le0.
rewrite eD s2 E2; exact: karith5.
Qed.
End Half.
