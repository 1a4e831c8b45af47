(* The costs of the M-estimators when some samples are arbitrary.  Nothing here models code. *)
From Coq Require Import Reals Epsilon Lra Classical_Prop.
From mathcomp Require Import all_ssreflect all_algebra.
From mathcomp Require Import zify.
From Verif Require Import RealsMC RealTac RealTac2 Star FunCalc Spec_covariance Spec_fixedpoint Spec_exist Proofs_mest Proofs_cost Proofs_unique Proofs_unique2
  Compact Proofs_estimators Proofs_converge Props_cost Props_unique Proofs_exist Proofs_exist2 Spec_breakdown.
Set Implicit Arguments.
Unset Strict Implicit.
Unset Printing Implicit Defensive.
Local Open Scope ring_scope.
Import GRing.Theory Num.Theory Order.TTheory.

Section Corrupted.
Variable K : starField.
Local Notation ofR := (@ofR K).
Local Notation toR := (@toR K).
Local Notation "A ^H" := (adj A) (at level 8, format "A ^H").
Hypothesis cK : compactK K.
Variables (N p : nat) (X : 'M[K]_(N, p.+1)).
Hypothesis X0 : forall i, row i X != 0.
Definition changed (Y : 'M[K]_(N, p.+1)) := [set i | row i Y != row i X].
Definition nrm2 (x : 'cV[K]_p.+1) : R := \sum_j sq (x j 0).
Lemma nrm2_gt0 x : x != 0 -> 0 < nrm2 x.
Proof. by move=> x0; rewrite /nrm2 -(maha1 x); apply: maha_gt0 => //; exact: pd1. Qed.
Lemma eig_layers2 : exists2 c : R, 0 < c & forall Y, (forall i, i \in changed Y -> nrm2 (samp Y i) = 1) ->
  forall T d U, pd T -> eigdec T d U -> exists m : 'I_N -> R,
  [/\ forall i, exists l, m i = ln (d 0 l), forall i, ln c - m i <= ln (maha T (samp Y i)) &
      forall t, exists2 V : 'M[K]_p.+1, (\rank V <= #|[set l | (t <= ln (d 0 l))%R]|)%N & [set i | t <= m i] \subset inside X V :|: changed Y].
Proof.
have [c c0 hc] := near_subspace cK X.
have [||c1 c10 hc1] := @fin_min [finType of 'I_N] (fun i c => p.+1%:R * c <= nrm2 (samp X i)).
- by move=> i; have h := nrm2_gt0 (samp0 X0 i); exists (nrm2 (samp X i) / p.+1%:R); [rewrite divr_gt0 ?ltr0n | rewrite mulrC divfK // pnatr_eq0].
- by move=> i a b b0 ba; apply: le_trans; rewrite ler_pmul2l ?ltr0n.
pose c2 := Num.min c (Num.min c1 p.+1%:R^-1); have c20 : 0 < c2 by rewrite !lt_minr c0 c10 invr_gt0 ltr0n.
have c21 : c2 <= c by rewrite le_minl lexx.
have c22 : c2 <= c1 by rewrite le_minl le_minl lexx orbT.
have c23 : c2 <= p.+1%:R^-1 by rewrite le_minl le_minl lexx !orbT.
exists c2 => // Y uY T d U pT dec; have d0 := eigdec_pos pT dec; have [uU eT] := dec.
have same i : i \notin changed Y -> samp Y i = samp X i by rewrite inE negbK /samp => /eqP ->.
have large i : p.+1%:R * c2 <= nrm2 (samp Y i).
  case: (boolP (i \in changed Y)) => hi; last by rewrite same //; apply: le_trans (hc1 i); rewrite ler_pmul2l ?ltr0n.
  by rewrite uY // -ler_pdivl_mull ?ltr0n // mulr1.
have big i : exists l, c2 <= sq ((U^H *m samp Y i) l 0).
  apply: NNPP => no; have lt l : sq ((U^H *m samp Y i) l 0) < c2 by rewrite ltNge; apply/negP => h; apply: no; exists l.
  have : \sum_l sq ((U^H *m samp Y i) l 0) < \sum_(l < p.+1) c2.
    by rewrite !big_ord_recl; apply: ltr_le_add => //; apply: ler_sum => l _; apply: ltW.
  have -> : \sum_l sq ((U^H *m samp Y i) l 0) = nrm2 (samp Y i).
    have uH := unitary_unit (unitary_adj uU).
    by have := maha_congr (samp Y i) uH (unitmx1 K p.+1); rewrite mulmx1 adjK uU !maha1.
  by rewrite sumr_const card_ord -mulr_natl ltNge; apply/negP/negPn/large.
have am i : exists l, c2 <= sq ((U^H *m samp Y i) l 0) /\ forall j, c2 <= sq ((U^H *m samp Y i) j 0) -> ln (d 0 l) <= ln (d 0 j).
  have [l hl] := big i.
  by case: (@arg_minP _ _ _ l (fun l => c2 <= sq ((U^H *m samp Y i) l 0)) (fun l => ln (d 0 l)) hl) => l1 h1 h2; exists l1.
pose lm i := epsilon (inhabits ord0) (fun l => c2 <= sq ((U^H *m samp Y i) l 0) /\ forall j, c2 <= sq ((U^H *m samp Y i) j 0) -> ln (d 0 l) <= ln (d 0 j)).
have hlm i : c2 <= sq ((U^H *m samp Y i) (lm i) 0) /\ forall j, c2 <= sq ((U^H *m samp Y i) j 0) -> ln (d 0 (lm i)) <= ln (d 0 j).
  exact: (epsilon_spec (inhabits ord0) _ (am i)).
exists (fun i => ln (d 0 (lm i))); split.
- by move=> i; exists (lm i).
- move=> i; have [h _] := hlm i; rewrite -lnD //; apply: ln_le; first by rewrite divr_gt0.
  rewrite (maha_eig _ pT dec) (bigD1 (lm i)) //= -[X in X <= _]addr0; apply: ler_add; first by rewrite ler_pmul2r ?invr_gt0.
  by apply: sumr_ge0 => l _; rewrite divr_ge0 ?sq_ge0 // ltW.
- move=> t; have [V rV hV] := hc U [set l | t <= ln (d 0 l)] uU; exists V => //.
  apply/subsetP => i; rewrite inE => ti; rewrite inE; case: (boolP (i \in changed Y)) => hi; rewrite ?orbT // orbF inE; apply: hV => l; rewrite inE -ltNge => lt.
  have [_ h] := hlm i; rewrite -(same i hi); apply: (@lt_le_trans _ _ c2) => //.
  rewrite ltNge; apply/negP => /h; rewrite leNgt => /negP; apply; exact: lt_le_trans ti.
Qed.
Lemma card_above (t : R) (m : 'I_N -> R) Y V k : [set i | t <= m i] \subset inside X V :|: changed Y -> (#|changed Y| <= k)%N ->
  (#|[set i | (t <= m i)%R]| <= #|inside X V| + k)%N.
Proof.
move=> s h; apply: leq_trans (subset_leq_card s) _; apply: leq_trans (leq_of_leqif (leq_card_setU _ _)) _; by rewrite leq_add2l.
Qed.
Section Tyler.
Variable k : nat.
Hypotheses (N0 : (0 < N)%N) (cond : tyler_resists k X).
Lemma tyler_coercive2 : exists C : R, forall Y, (#|changed Y| <= k)%N -> (forall i, i \in changed Y -> nrm2 (samp Y i) = 1) ->
  forall T d U, pd T -> eigdec T d U -> forall l l', C + (ln (d 0 l) - ln (d 0 l')) <= tcost Y T.
Proof.
have [c c0 hc] := eig_layers2; exists (p.+1%:R * N%:R * ln c) => Y kY uY T d U pT dec l l'.
have [m [m1 m2 m3]] := hc Y uY T d U pT dec; pose y l := ln (d 0 l).
have [s hs] := arg_ord y; have [e' he] := arg_ord (fun l => - y l); have {}he j : y j <= y e' by rewrite -ler_opp2.
have L : 1 * (y e' - y s) <= lay y m N%:R p.+1%:R (y e') - lay y m N%:R p.+1%:R (y s).
  apply: (layers m1 (leqnn _)) => // t st te; have [V rV sV] := m3 t.
  rewrite -!natrM ler_subr_addr -[1]/(1%:R) -natrD ler_nat add1n.
  apply: (@leq_ltn_trans (p.+1 * (#|inside X V| + k))); first by rewrite leq_mul2l (card_above sV).
  have Wp : (#|[set l | (t <= y l)%R]| < p.+1)%N.
    rewrite -[X in (_ < X)%N]card_ord -cardsT; apply: proper_card; rewrite properT; apply/negP => /eqP /setP /(_ s).
    by rewrite !inE leNgt st.
  have W0 : (0 < #|[set l | (t <= y l)%R]|)%N by apply/card_gt0P; exists e'; rewrite inE.
  case: (posnP (\rank V)) => [/(inside0 X0) -> |r0]; last first.
    by apply: leq_trans (cond _) _; [rewrite r0 (leq_ltn_trans rV) | rewrite leq_mul2l rV orbT].
  rewrite add0n; have p1 : (1 < p.+1)%N by exact: leq_ltn_trans W0 Wp.
  have := cond (V := delta_mx ord0 ord0); rewrite mxrank_delta p1 => /(_ isT) h; apply: leq_trans (_ : _ <= N * 1)%N _; last by rewrite leq_mul2l W0 orbT.
  by apply: leq_ltn_trans h; rewrite leq_mul2l leq_addl orbT.
have lay_e : lay y m N%:R p.+1%:R (y e') = N%:R * (\sum_l y l) - p.+1%:R * (\sum_i m i).
  rewrite /lay; congr (_ * _ - _ * _); apply: eq_bigr => j _; first by rewrite min_l.
  by have [j' ->] := m1 j; rewrite min_l //; exact: he.
have lay_s : lay y m N%:R p.+1%:R (y s) = 0.
  rewrite /lay (eq_bigr (fun=> y s)) => [|j _]; last by rewrite min_r.
  rewrite [X in _ - _ * X](eq_bigr (fun=> y s)) => [|j _]; last by have [j' ->] := m1 j; rewrite min_r //; exact: hs.
  by rewrite !sumr_const !card_ord -[y s *+ p.+1]mulr_natl -[y s *+ N]mulr_natl mulrCA subrr.
rewrite mul1r lay_e lay_s subr0 in L.
rewrite /tcost (lndet_eig pT dec); apply: (@le_trans _ _ (p.+1%:R * (\sum_i (ln c - m i)) + N%:R * (\sum_l y l))).
  rewrite sumrB sumr_const card_ord -[ln c *+ N]mulr_natl mulrBr mulrA -addrA ler_add2l [X in _ <= X]addrC; apply: le_trans L.
  by apply: ler_sub; [exact: he | exact: hs].
by rewrite ler_add2r; apply: ler_wpmul2l; [exact: ler0n | apply: ler_sum => i _; exact: m2].
Qed.
Definition unitf (Y : 'M[K]_(N, p.+1)) i : K := if i \in changed Y then ofR (R_sqrt.sqrt (nrm2 (samp Y i)))^-1 else 1.
Lemma tyler_excess : exists C : R, forall Y, corrupted k X Y -> forall T d U, pd T -> eigdec T d U ->
  forall l l', ln (d 0 l) - ln (d 0 l') <= C + (tcost Y T - tcost Y 1%:M).
Proof.
have [C0 h0] := tyler_coercive2; exists (p.+1%:R * (\sum_i Num.max 0 (ln (nrm2 (samp X i)))) - C0) => Y [Y0 kY] T d U pT dec l l'.
have n0 i : 0 < nrm2 (samp Y i) by apply: nrm2_gt0; exact: samp0.
have s0 i : 0 < R_sqrt.sqrt (nrm2 (samp Y i)) by apply/RltP/sqrt_lt_R0/RltP.
have c0 i : unitf Y i != 0 by rewrite /unitf; case: ifP => _; rewrite ?oner_eq0 // fmorph_eq0 invr_eq0 gt_eqF.
pose Y' := scale_samples (unitf Y) Y.
have same i : i \notin changed Y -> row i Y' = row i X.
  move=> h; have -> : row i Y' = row i Y by apply/rowP => j; rewrite !mxE /unitf (negbTE h) mul1r.
  by move: h; rewrite inE negbK => /eqP.
have sub : changed Y' \subset changed Y.
  by apply/subsetP => i; apply: contraLR => h; rewrite inE negbK same.
have one i : i \in changed Y -> nrm2 (samp Y' i) = 1.
  move=> h; rewrite /nrm2 -maha1 samp_scale /unitf h /maha adjZ cj_ofR -scalemxAl -scalemxAl -scalemxAr scalerA -rmorphM mxE toRZ -/(maha _ _) maha1.
  by rewrite -invfM sqrtR_sqr ?(ltW (n0 i)) // mulVf // gt_eqF.
have := h0 Y' (leq_trans (subset_leq_card sub) kY) (fun i h => one i (subsetP sub i h)) T d U pT dec l l'.
have := tcost_scale_samples Y0 c0 (pd1 K p.+1); have := tcost_scale_samples Y0 c0 pT; rewrite -/Y' => -> e1.
have : tcost Y' 1%:M <= p.+1%:R * (\sum_i Num.max 0 (ln (nrm2 (samp X i)))).
  rewrite /tcost det1 toR1 ln1 mulr0 addr0 ler_wpmul2l ?ler0n //; apply: ler_sum => i _; rewrite maha1 -/(nrm2 _).
  case: (boolP (i \in changed Y)) => h; first by rewrite one // ln1 le_maxr lexx.
  by rewrite /samp same // le_maxr lexx orbT.
rewrite e1; move: (tcost Y 1%:M) (tcost Y T) (p.+1%:R * _) (p.+1%:R * _) (ln (d 0 l)) (ln (d 0 l')) => a b e f u v h1 h2.
rlra2.
Qed.
End Tyler.
End Corrupted.

Section Conditioned.
Variable K : starField.
Local Notation ofR := (@ofR K).
Local Notation toR := (@toR K).
Local Notation "A ^H" := (adj A) (at level 8, format "A ^H").
Lemma eig_low p (T : 'M[K]_p) d U (l : R) : eigdec T d U -> (forall j, l <= d 0 j) -> loewner (ofR l *: 1%:M) T.
Proof.
move=> [uU eT] h; have -> : ofR l *: 1%:M = U *m dia K (const_mx l) *m U^H.
  by rewrite dia_const mul_mx_scalar -scalemxAl unitaryV.
rewrite /loewner eT -mulmxBl -mulmxBr diaB; apply/psd_congr/psd_dia => j; by rewrite !mxE subr_ge0.
Qed.
Lemma ratio_conditioned p (T : 'M[K]_p.+1) d U c : pd T -> eigdec T d U -> (forall l l', ln (d 0 l) - ln (d 0 l') <= c) ->
  conditioned (Rtrigo_def.exp c) T.
Proof.
move=> pT dec h; have d0 := eigdec_pos pT dec; have [s hs] := arg_ord (fun j => d 0 j); exists (d 0 s) => //; split.
  exact: (eig_low dec).
apply: (eig_up dec) => j; rewrite -ler_pdivr_mulr //; have q0 : 0 < d 0 j / d 0 s by rewrite divr_gt0.
have := h j s; rewrite -lnD //; move: q0; move: (_ / _) => q q0 {}h; rewrite -[q](exp_ln q); last exact/RltP.
case: (ltgtP (ln q) c) h => // [lt|->] _; last by rewrite lexx.
by apply/ltW/RltP/exp_increasing/RltP.
Qed.
Lemma conditionedZ p (T : 'M[K]_p) M c : 0 < c -> conditioned M T -> conditioned M (ofR c *: T).
Proof.
move=> c0 [e e0 [a b]]; exists (c * e); first exact: mulr_gt0.
have P (A B : 'M[K]_p) : loewner A B -> loewner (ofR c *: A) (ofR c *: B).
  by rewrite /loewner -scalerBr => /(psdZ (ltW _)); apply; rewrite ofR_gt0.
by split; [have := P _ _ a | have := P _ _ b]; rewrite scalerA -rmorphM // mulrCA.
Qed.
Lemma start_excess N p (s0 : 'M[K]_p.+1) : pd s0 -> exists D : R, forall Y : 'M[K]_(N, p.+1), (forall i, row i Y != 0) -> tcost Y s0 - tcost Y 1%:M <= D.
Proof.
move=> p0; have dec := specdecP (pd_herm p0); have d0 := eigdec_pos p0 dec.
have [s hs] := arg_ord (fun j => (specdec s0).1 0 j); pose l := ((specdec s0).1 0 s)^-1; have l0 : 0 < l by rewrite invr_gt0.
have lo : loewner 1%:M (ofR l *: s0).
  by apply: (eig_lo dec) => j; rewrite mulrC ler_pdivl_mulr // mul1r; exact: hs.
exists (p.+1%:R * (N%:R * ln l) + N%:R * ln (toR (\det s0))) => Y Y0.
rewrite /tcost det1 toR1 ln1 mulr0 addr0 addrAC -mulrBr ler_add2r; apply: ler_wpmul2l; first exact: ler0n.
rewrite -sumrB mulr_natl -[N in _ *+ N]card_ord -sumr_const; apply: ler_sum => i _.
have q0 := maha_gt0 p0 (samp0 Y0 i); have q1 := maha_gt0 (pd1 K p.+1) (samp0 Y0 i).
rewrite ler_subl_addr -lnM //; apply: ln_le => //; exact: maha_loewner (pd1 _ _) p0 lo.
Qed.
Lemma count_corrupted N p m (X Y : 'M[K]_(N, p)) V : corrupted m X Y -> (count_in Y V <= count_in X V + m)%N.
Proof.
move=> [_ h]; apply: leq_trans (_ : #|[set i | (row i X <= V)%MS] :|: [set i | row i Y != row i X]| <= _)%N.
  apply: subset_leq_card; apply/subsetP => i; rewrite !inE; case: eqP => [-> ->|]; by rewrite ?orbT.
by apply: leq_trans (leq_of_leqif (leq_card_setU _ _)) _; rewrite leq_add2l.
Qed.
Lemma resists_condition N p m (X Y : 'M[K]_(N, p)) : tyler_resists m X -> corrupted m X Y -> tyler_condition Y.
Proof. by move=> h c V r; apply: leq_ltn_trans (h V r); rewrite leq_mul2l count_corrupted ?orbT. Qed.
Lemma some_of (T : finType) (A : {set T}) m : exists2 B : {set T}, B \subset A & #|B| = minn m #|A|.
Proof.
exists [set x in take m (enum A)]; first by apply/subsetP => x; rewrite inE => /mem_take; rewrite mem_enum.
rewrite cardsE (card_uniqP _) ?take_uniq ?enum_uniq // size_take -cardE /minn; by [].
Qed.
(* the worst replacement: as many samples as possible moved into a subspace *)
Lemma worst N p m (X : 'M[K]_(N, p)) V : (forall i, row i X != 0) -> (0 < \rank V)%N ->
  exists2 Y, corrupted m X Y & count_in Y V = minn N (count_in X V + m).
Proof.
move=> X0 r0; have [j hj] : exists j, row j V != 0.
  apply: NNPP => no; have v0 : V = 0 by apply/row_matrixP => j; rewrite row0; apply: NNPP => h; apply: no; exists j; exact/eqP.
  by move: r0; rewrite v0 mxrank0.
have [B sB cB] := some_of (~: [set i | (row i X <= V)%MS]) m.
exists (\matrix_i if i \in B then row j V else row i X); first split.
- by move=> i; rewrite rowK; case: ifP.
- apply: leq_trans (_ : #|B| <= _)%N; last by rewrite cB geq_minl.
  by apply: subset_leq_card; apply/subsetP => i; rewrite inE rowK; case: ifP => //; rewrite eqxx.
rewrite /count_in; have -> : [set i | (row i (\matrix_i0 (if i0 \in B then row j V else row i0 X)) <= V)%MS] = [set i | (row i X <= V)%MS] :|: B.
  by apply/setP => i; rewrite !inE rowK; case: ifP => iB; rewrite ?orbF // row_sub orbT.
rewrite cardsU disjoint_setI0 ?cards0 ?subn0; last by rewrite disjoint_sym disjoints_subset.
have := cardsC [set i | (row i X <= V)%MS]; rewrite cB card_ord; lia.
Qed.
End Conditioned.
