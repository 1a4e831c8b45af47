(* The Student estimator with Kronecker structure, continued: what the gradient is not (C58), scores (C73). *)
From Coq Require Import Reals String.
From mathcomp Require Import all_ssreflect all_algebra.
From mathcomp Require Import complex mxtens.
From Coquelicot Require Import Coquelicot.
From Verif Require Import RealsMC RealTac RealTac2 Star StarInst FunCalc Model_featurearray Model_linalg Proofs_linalg NpArray Proofs_numpy
  Model_mappings Props_mappings Model_covariance Spec_covariance Model_estimators Model_scipy Model_probability Proofs_probability Props_probability
  Model_scores Props_robust Model_sklearn Model_objects
  Proofs_objects Props_objects Proofs_loop Proofs_cost GeoNum Props_geodesic KronNum Model_structured Proofs_structured Props_structured Props_kstudent.
Set Implicit Arguments.
Unset Strict Implicit.
Unset Printing Implicit Defensive.
Local Open Scope ring_scope.
Import GRing.Theory Num.Theory Order.TTheory.

(* ---------- one dimension: witnesses ---------- *)
Section OneDim.
Variable K : starField.
Local Notation ofR := (@ofR K).
Local Notation toR := (@toR K).
Lemma tens1 (c : K) : (c%:M : 'M[K]_1) *t (1%:M : 'M[K]_1) = (c%:M : 'M[K]_1).
Proof.
apply/matrixP => i j; case: (mxtens_indexP i) => i1 i2; case: (mxtens_indexP j) => j1 j2.
by rewrite tensmxE !mxE !ord1 eqxx !mulr1n mulr1.
Qed.
Lemma maha_1 t (y : 'cV[K]_1) : 0 < t -> maha ((ofR t)%:M : 'M[K]_1) y = sq (y 0 0) / t.
Proof.
move=> t0; have -> : (ofR t)%:M = dia K (const_mx t : 'rV_1) by rewrite dia_const.
by rewrite maha_dia ?big_ord1 ?mxE // => j; rewrite mxE.
Qed.
Lemma pd_1 t : 0 < t -> pd ((ofR t)%:M : 'M[K]_1).
Proof. by move=> t0; rewrite -scalemx1; apply: pdZ (pd1 _ _); rewrite ofR_gt0. Qed.
Lemma line1 s : (1%:M : 'M[K]_1) + ofR s *: 1%:M = (ofR (1 + s))%:M.
Proof. by rewrite scalemx1 rmorphD rmorph1 raddfD. Qed.
Lemma cell1 N (X : 'M[K]_(N, 1 * 1)) i : cell X 1 1 i = (X i 0)%:M.
Proof. by rewrite cellE; apply/matrixP => r c; rewrite !ord1 !mxE eqxx mulr1n; congr (X i _); apply: val_inj. Qed.
Lemma grad1 N (c : 'I_N -> K) (u : 'I_N -> R) (C : 'I_N -> 'M[K]_1) : (forall i, C i = (c i)%:M) ->
  (N%:R^-1 *: (- \sum_i ofR (u i) *: (invmx 1%:M *m ((C i)^H *m invmx 1%:M *m C i) *m invmx 1%:M)) + 1%:R *: invmx 1%:M)^H =
  (ofR (1 - N%:R^-1 * \sum_i u i * sq (c i)))%:M.
Proof.
move=> hC; have hs x : (ofR x)%:M^H = (ofR x)%:M :> 'M[K]_1.
  by apply/matrixP => i j; rewrite !mxE !ord1 eqxx !mulr1n cj_ofR.
rewrite -[RHS]hs; congr (_^H); rewrite invmx1 scale1r rmorphB (rmorph1 ofR) rmorphM fmorphV rmorph_nat rmorph_sum raddfB /= addrC; congr (_ + _).
rewrite scalerN -scale_scalar_mx; congr (- (_ *: _)); rewrite raddf_sum; apply: eq_bigr => i _ /=.
rewrite hC !mulmx1 mul1mx rmorphM -scale_scalar_mx ofR_sq; congr (_ *: _).
by apply/matrixP => r k; rewrite !mxE big_ord1 !mxE !ord1 !eqxx !mulr1n mulrC.
Qed.
Lemma grad1' N (c : 'I_N -> K) (u : 'I_N -> R) (C : 'I_N -> 'M[K]_1) : (forall i, C i = (c i)%:M) ->
  (N%:R^-1 *: (- \sum_i ofR (u i) *: (invmx 1%:M *m (C i *m invmx 1%:M *m (C i)^H) *m invmx 1%:M)) + 1%:R *: invmx 1%:M)^H =
  (ofR (1 - N%:R^-1 * \sum_i u i * sq (c i)))%:M.
Proof.
move=> hC; apply: etrans (grad1 u hC); congr (_^H); congr (_ *: (- _) + _); apply: eq_bigr => i _; congr (_ *: (_ *m _ *m _)).
rewrite !hC invmx1 !mulmx1; apply/matrixP => r k; rewrite !mxE !big_ord1 !mxE !ord1 !eqxx !mulr1n; exact: mulrC.
Qed.
Lemma q1 (C : 'M[K]_1) (c : K) : C = c%:M -> \tr (invmx (1%:M : 'M[K]_1) *m C^T *m invmx 1%:M *m C) = c * c.
Proof. by move=> ->; rewrite invmx1 mul1mx mulmx1 tr_scalar_mx -scalar_mxM /mxtrace big_ord1 mxE eqxx. Qed.
(* the two components of kst_egrad, for any star field *)
Lemma egrad1_gen N (X : 'M[K]_(N, 1 * 1)) (w : 'I_N -> K) (u : 'I_N -> R) : (forall i, w i = ofR (u i)) ->
  (N%:R^-1 *: (- \sum_i w i *: (invmx 1%:M *m ((cell X 1 1 i)^H *m invmx 1%:M *m cell X 1 1 i) *m invmx 1%:M)) + 1%:R *: invmx 1%:M)^H =
  (ofR (1 - N%:R^-1 * \sum_i u i * sq (X i 0)))%:M /\
  (N%:R^-1 *: (- \sum_i w i *: (invmx 1%:M *m (cell X 1 1 i *m invmx 1%:M *m (cell X 1 1 i)^H) *m invmx 1%:M)) + 1%:R *: invmx 1%:M)^H =
  (ofR (1 - N%:R^-1 * \sum_i u i * sq (X i 0)))%:M.
Proof.
move=> e; split; [apply: etrans (grad1 u (cell1 X))|apply: etrans (grad1' u (cell1 X))].
  exact: grad_ext.
exact: grad_ext.
Qed.
End OneDim.

Section Witnesses.
Variables (psd_other : psd_oracle) (gammaln : R -> R) (clog : C -> C).
Local Notation K := complex_sf.
Local Notation ofR := (@ofR K).
Local Notation toR := (@toR K).
Local Notation cost := (kst_cost psd_other gammaln clog).
Lemma cost1 df N (X : 'M[K]_(N, 1 * 1)) x (m : 'cV[K]_(1 * 1)) loc s : 0 < df -> has_mx X x -> mean_is m loc -> `|s| < 1 ->
  exists k, k = - (gammaln (df / 2%:R + 1) - gammaln (df / 2%:R) - ln (PI * df / 2%:R)) /\
  cost x df loc ((1%:M : 'M[K]_1) + ofR s *: 1%:M) (1%:M : 'M[K]_1) =
  Ok (R2C (\sum_i (k + (ln (1 + s) + (df / 2%:R + 1) * ln (1 + 2%:R * (sq (X i 0 - m 0 0) / (1 + s)) / df))))).
Proof.
move=> df0 hX hm s1; have t0 : 0 < 1 + s by move: s1; rewrite ltr_norml => /andP[h _]; rewrite -(ltr_add2l (-1)) addr0 addrA addNr add0r.
eexists; split; first reflexivity.
rewrite line1 (C58_cost _ _ _ df0 hX hm) //; [|exact: pd_1|exact: pd1].
congr (Ok (R2C _)); rewrite -sumrN; apply: eq_bigr => i _; rewrite tens1 /cstudent_spec maha_1 // det_scalar1.
have -> : complex.Re (ofR (1 + s)) = 1 + s by exact: (toRK K).
have -> : (samp X i - m) 0 0 = X i 0 - m 0 0 by rewrite !mxE.
rewrite -[(1 * 1)%N]/1%N; move: (ln _) (ln _) (ln _) (gammaln _) (gammaln _) => u v w z t.
have E (r : R) : - (t - z - 1%:R * w - v - r * u) = - (t - z - w) + (v + r * u) by rewrite mul1r; rring.
exact: E.
Qed.
Lemma egrad1 df N (X : 'M[K]_(N, 1 * 1)) :
  let g := 1 - N%:R^-1 * \sum_i (df + 1) / (df + toR (X i 0 * X i 0)) * sq (X i 0) in
  kst_egrad X df (1%:M : 'M[K]_1) (1%:M : 'M[K]_1) = Ok ((ofR g)%:M, (ofR g)%:M).
Proof.
move=> g; pose u i := (df + 1) / (df + toR (X i 0 * X i 0)).
have e i : kst_w 1 1 df (kst_Q X (invmx (1%:M : 'M[K]_1)) (invmx (1%:M : 'M[K]_1)) i) = ofR (u i) by rewrite /kst_w /kst_Q (q1 (cell1 X i)).
rewrite /kst_egrad /np_inv unitmx1 !bindrOk; cbv zeta.
have [e1 e2] := egrad1_gen X e.
exact: (congr1 (@Ok _) (f_equal2 pair e1 e2)).
Qed.
Lemma derive1 df N (X : 'M[K]_(N, 1 * 1)) x (m : 'cV[K]_(1 * 1)) loc d : 0 < df -> has_mx X x -> mean_is m loc ->
  (forall k : R, is_derive (fun s : R => (\sum_i (k + (ln (1 + s) + (df / 2%:R + 1) * ln (1 + 2%:R * (sq (X i 0 - m 0 0) / (1 + s)) / df))) : R)) 0 d) ->
  derivative_at0 (fun s y => cost x df loc ((1%:M : 'M[K]_1) + ofR s *: 1%:M) (1%:M : 'M[K]_1) = Ok (R2C y)) d.
Proof.
move=> df0 hX hm h.
pose k := - (gammaln (df / 2%:R + 1) - gammaln (df / 2%:R) - ln (PI * df / 2%:R)).
exists (fun s : R => (\sum_i (k + (ln (1 + s) + (df / 2%:R + 1) * ln (1 + 2%:R * (sq (X i 0 - m 0 0) / (1 + s)) / df))) : R)), 1; split=> //; first exact: ltr01.
by move=> s s1; have [k' [e ->]] := cost1 df0 hX hm s1; rewrite e.
Qed.
Lemma of_mxP m n (A : 'M[K]_(m, n)) : has_mx (A : 'M[C]_(m, n)) (of_mx KCplx (A : 'M[C]_(m, n))).
Proof. by split=> // i j; rewrite at_of_mx. Qed.
Lemma sq_ofR r : @sq K (ofR r) = r * r. Proof. by rewrite /sq cj_ofR -rmorphM toRK. Qed.
Lemma sq_i : @sq K 'i%C = 1.
Proof. by apply: (can_inj (toRK K)); rewrite ofR_sq rmorph1; apply/eqP; rewrite eq_complex /=; apply/andP; split; apply/eqP; rring. Qed.
(* Violated for complex data: one sample i, A = B = 1, df = 2.  The cost is stationary, the function
   returns -2. *)
Theorem C58_complex_data_refuted :
  let X : 'M[K]_(1, 1 * 1) := const_mx 'i%C in
  kst_egrad X 2%:R (1%:M : 'M[K]_1) (1%:M : 'M[K]_1) = Ok ((ofR (- 2%:R))%:M, (ofR (- 2%:R))%:M) /\
  derivative_at0 (fun s y => cost (of_mx KCplx (X : 'M[C]_(_, _))) 2%:R Pnone ((1%:M : 'M[K]_1) + ofR s *: 1%:M) (1%:M : 'M[K]_1) = Ok (R2C y)) 0.
Proof.
split.
  rewrite egrad1 big_ord1 !mxE sq_i.
  have -> : toR ('i%C * 'i%C) = -1 by rewrite -expr2 sqr_i (_ : -1 = ofR (-1)) ?toRK // rmorphN rmorph1.
  by rewrite (_ : 1 - _ = - 2%:R) //; rfield.
apply: (@derive1 2%:R 1 _ _ 0).
- exact: two_gt0.
- exact: of_mxP.
- by right.
move=> k; apply: (@is_derive_ext R_AbsRing R_NormedModule _ _ _ _ _ (w_cplx k)) => s.
by rewrite big_ord1 !mxE subr0 sq_i; r2R.
Qed.
(* Violated when a location is given: one sample 1, location 1, df = 2.  The derivative of the cost is 1,
   the function returns 0. *)
Theorem C58_location_refuted :
  let X : 'M[K]_(1, 1 * 1) := const_mx 1 in
  kst_egrad X 2%:R (1%:M : 'M[K]_1) (1%:M : 'M[K]_1) = Ok (0, 0) /\
  derivative_at0 (fun s y => cost (of_mx KCplx (X : 'M[C]_(_, _))) 2%:R (Parr (of_cv KCplx (const_mx 1 : 'cV[C]_(1 * 1))))
    ((1%:M : 'M[K]_1) + ofR s *: 1%:M) (1%:M : 'M[K]_1) = Ok (R2C y)) 1.
Proof.
have t1 : toR 1 = 1 by rewrite -(rmorph1 ofR) toRK.
have s1 : @sq K 1 = 1 by rewrite /sq rmorph1 mulr1.
split.
  rewrite egrad1 big_ord1 !mxE s1 !mulr1 t1 (_ : 1 - _ = 0); last by rfield.
  have z : (0%:M : 'M[K]_1) = 0 by exact: raddf0.
  by rewrite (rmorph0 ofR) z.
apply: (@derive1 2%:R 1 _ _ (const_mx 1 : 'cV[K]_(1 * 1))).
- exact: two_gt0.
- exact: of_mxP.
- by left; eexists; first reflexivity; split=> // i; rewrite at_of_cv.
move=> k; apply: (@is_derive_ext R_AbsRing R_NormedModule _ _ _ _ _ (w_loc k)) => s.
have s0 : @sq K 0 = 0 by rewrite /sq mul0r raddf0.
by rewrite big_ord1 !mxE subrr s0; r2R.
Qed.
(* Violated for real data without location: samples 1/2 and 3, df = 1, A = B = 1.  The derivative of the cost
   is 3/38, the function returns -1/10: a direction of descent for the one increases the other. *)
Theorem C58_degrees_of_freedom_refuted :
  let X : 'M[K]_(2, 1 * 1) := \matrix_(i, j) (if (i : nat) == 0%N then ofR 2%:R^-1 else ofR 3%:R) in
  kst_egrad X 1 (1%:M : 'M[K]_1) (1%:M : 'M[K]_1) = Ok ((ofR (- 10%:R^-1))%:M, (ofR (- 10%:R^-1))%:M) /\
  derivative_at0 (fun s y => cost (of_mx KCplx (X : 'M[C]_(_, _))) 1 Pnone ((1%:M : 'M[K]_1) + ofR s *: 1%:M) (1%:M : 'M[K]_1) = Ok (R2C y)) (3%:R / 38%:R).
Proof.
split.
  rewrite egrad1 big_ord_recl big_ord1 !mxE.
  have e r : toR (ofR r * ofR r) = r * r by rewrite toRZ toRK.
  have -> : (if (nat_of_ord (lift ord0 (0 : 'I_1))) == 0%N then ofR 2%:R^-1 else ofR 3%:R) = ofR 3%:R by [].
  have -> : (if (nat_of_ord (ord0 : 'I_2)) == 0%N then ofR 2%:R^-1 else ofR 3%:R) = ofR 2%:R^-1 by [].
  by rewrite !e !sq_ofR (_ : 1 - _ = - 10%:R^-1) //; rfield.
apply: (@derive1 1 2 _ _ 0).
- exact: ltr01.
- exact: of_mxP.
- by right.
move=> k; rewrite (_ : 3%:R / 38%:R = Rmult (IZR 3) (Rinv (IZR 38))); last by r2R.
apply: (@is_derive_ext R_AbsRing R_NormedModule _ _ _ _ _ (w_sign k)) => s.
rewrite big_ord_recl big_ord1 !mxE !subr0.
by rewrite !sq_ofR; r2R.
Qed.
End Witnesses.

Print Assumptions C58_complex_data_refuted.
Print Assumptions C58_location_refuted.
Print Assumptions C58_degrees_of_freedom_refuted.
