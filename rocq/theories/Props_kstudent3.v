(* The objects KroneckerStudent and KroneckerEllipticalMM: score (C73), fit (C74). *)
From Coq Require Import Reals String.
From mathcomp Require Import all_ssreflect all_algebra.
From mathcomp Require Import complex mxtens.
From Coquelicot Require Import Coquelicot.
From Verif Require Import RealsMC RealTac RealTac2 Star StarInst FunCalc Model_featurearray Model_linalg Proofs_linalg NpArray Proofs_numpy
  Model_mappings Props_mappings Model_covariance Spec_covariance Model_estimators Model_scipy Model_probability Proofs_probability Props_probability
  Model_scores Props_robust Model_sklearn Model_objects
  Proofs_objects Props_objects Proofs_loop Proofs_cost GeoNum Props_geodesic KronNum Model_structured Proofs_structured Props_structured
  Props_structured2 Props_kstudent Props_kstudent2.
Set Implicit Arguments.
Unset Strict Implicit.
Unset Printing Implicit Defensive.
Local Open Scope ring_scope.
Import GRing.Theory Num.Theory Order.TTheory.
Local Notation K := complex_sf.

(* ---------- specification: log-likelihood of the samples ---------- *)
Definition loglik (lgamma : R -> R) N p (df : R) (m : 'cV[K]_p) (S : 'M[K]_p) (X : 'M[K]_(N, p)) : R :=
  \sum_i cstudent_spec lgamma df m S (samp X i).

Section Objects.
Variables (psd_other : psd_oracle) (gammaln : R -> R) (clog : C -> C) (pinvh : arr -> res arr).
Variables (a b : nat).
Variable solver : ('M[K]_a -> 'M[K]_b -> res C) -> ('M[K]_a -> 'M[K]_b -> res ('M[K]_a * 'M[K]_b)) ->
  'M[K]_a * 'M[K]_b -> res ('M[K]_a * 'M[K]_b).
Local Notation score := (kst_score psd_other gammaln clog solver).
Local Notation estimate := (kst_estimate psd_other gammaln clog solver).
Local Notation fit := (kst_fit psd_other gammaln clog pinvh solver).

(* ------------------------------------------------------------------ C73 *)
(* Violated: the score does not depend on covariance_ (nor on A_, B_, precision_) ... *)
Theorem C73_score_ignores_covariance_refuted k k' df X_test : o_location (k_obj k) = o_location (k_obj k') ->
  score k df X_test = score k' df X_test.
Proof. by rewrite /kst_score => ->. Qed.
(* ... it is the opposite of the log-likelihood, of factors estimated again, on the test data *)
Theorem C73_score_value_refuted k df N (X : 'M[K]_(N, a * b)) x (m : 'cV[K]_(a * b)) loc A B :
  0 < df -> has_mx X x -> has_vec m loc -> o_location (k_obj k) = Some loc ->
  estimate x df loc None = Ok (A, B) -> pd A -> pd B ->
  score k df x = Ok (R2C (- loglik gammaln df m (A *t B) X)).
Proof.
move=> df0 hX hm hl e pA pB; rewrite /kst_score hl e bindrOk /=.
by apply: C58_cost => //; left; exists loc.
Qed.
(* before any fit it raises *)
Theorem C73_score_unfitted k df X_test : o_location (k_obj k) = None -> score k df X_test = Err AttributeErr.
Proof. by rewrite /kst_score => ->. Qed.

(* ------------------------------------------------------------------ C74 *)
(* Complex data: when the optimiser returns factors for this data set, they are A_ and B_, covariance_ is
   their Kronecker product; location_ is the empirical mean, or 0.  When it raises, fit raises and leaves
   A_, B_ and covariance_, but location_ is already the one of the new data. *)
Theorem C74_fit k df centered N p (X : 'M[K]_(N.+1, p.+1)) init : (a * b)%N = p.+1 -> is_cplx (o_cls (k_obj k)) ->
  (forall c, exists P, pinvh c = Ok P) ->
  exists Xv, [/\ same Xv (of_mx KCplx (X : 'M[C]_(_, _))),
    has_vec (if centered then 0 else \col_j (N.+1%:R^-1 * \sum_i X i j) : 'cV[C]_p.+1) (kst_location centered Xv) &
    let: (k', r) := fit k df centered (of_mx KCplx (X : 'M[C]_(_, _))) init in
    o_location (k_obj k') = Some (kst_location centered Xv) /\
    match estimate Xv df (kst_location centered Xv) init with
    | Ok (A, B) => r = Ok tt /\ exists c, [/\ k_A k' = Some (of_mx KCplx (A : 'M[C]_a)), k_B k' = Some (of_mx KCplx (B : 'M[C]_b)),
        o_covariance (k_obj k') = Some c & same c (of_mx KCplx (A *t B : 'M[C]_(a * b)))]
    | Err e => [/\ r = Err e, k_A k' = k_A k, k_B k' = k_B k & o_covariance (k_obj k') = o_covariance (k_obj k)]
    end].
Proof.
move=> ab hc hp; set x := of_mx _ _; have [ec ev] := note_nfeatE (k_obj k) x.
have hc' : is_cplx (o_cls (note_nfeat (k_obj k) x)) by rewrite ec.
have [Xv [n [e sm]]] := @C15_complex_data _ x N p hc' erefl erefl.
have sv : sh Xv = [:: N.+1; p.+1] by case: sm => _ ->.
exists Xv; split=> //.
  rewrite /kst_location sv /=; case: (centered); first by split=> // i; rewrite mxE.
  split=> // i; rewrite at_of_cv !mxE; congr (_ * _); apply: eq_bigr => j _.
  have := same_to_mx sm sv => /matrixP /(_ j i); rewrite !mxE => ->; exact: at_of_mx.
rewrite /kst_fit /= e; case: (estimate _ _ _ _) => [[A B]|er] //=.
rewrite /set_factors /=.
have hk : is_cplx (o_cls (with_loc (note_nfeat (k_obj k) x) (Some (kst_location centered Xv)))) by [].
have sk : sh (np_kron A B) = [:: p.+1; p.+1] by rewrite /= ab.
have [c [ek hs]] := C14_complex_matrix_stored hk (erefl : kd (np_kron A B) = KCplx) sk.
rewrite /set_covariance ek; have [P eP] := hp c; case: ifP => _; rewrite ?eP.
  by split=> //; split=> //; exists c; split.
by split=> //; split=> //; exists c; split.
Qed.
End Objects.

(* C73, the value: one sample 0, a = b = 1, location_ = 0, covariance_ = 1, an optimiser that stays where it
   starts.  The log-likelihood is - ln pi, score returns ln pi. *)
Theorem C73_wrong_sign_refuted psd_other lgamma clog (o : obj) df : (forall x, 0 < x -> lgamma (x + 1) = lgamma x + ln x) ->
  0 < df -> o_location o = Some (np_zeros KReal [:: 1%N]) ->
  let X : 'M[K]_(1, 1 * 1) := 0 in let k := KObj (with_cov o (Some (of_mx KCplx (1%:M : 'M[C]_1)))) None None in
  [/\ kst_score psd_other lgamma clog (fun _ _ (i : 'M[K]_1 * 'M[K]_1) => Ok i) k df (of_mx KCplx (X : 'M[C]_(_, _))) = Ok (R2C (ln PI)),
      loglik lgamma df 0 (1%:M : 'M[K]_(1 * 1)) X = - ln PI & 0 < ln PI].
Proof.
move=> hl df0 ho X k.
have h2 : 0 < df / 2%:R by rewrite divr_gt0 // two_gt0.
have e : loglik lgamma df 0 (1%:M : 'M[K]_(1 * 1)) X = - ln PI.
  rewrite /loglik big_ord1 /cstudent_spec -[(1 * 1)%N]/1%N hl // det1 subr0.
  have -> : samp X 0 = 0 by apply/matrixP => i j; rewrite !mxE.
  have -> : maha (1%:M : 'M[K]_1) 0 = 0 by rewrite /maha mulmx0 mxE raddf0.
  have -> : complex.Re 1 = 1 by [].
  have p0 : 0 < (PI : R) by exact: PI_gt0.
  rewrite mulr0 mul0r addr0 !ln1 mulr0 !subr0 mul1r -[PI * df / _]mulrA (lnM p0 h2).
  move: (ln _) (ln _) (lgamma _) => u v w; rring.
split=> //.
  have -> : ln PI = - loglik lgamma df 0 ((1%:M : 'M[K]_1) *t (1%:M : 'M[K]_1)) X by rewrite tens_one e opprK.
  apply: (@C73_score_value_refuted _ _ _ 1 1 _ k df 1 X _ 0 (np_zeros KReal [:: 1%N])) => //.
  - exact: of_mxP.
  - by split=> // i; rewrite mxE.
  - exact: pd1.
  - exact: pd1.
rewrite -ln1; apply: ln_lt; first exact: ltr01.
exact/RltP/PI_gt1.
Qed.

(* KroneckerEllipticalMM.score runs the estimation again, on the test data, and returns 0 *)
Theorem C73_mm_score_is_zero_refuted ssqrtm a b tol m N q (X : 'M[K]_(N, q)) r : kmm_score ssqrtm a b tol m X = Ok r -> r = 0.
Proof. by rewrite /kmm_score; case: (estimation_cov_kronecker_MM _ _ _ _ _ _) => [[[[[A B] t] i]|]|] //= [<-]. Qed.
Theorem C73_mm_score_returns_zero_refuted ssqrtm a b tol m N (X : 'M[K]_(N, a * b)) : sqrtm_psd_ok ssqrtm ->
  nonzero_samples X -> span_columns X -> span_rows X -> kmm_score ssqrtm a b tol m X = Ok 0.
Proof.
move=> ok nz sc sr; have [A [B [k [e _ _ _]]]] := C56_succeeds ok tol m nz sc sr.
by rewrite /kmm_score e.
Qed.
(* data meeting the hypotheses of C58_real_data_partial, C58_cost and C73_score_value_refuted *)
Example C58_hypotheses N a b : let X : 'M[K]_(N.+1, a * b) := const_mx 1 in
  [/\ has_mx (X : 'M[C]_(_, _)) (of_mx KCplx (X : 'M[C]_(_, _))), map_mx (cj K) X = X, pd (1%:M : 'M[K]_a) & mean_is (0 : 'cV[C]_(a * b)) Pnone].
Proof.
split; [exact: of_mxP| |exact: pd1|by right].
by apply/matrixP => i j; rewrite !mxE rmorph1.
Qed.

Print Assumptions C73_score_ignores_covariance_refuted.
Print Assumptions C73_score_value_refuted.
Print Assumptions C73_score_unfitted.
Print Assumptions C74_fit.
Print Assumptions C73_wrong_sign_refuted.
Print Assumptions C73_mm_score_is_zero_refuted.
Print Assumptions C73_mm_score_returns_zero_refuted.
