(* Theorems about the complex distributions: C08-C12, C68. *)
From Coq Require Import Reals ClassicalEpsilon.
From mathcomp Require Import all_ssreflect all_algebra.
From mathcomp Require Import complex zify.
From Verif Require Import RealsMC RealTac Star StarInst FunCalc RealRep Model_featurearray Model_linalg Props_linalg Model_covariance Spec_covariance Proofs_cost
  NpArray Proofs_numpy Model_mappings Proofs_mappings Props_mappings Model_scipy Model_probability Proofs_probability.
Set Implicit Arguments.
Unset Strict Implicit.
Unset Printing Implicit Defensive.
Local Open Scope ring_scope.
Import GRing.Theory Num.Theory Order.TTheory.
Local Notation Re := (@complex.Re R).
Local Notation Im := (@complex.Im R).
Local Notation K := complex_sf.

(* ------------------------------------------------------------------ the densities *)
(* circular complex Gaussian *)
Definition cnormal_spec p (m : 'cV[K]_p) (S : 'M[K]_p) (x : 'cV[K]_p) : R :=
  - p%:R * ln PI - ln (Re (\det S)) - maha S (x - m).
(* complex Student-t *)
Definition cstudent_spec (lgamma : R -> R) p (df : R) (m : 'cV[K]_p) (S : 'M[K]_p) (x : 'cV[K]_p) : R :=
  lgamma (df / 2%:R + p%:R) - lgamma (df / 2%:R) - p%:R * ln (PI * df / 2%:R) - ln (Re (\det S))
  - (df / 2%:R + p%:R) * ln (1 + 2%:R * maha S (x - m) / df).

Lemma two_gt0 : 0 < (2%:R : R). Proof. by rewrite ltr0n. Qed.
Lemma PI_gt0 : 0 < (PI : R). Proof. exact/RltP/PI_RGT_0. Qed.
Lemma rvecB m n (A B : 'M[K]_(m, n)) : rvec A - rvec B = rvec (A - B).
Proof.
have -> : A - B = A + @ofR K (-1) *: B by rewrite rmorphN rmorph1 scaleN1r.
rewrite [RHS]/rvec reMD imMD -add_col_mx; congr (_ + _).
by rewrite -[col_mx _ _]/(rvec (@ofR K (-1) *: B)) rvecZ scaleN1r.
Qed.
Section Rep.
Variables (p : nat) (S : 'M[K]_p).
Hypothesis pS : pd S.
Let Sr : 'M[R]_(p + p) := 2%:R^-1 *: rep S.
Lemma spd_half : spd Sr.
Proof. by rewrite /spd; apply/(pdZ' _ half_gt0)/rep_pd. Qed.
Lemma det_real : @ofR K (Re (\det S)) = \det S.
Proof. by rewrite ofR_toR_ge0 //; apply/ltW/det_pd. Qed.
Lemma Re_det_gt0 : 0 < Re (\det S).
Proof. by rewrite -(ofR_gt0 K) det_real; apply: det_pd. Qed.
Lemma ln_det_half : ln (\det Sr) = - (2%:R * p%:R * ln 2%:R) + 2%:R * ln (Re (\det S)).
Proof.
have d0 := Re_det_gt0; rewrite /Sr detZ det_rep.
have e (z : K) r : @ofR K r = z -> @toR K (z * @cj K z) = r * r by move=> <-; rewrite cj_ofR -rmorphM toRK.
rewrite (e _ _ det_real) lnM ?exprn_gt0 ?half_gt0 ?mulr_gt0 // lnM // lnX ?half_gt0 // lnV ?two_gt0 //.
rewrite natrD [X in _ = - (X * _ * _) + X * _]mulr2n; move: (ln 2%:R) (ln (Re _)) (p%:R : R) => a b c; rring.
Qed.
Lemma maha_half (x : 'cV[K]_p) : ((rvec x)^T *m invmx Sr *m rvec x) 0 0 = 2%:R * maha S x.
Proof. by have [_] := C04_inverse (real_cov_half S) (real_vec_rvec x) (pd_unit pS). Qed.
Lemma rnormal_half (m x : 'cV[K]_p) : rnormal (rvec m) Sr (rvec x) = cnormal_spec m S x.
Proof.
rewrite /rnormal rvecB maha_half ln_det_half /cnormal_spec lnM ?two_gt0 ?PI_gt0 // natrD.
have t2 : 2%:R = 1 + 1 :> R by rewrite mulr2n.
move: half2 t2; move: (2%:R : R) (2%:R^-1 : R) (ln 2%:R) (ln PI) (ln (Re _)) (maha _ _) (p%:R : R) => t h l2 lp ld q pr e2 t2.
rewrite t2 in e2 *.
have -> : - h * ((pr + pr) * (l2 + lp) + (- ((1 + 1) * pr * l2) + (1 + 1) * ld) + (1 + 1) * q) = - (h * (1 + 1)) * (pr * lp + ld + q) by rring.
by rewrite e2; rring.
Qed.
Lemma rstudent_half lgamma (df : R) (m x : 'cV[K]_p) : 0 < df -> rstudent lgamma df (rvec m) Sr (rvec x) = cstudent_spec lgamma df m S x.
Proof.
move=> df0; rewrite /rstudent rvecB maha_half ln_det_half /cstudent_spec.
have t2 : 2%:R = 1 + 1 :> R by rewrite mulr2n.
have -> : PI * df / 2%:R = df * PI / 2%:R by rewrite [PI * _]mulrC.
rewrite [ln (df * PI / _)]lnD; [|exact: (mulr_gt0 df0 PI_gt0)|exact: two_gt0].
rewrite natrD.
have -> : 2%:R^-1 * (df + (p%:R + p%:R)) = df / 2%:R + p%:R.
  have -> : (p%:R : R) + p%:R = 2%:R * p%:R by rewrite mulr_natl [RHS]mulr2n.
  by rewrite mulrDr mulrA half2 mul1r mulrC.
rewrite [2%:R^-1 * df]mulrC.
have -> : 1 / df * (2%:R * maha S (x - m)) = 2%:R * maha S (x - m) / df by rewrite mul1r mulrC.
move: half2 t2; move: (lgamma _) (lgamma _) (ln (1 + _)) => ga gb le; move: (ln (df * PI)) (ln 2%:R) (ln (Re _)) => lp l2 ld.
move: (2%:R : R) (2%:R^-1 : R) (p%:R : R) => t h pr e2 t2; rewrite t2 in e2 *.
have -> : (pr + pr) * h = pr * (h * (1 + 1)) by rring.
have -> : h * (- ((1 + 1) * pr * l2) + (1 + 1) * ld) = (h * (1 + 1)) * (ld - pr * l2) by rring.
by rewrite e2; rring.
Qed.
End Rep.

(* ------------------------------------------------------------------ what the arguments stand for *)
(* an array of any dtype holding a vector, samples, a matrix *)
Definition has_vec p (m : 'cV[C]_p) (a : arr) := sh a = [:: p] /\ forall i : 'I_p, at_ a [:: nat_of_ord i] = m i 0.
Definition has_mx n p (X : 'M[C]_(n, p)) (a : arr) :=
  sh a = [:: n; p] /\ forall (i : 'I_n) (j : 'I_p), at_ a [:: nat_of_ord i; nat_of_ord j] = X i j.
(* a mean parameter: an array, or None for 0 *)
Definition mean_is p (m : 'cV[C]_p) (mean : param) : Prop :=
  (exists2 a, mean = Parr a & has_vec m a) \/ (mean = Pnone /\ m = 0).
(* a complex covariance parameter *)
Definition ccov_is p (S : 'M[C]_p) (cov : param) : Prop := exists c, [/\ cov = Parr c, kd c = KCplx & has_mx S c].

Lemma reM_E m n (A : 'M[K]_(m, n)) i j : reM A i j = Re (A i j). Proof. by rewrite mxE. Qed.
Lemma imM_E m n (A : 'M[K]_(m, n)) i j : imM A i j = Im (A i j). Proof. by rewrite mxE. Qed.
Lemma toreal_vec p (m : 'cV[K]_p) a : has_vec m a -> exists b, arraytoreal (astype_complex a) = Ok b /\ vec_of (rvec m) b.
Proof.
case=> sa ha; have [b [e [kb sb hb]]] := @toreal_1 (astype_complex a) p erefl sa; exists b; split=> //; split=> // i.
rewrite hb [at_ (astype_complex a)]/= mxE; case: splitP => u eu; rewrite eu ?ltn_ord.
  by rewrite reM_E ha.
by rewrite ?[(p + _ < p)%N]ltnNge ?leq_addr addKn imM_E ha.
Qed.
Lemma toreal_rows n p (X : 'M[K]_(n, p)) a : has_mx X a -> exists b, arraytoreal (astype_complex a) = Ok b /\ rows_of (rvec X^T)^T b.
Proof.
case=> sa ha; have [b [e [kb sb hb]]] := @toreal_2 (astype_complex a) n p erefl sa; exists b; split=> //; split=> // i j.
rewrite hb [at_ (astype_complex a)]/= mxE mxE; case: splitP => u eu; rewrite eu ?ltn_ord.
  by rewrite reM_E mxE ha.
by rewrite ?[(p + _ < p)%N]ltnNge ?leq_addr addKn imM_E mxE ha.
Qed.
Lemma toreal_cov p (S : 'M[K]_p) c : has_mx S c -> exists b, [/\ covariancetoreal (astype_complex c) = Ok b, kd b = KReal,
  sh b = [:: (p + p)%N; (p + p)%N] & forall i j : 'I_(p + p), Re (at_ b [:: nat_of_ord i; nat_of_ord j]) = (2%:R^-1 *: rep S) i j].
Proof.
case=> sc hc; have [b [e [kb sb hb]]] := @covtoreal (astype_complex c) p erefl sc; exists b; split=> // i j.
rewrite hb ?ltn_ord // [at_ (astype_complex c)]/=.
have h (z w : C) (r : R) : Re w = r -> Im w = 0 -> Re (R2C 2%:R^-1 * w) = 2%:R^-1 * r by case: w => a b' /= -> ->; rewrite mul0r subr0.
rewrite (h 0 _ (rep S i j)); first by rewrite [RHS]mxE.
  rewrite /rep !mxE; case: splitP => u eu; rewrite mxE; case: splitP => v ev; rewrite eu ev ?ltn_ord ?[(p + _ < p)%N]ltnNge ?leq_addr ?addKn.
  - by rewrite hc reM_E.
  - by rewrite hc mxE imM_E.
  - by rewrite hc imM_E.
  - by rewrite hc reM_E.
by do 2 case: ifP => _ //; rewrite /= oppr0.
Qed.

Lemma check_complex p (m : 'cV[K]_p) (S : 'M[K]_p) mean cov : mean_is m mean -> ccov_is S cov ->
  exists a c, [/\ check_parameters mean cov = Ok (Parr a, Parr c), vec_of (rvec m) a, sh c = [:: (p + p)%N; (p + p)%N] &
    forall i j : 'I_(p + p), Re (at_ c [:: nat_of_ord i; nat_of_ord j]) = (2%:R^-1 *: rep S) i j].
Proof.
move=> hm [c [-> kc hc]].
have [m' [e hm']] : exists m', (if mean is Pnone then zero_mean (Parr c) else Ok mean) = Ok (Parr m') /\ has_vec m m'.
  case: hm => [[a -> ha]|[-> m0]]; first by exists a.
  case: hc => sc _; rewrite /zero_mean /ndim /len sc /=; eexists; split; first reflexivity.
  by split=> // i; rewrite m0 mxE.
rewrite /check_parameters e [bindr _ _]/= {2}/p_iscomplex /= /iscomplexobj kc /= andbF.
have [a [-> va]] := toreal_vec hm'; have [b [e1 kb sb hb]] := toreal_cov hc.
by rewrite [bindr _ _]/= e1; exists a, b.
Qed.
Lemma p_cov_complex p (S : 'M[K]_p) cov : ccov_is S cov -> p_iscomplex cov.
Proof. by case=> c [-> k _]; rewrite /p_iscomplex /= /iscomplexobj k. Qed.

(* ------------------------------------------------------------------ C08 *)
Lemma row_rvec n p (X : 'M[K]_(n, p)) i : (row i (rvec X^T)^T)^T = rvec (samp X i).
Proof. by apply/matrixP => j k; rewrite (ord1 k) !mxE; case: splitP => u _; rewrite !mxE. Qed.
Lemma dbl_neq1 p : (p + p)%N != 1%N. Proof. by lia. Qed.
Section Densities.
Variables (psd_other : psd_oracle) (gammaln : R -> R) (clog : C -> C).
Variables (p : nat) (m : 'cV[K]_p) (S : 'M[K]_p) (mean cov : param).
Hypotheses (hm : mean_is m mean) (hS : ccov_is S cov) (pS : pd S).
(* n samples, the rows of a 2-D array of any dtype *)
Theorem C08_logpdf_samples n (X : 'M[K]_(n, p)) x : has_mx X x ->
  exists v, cnormal_logpdf psd_other x mean cov = Ok v /\ values_of (fun i => cnormal_spec m S (samp X i)) v.
Proof.
move=> hX; have [a [c [e va sc hc]]] := check_complex hm hS; have [x' [ex rx]] := toreal_rows hX.
rewrite /cnormal_logpdf /check_parameters_array e [bindr _ _]/= (p_cov_complex hS) ex [bindr _ _]/=.
have [m' [ef vm]] := freeze_ok psd_other (spd_half pS) va sc hc; rewrite /mvn_logpdf ef [bindr _ _]/=.
have [v [ev hv]] := normal_core_ok (2%:R^-1 *: rep S) (quantiles_2 true (p + p) rx) vm.
rewrite ev; exists (np_re v); split=> //; apply: values_re; apply: values_eq hv => i /=.
by rewrite row_rvec rnormal_half.
Qed.
(* one sample: a 1-D array gives a number *)
Theorem C08_logpdf_vector (y : 'cV[K]_p) x : has_vec y x ->
  exists v, [/\ cnormal_logpdf psd_other x mean cov = Ok v, sh v = [::] & at_ v [::] = R2C (cnormal_spec m S y)].
Proof.
move=> hy; have [a [c [e va sc hc]]] := check_complex hm hS; have [x' [ex rx]] := toreal_vec hy.
rewrite /cnormal_logpdf /check_parameters_array e [bindr _ _]/= (p_cov_complex hS) ex [bindr _ _]/=.
have [m' [ef vm]] := freeze_ok psd_other (spd_half pS) va sc hc; rewrite /mvn_logpdf ef [bindr _ _]/=.
have [v [ev hv]] := normal_core_ok (2%:R^-1 *: rep S) (quantiles_1 true (dbl_neq1 p) rx) vm.
rewrite ev; have /values_re [_ sv hv'] := hv; exists (np_re v); split=> //; have := hv' 0; rewrite /vals_idx eqxx => ->.
have -> : (row (0 : 'I_1) (rvec y)^T)^T = rvec y by apply/matrixP => i j; rewrite (ord1 j) !mxE.
by rewrite rnormal_half.
Qed.
(* the frozen distribution gives the same, and pdf is the exponential *)
Theorem C08_frozen : exists f, complex_freeze psd_other mean cov = Ok f /\
  (forall n (X : 'M[K]_(n, p)) x, has_mx X x ->
     exists v, cnormal_frozen_logpdf f x = Ok v /\ values_of (fun i => cnormal_spec m S (samp X i)) v) /\
  (forall (y : 'cV[K]_p) x, has_vec y x ->
     exists v, [/\ cnormal_frozen_logpdf f x = Ok v, sh v = [::] & at_ v [::] = R2C (cnormal_spec m S y)]).
Proof.
have [a [c [e va sc hc]]] := check_complex hm hS.
have [m' [ef vm]] := freeze_ok psd_other (spd_half pS) va sc hc.
rewrite /complex_freeze e [bindr _ _]/= ef [bindr _ _]/=; eexists; split; first reflexivity; split=> [n X x hX|y x hy].
  have [x' [ex rx]] := toreal_rows hX.
  rewrite /cnormal_frozen_logpdf /check_parameters_array [cf_mean _]/= [cf_cov _]/= e [bindr _ _]/= (p_cov_complex hS) ex [bindr _ _]/=.
  have [v [ev hv]] := normal_core_ok (2%:R^-1 *: rep S) (quantiles_2 false (p + p) rx) vm.
  rewrite /mvn_frozen_logpdf ev; exists (np_re v); split=> //; apply: values_re; apply: values_eq hv => i /=.
  by rewrite row_rvec rnormal_half.
have [x' [ex rx]] := toreal_vec hy.
rewrite /cnormal_frozen_logpdf /check_parameters_array [cf_mean _]/= [cf_cov _]/= e [bindr _ _]/= (p_cov_complex hS) ex [bindr _ _]/=.
have [v [ev hv]] := normal_core_ok (2%:R^-1 *: rep S) (quantiles_1 false (dbl_neq1 p) rx) vm.
rewrite /mvn_frozen_logpdf ev; have /values_re [_ sv hv'] := hv; exists (np_re v); split=> //; have := hv' 0; rewrite /vals_idx eqxx => ->.
have -> : (row (0 : 'I_1) (rvec y)^T)^T = rvec y by apply/matrixP => i j; rewrite (ord1 j) !mxE.
by rewrite rnormal_half.
Qed.
Theorem C08_pdf n (X : 'M[K]_(n, p)) x : has_mx X x ->
  exists v, cnormal_pdf psd_other x mean cov = Ok v /\ values_of (fun i => exp (cnormal_spec m S (samp X i))) v.
Proof.
move=> hX; have [v []] := C08_logpdf_samples hX; rewrite /cnormal_logpdf /cnormal_pdf.
case: check_parameters_array => //= -[[x' m'] c'] /=; case: mvn_logpdf => //= w [ev] [kv sv hv]; exists (np_re (map_arr (fun z => R2C (exp (Re z))) w)).
split=> //; rewrite -ev in kv sv hv; split=> //= i; have := hv i; rewrite /= => -[] ->; by [].
Qed.
(* ------------------------------------------------------------------ C68 *)
Theorem C68_entropy : cnormal_entropy mean cov = Ok (p%:R * (ln PI + 1) + ln (Re (\det S))).
Proof.
have [a [c [e [ka sa ha] sc hc]]] := check_complex hm hS; rewrite /cnormal_entropy e [bindr _ _]/= /mvn_entropy /process_parameters /params_dim /= /np_size sa big_seq1.
rewrite (negbTE (dbl_neq1 p)) [bindr _ _]/= sa eqxx /ndim /= sc /= eqxx [bindr _ _]/=; congr Ok.
have l1 : len (asfloat c) = (p + p)%N by rewrite /len /= sc.
move: (len _) l1 => k ->; have -> : to_rmx (p + p) (p + p) (asfloat c) = 2%:R^-1 *: rep S by apply/matrixP => i j; rewrite mxE hc.
have E0 : 0 < (exp 1 : R) by apply/RltP/exp_pos.
have tp := mulr_gt0 two_gt0 PI_gt0; have c0 := mulr_gt0 tp E0.
have d0 : 0 < \det (2%:R^-1 *: rep S) by have := det_pd (spd_half pS).
rewrite detZ gtr0_norm ?mulr_gt0 ?exprn_gt0 // lnM ?exprn_gt0 // lnX // (lnM tp E0) (lnM two_gt0 PI_gt0).
rewrite ln_exp ln_det_half // natrD.
have t2 : 2%:R = 1 + 1 :> R by rewrite mulr2n.
move: half2 t2; move: (2%:R : R) (2%:R^-1 : R) (ln 2%:R) (ln PI) (ln (Re _)) (p%:R : R) => t h l2 lp ld pr e2 t2; rewrite t2 in e2 *.
have -> : h * ((pr + pr) * (l2 + lp + 1) + (- ((1 + 1) * pr * l2) + (1 + 1) * ld)) = (h * (1 + 1)) * (pr * (lp + 1) + ld) by rring.
by rewrite e2 mul1r.
Qed.
Theorem C68_frozen_entropy : exists f, complex_freeze psd_other mean cov = Ok f /\
  cnormal_frozen_entropy f = p%:R * (ln PI + 1) + ln (Re (\det S)).
Proof.
have [a [c [e va sc hc]]] := check_complex hm hS.
have [m' [ef vm]] := freeze_ok psd_other (spd_half pS) va sc hc.
rewrite /complex_freeze e [bindr _ _]/= ef [bindr _ _]/=; eexists; split; first reflexivity.
rewrite /cnormal_frozen_entropy /mvn_frozen_entropy [cf_base _]/=; cbn [fr_psd fr_d].
rewrite (lnM two_gt0 PI_gt0) ln_det_half // natrD.
have t2 : 2%:R = 1 + 1 :> R by rewrite mulr2n.
move: half2 t2; move: (2%:R : R) (2%:R^-1 : R) (ln 2%:R) (ln PI) (ln (Re _)) (p%:R : R) => t h l2 lp ld pr e2 t2; rewrite t2 in e2 *.
have -> : h * ((pr + pr) * (l2 + lp + 1) + (- ((1 + 1) * pr * l2) + (1 + 1) * ld)) = (h * (1 + 1)) * (pr * (lp + 1) + ld) by rring.
by rewrite e2 mul1r.
Qed.
(* ------------------------------------------------------------------ C09 *)
Theorem C09_frozen_logpdf_partial df : 0 < df -> exists f, complex_freeze psd_other mean cov = Ok f /\
  (forall n (X : 'M[K]_(n, p)) x, has_mx X x ->
     exists v, ct_frozen_logpdf gammaln clog f df x = Ok v /\ values_of (fun i => cstudent_spec gammaln df m S (samp X i)) v) /\
  (forall (y : 'cV[K]_p) x, has_vec y x ->
     exists v, [/\ ct_frozen_logpdf gammaln clog f df x = Ok v, sh v = [::] & at_ v [::] = R2C (cstudent_spec gammaln df m S y)]).
Proof.
move=> df0; have [a [c [e va sc hc]]] := check_complex hm hS.
have [m' [ef vm]] := freeze_ok psd_other (spd_half pS) va sc hc.
rewrite /complex_freeze e [bindr _ _]/= ef [bindr _ _]/=; eexists; split; first reflexivity; split=> [n X x hX|y x hy].
  have [x' [ex rx]] := toreal_rows hX.
  rewrite /ct_frozen_logpdf /check_parameters_array [cf_mean _]/= [cf_cov _]/= e [bindr _ _]/= (p_cov_complex hS) ex [bindr _ _]/=.
  have [v [ev hv]] := student_core_ok gammaln clog df (2%:R^-1 *: rep S) (quantiles_2 false (p + p) rx) vm.
  rewrite /mvt_frozen_logpdf ev; exists (np_re v); split=> //; apply: values_re; apply: values_eq hv => i /=.
  by rewrite row_rvec rstudent_half.
have [x' [ex rx]] := toreal_vec hy.
rewrite /ct_frozen_logpdf /check_parameters_array [cf_mean _]/= [cf_cov _]/= e [bindr _ _]/= (p_cov_complex hS) ex [bindr _ _]/=.
have [v [ev hv]] := student_core_ok gammaln clog df (2%:R^-1 *: rep S) (quantiles_1 false (dbl_neq1 p) rx) vm.
rewrite /mvt_frozen_logpdf ev; have /values_re [_ sv hv'] := hv; exists (np_re v); split=> //; have := hv' 0; rewrite /vals_idx eqxx => ->.
have -> : (row (0 : 'I_1) (rvec y)^T)^T = rvec y by apply/matrixP => i j; rewrite (ord1 j) !mxE.
by rewrite rstudent_half.
Qed.
End Densities.

(* The un-frozen logpdf of complex_multivariate_t is SciPy's: wrong already in dimension 1, whatever the log-gamma function. *)
Theorem C09_unfrozen_refuted psd_other lgamma clog : (forall r : R, 0 < r -> clog (R2C r) = R2C (ln r)) ->
  ~ (forall y : 'cV[K]_1, exists v, [/\ ct_logpdf psd_other lgamma clog (of_cv KCplx y) (Parr (of_cv KCplx (0 : 'cV[C]_1))) (Parr (of_mx KCplx (1%:M : 'M[C]_1))) 2%:R = Ok v,
       sh v = [::] & at_ v [::] = R2C (cstudent_spec lgamma 2%:R 0 1%:M y)]).
Proof.
move=> hlog H; have half0 := half_gt0.
pose c0 : R := lgamma (2%:R^-1 * (2%:R + 1%:R)) - lgamma (2%:R^-1 * 2%:R) - 1%:R / 2%:R * ln (2%:R * PI) - 2%:R^-1 * ln (\det (1%:M : 'M[R]_1)).
have val (r : R) : R2C (c0 - 2%:R^-1 * (2%:R + 1%:R) * ln (1 + 1 / 2%:R * (r * r))) = R2C (cstudent_spec lgamma 2%:R 0 1%:M (const_mx (R2C r) : 'cV[K]_1)).
  have [v [e _ ev]] := H (const_mx (R2C r)); transitivity (at_ v [::]); last exact: ev.
  move: e {ev}; rewrite /ct_logpdf /mvt_logpdf.
  have [|||m' [-> vm]] := @freeze_gen psd_other 1 0 1%:M (of_cv KCplx 0) (of_mx KCplx 1%:M) _ erefl _ erefl.
  - exact: pd1.
  - by move=> k; rewrite at_of_cv !mxE.
  - by move=> i j; rewrite at_of_mx !mxE; case: eqP.
  rewrite [bindr _ _]/=; set xq := process_quantiles _ _ _.
  have sx : sh xq = [:: 1%N; 1%N] by [].
  have hx (i k : 'I_1) : at_ xq [:: nat_of_ord i; nat_of_ord k] = R2C ((const_mx r : 'M[R]_1) i k).
    by rewrite (ord1 i) (ord1 k); apply: (etrans (at_of_cv KCplx (const_mx (R2C r) : 'cV[C]_1) (0 : 'I_1))); rewrite !mxE.
  have [q [e [kq sq hq]]] := mahalanobis_gen (invmx 1%:M) sx hx vm.
  rewrite /t_logpdf_core; cbn [fr_psd fr_mean fr_d fr_dim]; rewrite e [bindr _ _]/= => -[<-].
  rewrite [at_ _ _]/= sq /= (hq 0) kq /=.
  have -> : ((((row 0 (const_mx r : 'M[R]_1))^T - 0)^T *m invmx 1%:M *m ((row 0 (const_mx r : 'M[R]_1))^T - 0)) 0 0) = r * r.
    by rewrite invmx1 mulmx1 subr0 mxE big_ord1 !mxE.
  have e1 : 1 + R2C (1 / 2%:R) * R2C (r * r) = R2C (1 + 1 / 2%:R * (r * r)) by rewrite R2C_D -R2C_M.
  rewrite /np_log [kind_eqb _ _]/= e1 hlog; first by rewrite -R2C_M -R2C_B.
  by apply: (ltr_spaddl ltr01); rewrite mulr_ge0 ?mul1r ?(ltW half0) // -expr2 sqr_ge0.
have mh (r : R) : maha (1%:M : 'M[K]_1) (const_mx (R2C r) - 0) = r * r.
  by rewrite /maha invmx1 mulmx1 subr0 mxE big_ord1 !mxE /= oppr0 mulr0 subr0.
have v0 := R2C_inj (val 0); have v1 := R2C_inj (val 1).
rewrite /cstudent_spec !mh in v0 v1.
move: v0 v1; rewrite !mulr0 !mul0r !addr0 ln1 !mulr0 !subr0 !mulr1 mul1r.
clear val mh H; move: (_ - _ - _ - _ : R) c0 => G c ->.
have t2 : 2%:R = 1 + 1 :> R by rewrite mulr2n.
have hh : (2%:R^-1 + 2%:R^-1 : R) = 1 by have := half2; rewrite {2}t2 mulrDr mulr1.
have -> : 2%:R^-1 * (2%:R + 1%:R) = 1 + 2%:R^-1 :> R by rewrite mulrDr half2 mulr1.
have -> : 2%:R / 2%:R = 1 :> R by rewrite mulrC half2.
have l1 := ln_lt_sub1 (addr_gt0 ltr01 half0); rewrite addrAC subrr add0r in l1.
have {l1}l1 : ln (1 + 2%:R^-1) < 2%:R^-1 by apply: l1; rewrite gt_eqF // ltr_addl.
have l2 : ln (2%:R^-1) < 2%:R^-1 - 1 by apply: ln_lt_sub1 => //; rewrite lt_eqF // -[X in _ < X]hh ltr_addl.
rewrite lnV ?two_gt0 // in l2.
have l0 : 0 < ln (1 + 2%:R^-1) by rewrite -[X in X < _]ln1; apply: ln_lt; rewrite ?ltr01 // ltr_addl.
have -> : 1 + 1 = 2%:R :> R by rewrite mulr2n.
have ha : 2%:R^-1 * ln (1 + 2%:R^-1) <= ln (1 + 2%:R^-1) by rewrite ger_pmull // -[X in _ <= X]hh ler_addl ltW.
have db (x : R) : 2%:R * x = x + x by rewrite mulr_natl [LHS]mulr2n.
rewrite mulrDl mul1r db => e.
move: hh l1 l2 l0 ha e; move: (2%:R^-1 : R) (ln 2%:R) (ln (1 + _)) (_ * ln _ : R) => h w v u hh l1 l2 l0 ha e; clear db t2 half0.
have hw : h < w by rewrite -ltr_opp2; apply: lt_le_trans l2 _; rewrite -hh opprD addrA subrr add0r.
have /oppr_inj e' := addrI G e.
by have := ltr_add (lt_trans l1 hw) (le_lt_trans ha (lt_trans l1 hw)); rewrite e' ltxx.
Qed.

(* ------------------------------------------------------------------ C12 *)
(* the generator draws real arrays of shape size ++ [:: dimension] *)
Definition draws (draw : param -> param -> seq nat -> res arr) : Prop :=
  forall a c d size, sh a = [:: d] -> exists out, [/\ draw (Parr a) (Parr c) size = Ok out, kd out = KReal & sh out = rcons size d].
(* n complex samples as returned by rvs: a vector when n = 1 *)
Definition csamples n p (X : 'M[C]_(n, p)) (b : arr) : Prop :=
  kd b = KCplx /\ (if n == 1%N then sh b = [:: p] /\ forall (i : 'I_n) (j : 'I_p), at_ b [:: nat_of_ord j] = X i j else has_mx X b).
Section Rvs.
Variables (draw : param -> param -> seq nat -> res arr).
Hypothesis hd : draws draw.
Variables (p : nat) (m : 'cV[K]_p) (S : 'M[K]_p) (mean cov : param).
Hypotheses (hm : mean_is m mean) (hS : ccov_is S cov).
Lemma rvs_drawn size : exists a c out, [/\ check_parameters mean cov = Ok (Parr a, Parr c), draw (Parr a) (Parr c) size = Ok out, kd out = KReal,
  sh out = rcons size (p + p)%N & complex_rvs draw mean cov size = arraytocomplex (squeeze out)].
Proof.
have [a [c [e [ka sa ha] sc hc]]] := check_complex hm hS; have [out [eo ko so]] := hd c size sa.
exists a, c, out; split=> //.
by rewrite /complex_rvs (p_cov_complex hS) orbT e [bindr _ _]/= /scipy_rvs eo.
Qed.
(* n samples *)
Theorem C12_shape_partial n : (0 < n)%N -> exists b (X : 'M[C]_(n, p)), complex_rvs draw mean cov [:: n] = Ok b /\ csamples X b.
Proof.
move=> n0; have [a [c [out [_ _ ko so ->]]]] := rvs_drawn [:: n]; rewrite [rcons _ _]/= in so.
have kq : kd (squeeze out) <> KCplx by rewrite /= ko.
case: (n =P 1%N) => [n1|/eqP n1].
  have sq : sh (squeeze out) = [:: (p + p)%N] by rewrite /= so n1 /= dbl_neq1.
  have [b [-> [kb sb _]]] := tocomplex_1 kq sq; exists b, (\matrix_(i, j) at_ b [:: nat_of_ord j]); split=> //; split=> //.
  by rewrite n1 /=; split=> // i j; rewrite mxE.
have sq : sh (squeeze out) = [:: n.-1.+1; (p + p)%N] by rewrite /= so /= n1 dbl_neq1 prednK.
have [b [-> [kb sb _]]] := tocomplex_2 kq sq; exists b, (\matrix_(i, j) at_ b [:: nat_of_ord i; nat_of_ord j]).
by split=> //; split=> //; rewrite (negbTE n1); split=> [|i j]; rewrite ?mxE // sb prednK.
Qed.
(* Every other size: axes of length 1 count for nothing, one other axis is fine unless empty, several are rejected. *)
Theorem C12_sizes size : let s := [seq n <- size | n != 1%N] in
  match s with
  | [::] => exists b, complex_rvs draw mean cov size = Ok b /\ sh b = [:: p]
  | [:: 0%N] => complex_rvs draw mean cov size = Err ValueErr
  | [:: n] => exists b, complex_rvs draw mean cov size = Ok b /\ sh b = [:: n; p]
  | _ => complex_rvs draw mean cov size = Err AttributeErr
  end.
Proof.
move=> s; have [a [c [out [_ _ ko so ->]]]] := rvs_drawn size.
have kr : kd (squeeze out) = KReal by rewrite /= ko.
have : sh (squeeze out) = rcons s (p + p)%N by rewrite /= so filter_rcons dbl_neq1.
move: (squeeze out) kr => q kr; have kq : kd q <> KCplx by rewrite kr.
case: s => [|n [|n' s]] /= sq.
- by have [b [-> [kb sb _]]] := tocomplex_1 kq sq; exists b.
- case: n sq => [|n] sq; last by have [b [-> [kb sb _]]] := tocomplex_2 kq sq; exists b.
  rewrite /arraytocomplex /iscomplexobj kr /ndim sq /= half_dbl.
  have [|b [-> [kb sb hb]]] := @add_same (slice 1 0 p q) (smul KCplx ii (slice 1 p (p + p) q)).
    by rewrite /slice /= sq /=; congr [:: _; _]; lia.
  by apply: (@vstack0 b (minn p (p + p) - minn 0 (p + p))%N); rewrite sb /slice /= sq.
- by case: n sq => [|n] sq; rewrite /arraytocomplex /iscomplexobj kr /= /ndim sq /= size_rcons.
Qed.
(* so rvs(size=0) and rvs(size=(2, 3)) raise *)
Theorem C12_sizes_refuted : complex_rvs draw mean cov [:: 0%N] = Err ValueErr /\ complex_rvs draw mean cov [:: 2%N; 3%N] = Err AttributeErr.
Proof. by split; [have := C12_sizes [:: 0%N] | have := C12_sizes [:: 2%N; 3%N]]. Qed.
End Rvs.

(* ------------------------------------------------------------------ C10 *)
(* weighted second moments about a centre: with conjugation (covariance), without (pseudo-covariance) *)
Section C10.
Variables (n p : nat) (w : 'I_n -> R).
Definition moment (m : 'cV[R]_p) (Z : 'M[R]_(n, p)) : 'M[R]_p :=
  \sum_i w i *: (((row i Z)^T - m) *m ((row i Z)^T - m)^T).
Definition covar (m : 'cV[K]_p) (X : 'M[K]_(n, p)) : 'M[K]_p := \sum_i @ofR K (w i) *: ((samp X i - m) *m (samp X i - m)^H).
Definition pseudo_covar (m : 'cV[K]_p) (X : 'M[K]_(n, p)) : 'M[K]_p := \sum_i @ofR K (w i) *: ((samp X i - m) *m (samp X i - m)^T).
End C10.

Lemma ofM_eq m n (A B : 'M[K]_(m, n)) : reM A = reM B -> imM A = imM B -> A = B.
Proof. by move=> e1 e2; rewrite -(ofM_re_im A) -(ofM_re_im B) e1 e2. Qed.
Lemma reMZ m n c (A : 'M[K]_(m, n)) : reM (@ofR K c *: A) = c *: reM A.
Proof. by apply/matrixP => i j; rewrite !mxE; case: (A i j) => a b /=; rewrite mul0r subr0. Qed.
Lemma imMZ m n c (A : 'M[K]_(m, n)) : imM (@ofR K c *: A) = c *: imM A.
Proof. by apply/matrixP => i j; rewrite !mxE; case: (A i j) => a b /=; rewrite mul0r addr0. Qed.
Lemma reM0 m n : reM (0 : 'M[K]_(m, n)) = 0. Proof. by apply/matrixP => i j; rewrite !mxE. Qed.
Lemma imM0 m n : imM (0 : 'M[K]_(m, n)) = 0. Proof. by apply/matrixP => i j; rewrite !mxE. Qed.
Lemma reM_sum m n k (F : 'I_k -> 'M[K]_(m, n)) : reM (\sum_i F i) = \sum_i reM (F i).
Proof. exact: (big_morph _ (@reMD m n) (reM0 m n)). Qed.
Lemma imM_sum m n k (F : 'I_k -> 'M[K]_(m, n)) : imM (\sum_i F i) = \sum_i imM (F i).
Proof. exact: (big_morph _ (@imMD m n) (imM0 m n)). Qed.
Lemma reM_tr m n (A : 'M[K]_(m, n)) : reM A^T = (reM A)^T. Proof. by apply/matrixP => i j; rewrite !mxE. Qed.
Lemma imM_tr m n (A : 'M[K]_(m, n)) : imM A^T = (imM A)^T. Proof. by apply/matrixP => i j; rewrite !mxE. Qed.
Lemma sum_block (k p : nat) (F G H J : 'I_k -> 'M[R]_p) :
  \sum_i block_mx (F i) (G i) (H i) (J i) = block_mx (\sum_i F i) (\sum_i G i) (\sum_i H i) (\sum_i J i).
Proof.
elim: k F G H J => [|k IH] F G H J; last by rewrite !big_ord_recr /= IH add_block_mx.
by rewrite !big_ord0 -[LHS]submxK; congr block_mx; apply/matrixP => i j; rewrite !mxE.
Qed.
(* If the real samples have the second moments covariancetoreal(S), their complex form has covariance S and is circular. *)
Lemma circular n p (w : 'I_n -> R) (m : 'cV[K]_p) (S : 'M[K]_p) (X : 'M[K]_(n, p)) :
  moment w (rvec m) (rvec X^T)^T = 2%:R^-1 *: rep S -> covar w m X = S /\ pseudo_covar w m X = 0.
Proof.
pose y i := samp X i - m; move=> e.
have hh : (2%:R^-1 + 2%:R^-1 : R) = 1 by have := half2; rewrite [X in _ * X]mulr2n mulrDr mulr1.
have {e} : block_mx (\sum_i w i *: (reM (y i) *m (reM (y i))^T)) (\sum_i w i *: (reM (y i) *m (imM (y i))^T))
         (\sum_i w i *: (imM (y i) *m (reM (y i))^T)) (\sum_i w i *: (imM (y i) *m (imM (y i))^T)) = 2%:R^-1 *: rep S.
  rewrite -e /moment -sum_block; apply: eq_bigr => i _.
  by rewrite row_rvec rvecB -/(y i) /rvec tr_col_mx mul_col_row scale_block_mx.
rewrite /rep scale_block_mx => /eq_block_mx [e1 e2 e3 e4].
have D m' n' (A : 'M[R]_(m', n')) : 2%:R^-1 *: A + 2%:R^-1 *: A = A by rewrite -scalerDl hh scale1r.
split; apply: ofM_eq; rewrite ?reM0 ?imM0 ?reM_sum ?imM_sum.
- rewrite -[RHS]D -{1}e1 -e4 -big_split; apply: eq_bigr => i _.
  by rewrite reMZ reM_mul reM_adj imM_adj mulmxN opprK scalerDr.
- rewrite -[RHS]D -{1}e3; have -> : 2%:R^-1 *: imM S = - \sum_i w i *: (reM (y i) *m (imM (y i))^T) by rewrite e2 scalerN opprK.
  rewrite -sumrB; apply: eq_bigr => i _.
  by rewrite imMZ imM_mul reM_adj imM_adj mulmxN scalerDr scalerN addrC.
- rewrite -[RHS](subrr (2%:R^-1 *: reM S)) -{1}e1 -e4 -sumrB; apply: eq_bigr => i _.
  by rewrite reMZ reM_mul reM_tr imM_tr scalerBr.
- have e2' : - (2%:R^-1 *: imM S) = \sum_i w i *: (reM (y i) *m (imM (y i))^T) by rewrite e2 scalerN.
  rewrite -[RHS](subrr (2%:R^-1 *: imM S)) e2' -e3 -big_split; apply: eq_bigr => i _.
  by rewrite imMZ imM_mul reM_tr imM_tr scalerDr addrC.
Qed.
Theorem C10_circular n p (w : 'I_n -> R) (m : 'cV[K]_p) (S : 'M[K]_p) (Z : 'M[R]_(n, p + p)) z : (0 < n)%N -> rows_of Z z ->
  (exists b (X : 'M[K]_(n, p)), [/\ arraytocomplex z = Ok b, has_mx X b,
     moment w (rvec m) Z = 2%:R^-1 *: rep S -> covar w m X = S /\ pseudo_covar w m X = 0 &
     \sum_i w i *: (row i Z)^T = rvec m -> \sum_i @ofR K (w i) *: samp X i = m]).
Proof.
case: n w Z => // n w Z _ [kz sz hz]; have kz' : kd z <> KCplx by rewrite kz.
have [b [-> [kb sb hb]]] := tocomplex_2 kz' sz.
have [X e] : exists X : 'M[K]_(n.+1, p), Z = (rvec X^T)^T.
  by exists (ofM (lsubmx Z) (rsubmx Z)); apply: trmx_inj; rewrite trmxK /rvec reM_tr imM_tr reM_of imM_of -tr_row_mx hsubmxK.
exists b, X; split=> //.
- split=> [|i j]; first exact: sb.
  rewrite (hb _ _ _ (ltn_ord j)); last by rewrite -ltnS ltn_ord.
  have h1 : at_ z [:: nat_of_ord i; nat_of_ord j] = R2C (Z i (lshift p j)) := hz i (lshift p j).
  have h2 : at_ z [:: nat_of_ord i; (p + j)%N] = R2C (Z i (rshift p j)) := hz i (rshift p j).
  have e1 : Z i (lshift p j) = Re (X i j) by rewrite e mxE col_mxEu mxE mxE.
  have e2 : Z i (rshift p j) = Im (X i j) by rewrite e mxE col_mxEd mxE mxE.
  rewrite h1 h2 e1 e2; exact: re_im.
- by rewrite e; apply: circular.
- rewrite e => h; apply: rvec_inj; rewrite -h.
  have -> : rvec (\sum_i @ofR K (w i) *: samp X i) = \sum_i rvec (@ofR K (w i) *: samp X i).
    by apply: (big_morph _ _ (rvec0 p 1)) => A B; rewrite /rvec reMD imMD add_col_mx.
  by apply: eq_bigr => i _; rewrite rvecZ row_rvec.
Qed.

(* ------------------------------------------------------------------ C11 *)
(* Complex covariance: data and parameters of dimension 2p are handed to SciPy, and both parts of every argument are in
   them; p is the number of features of the data, real or complex. *)
Theorem C11_complex_covariance p (m : 'cV[K]_p) (S : 'M[K]_p) mean cov : mean_is m mean -> ccov_is S cov ->
  exists a c, [/\ check_parameters mean cov = Ok (Parr a, Parr c), vec_of (rvec m) a, sh c = [:: (p + p)%N; (p + p)%N] &
    forall i j : 'I_(p + p), Re (at_ c [:: nat_of_ord i; nat_of_ord j]) = (2%:R^-1 *: rep S) i j] /\
  (forall n (X : 'M[K]_(n, p)) x, has_mx X x ->
     exists x', check_parameters_array x mean cov = Ok (x', Parr a, Parr c) /\ rows_of (rvec X^T)^T x') /\
  (forall (y : 'cV[K]_p) x, has_vec y x ->
     exists x', check_parameters_array x mean cov = Ok (x', Parr a, Parr c) /\ vec_of (rvec y) x').
Proof.
move=> hm hS; have [a [c [e va sc hc]]] := check_complex hm hS; exists a, c; split=> //.
split=> [n X x hX|y x hy]; rewrite /check_parameters_array e [bindr _ _]/= (p_cov_complex hS).
  by have [x' [-> rx]] := toreal_rows hX; exists x'.
by have [x' [-> rx]] := toreal_vec hy; exists x'.
Qed.
(* Real covariance, real or missing mean: the parameters are handed unchanged (a missing mean is 0), the data too unless complex,
   in which case its real part is (the documented exception). *)
Theorem C11_real_parameters mean c x : kd c <> KCplx -> ndim c = 2%N -> p_iscomplex mean = false ->
  check_parameters mean (Parr c) = Ok (if mean is Pnone then Parr (np_zeros (kd c) [:: len c]) else mean, Parr c) /\
  check_parameters_array x mean (Parr c) = Ok (if iscomplexobj x then np_re x else x, mean, Parr c).
Proof.
move=> kc nc rm; have ic : p_iscomplex (Parr c) = false by rewrite /p_iscomplex /=; case: iscomplexP.
have zc : zero_mean (Parr c) = Ok (Parr (np_zeros (kd c) [:: len c])) by rewrite /zero_mean nc.
have e : check_parameters mean (Parr c) = Ok (if mean is Pnone then Parr (np_zeros (kd c) [:: len c]) else mean, Parr c).
  rewrite /check_parameters; case: mean rm => [_|k z rm|a rm].
  - rewrite zc [bindr _ _]/= ic andbT; suff -> : p_iscomplex (Parr (np_zeros (kd c) [:: len c])) = false by [].
    by rewrite /p_iscomplex /=; case: iscomplexP.
  - by rewrite [bindr _ _]/= ic rm.
  - by rewrite [bindr _ _]/= ic rm.
by split=> //; rewrite /check_parameters_array e; cbn [bindr]; rewrite ic; case: ifP.
Qed.
(* Complex mean and real covariance: logpdf ignores the imaginary part of the mean. *)
Theorem C11_complex_mean_refuted psd_other n p (Xr : 'M[R]_(n, p)) (m : 'cV[K]_p) (S : 'M[R]_p) x a c : spd S ->
  rows_of Xr x -> kd a = KCplx -> has_vec m a -> kd c = KReal -> has_mx (map_mx R2C S) c ->
  exists v, cnormal_logpdf psd_other x (Parr a) (Parr c) = Ok v /\ values_of (fun i => rnormal (reM m) S (row i Xr)^T) v.
Proof.
move=> pS rx ka hm kc hc.
have iA : p_iscomplex (Parr a) by rewrite /p_iscomplex /= /iscomplexobj ka.
have iC : p_iscomplex (Parr c) = false by rewrite /p_iscomplex /= /iscomplexobj kc.
have [a' [ea va]] := toreal_vec hm; have [b [eb kb sb hb]] := @toreal_cov p (map_mx R2C S : 'M[K]_p) c hc.
have ech : check_parameters (Parr a) (Parr c) = Ok (Parr a', Parr b).
  by rewrite /check_parameters; cbn [bindr p_astype_complex]; rewrite iA iC ea; cbn [andb negb bindr]; rewrite eb.
rewrite /cnormal_logpdf /check_parameters_array ech; cbn [bindr]; rewrite iC; have kx : kd x = KReal by case: rx.
rewrite /iscomplexobj kx; cbn [kind_eqb bindr fst snd]; case: hm hc => sa ha [sc hc].
have [k|i j|m' [ef vm]] := @freeze_gen psd_other p (reM m) S a c pS sa _ sc _.
- by rewrite ha mxE.
- by rewrite hc mxE.
rewrite /mvn_logpdf ef [bindr _ _]/=.
have [v [ev hv]] := normal_core_ok S (quantiles_2 true p rx) vm.
by rewrite ev; exists (np_re v); split=> //; apply: values_re; exact: hv.
Qed.

(* Frozen, the same parameters have dimension 2p while the data has p features: every call fails when p > 1, and is accepted
   (as data of dimension 2) when p = 1. *)
Theorem C11_frozen_refuted psd_other p (m : 'cV[K]_p) : (0 < p)%N ->
  let a := of_cv KCplx m in let c := of_mx KReal (1%:M : 'M[C]_p) in
  exists f, complex_freeze psd_other (Parr a) (Parr c) = Ok f /\
    forall n (Xr : 'M[R]_(n, p)) x, rows_of Xr x ->
      ((1 < p)%N -> cnormal_frozen_logpdf f x = Err ValueErr) /\ (p = 1%N -> exists v, cnormal_frozen_logpdf f x = Ok v).
Proof.
move=> p0 a c; have hm : has_vec m a by split=> // i; exact: at_of_cv.
have hc : has_mx (1%:M : 'M[K]_p) c by split=> // i j; exact: at_of_mx.
have iA : p_iscomplex (Parr a) by [].
have iC : p_iscomplex (Parr c) = false by [].
have [a' [ea va]] := toreal_vec hm; have [b [eb kb sb hb]] := toreal_cov hc.
have ech : check_parameters (Parr a) (Parr c) = Ok (Parr a', Parr b).
  by rewrite /check_parameters; cbn [bindr p_astype_complex]; rewrite iA iC ea; cbn [andb negb bindr]; rewrite eb.
have [m' [ef vm]] := freeze_ok psd_other (spd_half (pd1 K p)) va sb hb.
rewrite /complex_freeze ech; cbn [bindr fst snd]; rewrite ef; cbn [bindr]; eexists; split; first reflexivity.
move=> n Xr x rx; rewrite /cnormal_frozen_logpdf; cbn [cf_mean cf_cov cf_base]; rewrite /check_parameters_array ech; cbn [bindr]; rewrite iC.
have [kx sx hx] := rx; rewrite /iscomplexobj kx; cbn [kind_eqb bindr fst snd]; rewrite /mvn_frozen_logpdf; cbn [fr_dim].
have [kq sq hq] := quantiles_2 false (p + p) rx; rewrite /normal_logpdf_core; cbn [fr_psd fr_mean fr_d].
rewrite /mahalanobis /broadcast2 sq; have [_ -> _] := vm; split=> p1.
  have -> : bshape [:: n; p] [:: (p + p)%N] = None; last by [].
  by rewrite /bshape /=; case: bdim => // d; rewrite /bdim; do 3 (case: eqP => [|_]; first lia).
have -> : bshape [:: n; p] [:: (p + p)%N] = Some [:: n; (p + p)%N].
  by rewrite p1 /bshape /= /bdim; case: (n =P 1%N) => [->|].
by cbn [bindr sh last]; rewrite eqxx; cbn [bindr]; eexists; reflexivity.
Qed.
(* The default covariance 1 with the default mean None is a TypeError, on any data. *)
Theorem C11_defaults_refuted psd_other x : cnormal_logpdf psd_other x Pnone (Pnum KInt 1) = Err TypeErr /\
  complex_freeze psd_other Pnone (Pnum KInt 1) = Err TypeErr.
Proof. by []. Qed.

(* ------------------------------------------------------------------ examples *)
(* C08, C09, C11, C12, C68: a complex Toeplitz covariance in any dimension, no mean, real data *)
Lemma rho_half : (Complex 0 2%:R^-1 : K) * @cj K (Complex 0 2%:R^-1) < 1.
Proof.
have -> : (Complex 0 2%:R^-1 : K) * @cj K (Complex 0 2%:R^-1) = @ofR K (2%:R^-1 * 2%:R^-1).
  rewrite /GRing.mul /=; congr Complex; rewrite ?mul0r ?mulr0 ?addr0 //; by rewrite mulrN opprK add0r.
suff h : 2%:R^-1 * 2%:R^-1 < 1 :> R by have := ofR_lt K (2%:R^-1 * 2%:R^-1) 1; rewrite rmorph1 h => ->.
have h0 := half_gt0.
have h1 : (2%:R^-1 : R) < 1 by rewrite invf_lt1 ?ltr1n // two_gt0.
by apply: (lt_trans _ h1); have := ltr_pmul2r h0 (2%:R^-1) 1; rewrite h1 mul1r => ->.
Qed.
Example C08_C68_hypotheses p : exists (S : 'M[K]_p.+1) cov, [/\ mean_is (0 : 'cV[C]_p.+1) Pnone, ccov_is S cov, pd S &
  has_mx (const_mx 1 : 'M[K]_(3, p.+1)) (of_mx KReal (const_mx 1 : 'M[C]_(3, p.+1)))].
Proof.
exists (ToeplitzMatrix (Complex 0 2%:R^-1 : K) p.+1), (Parr (of_mx KCplx (ToeplitzMatrix (Complex 0 2%:R^-1 : K) p.+1))); split.
- by right.
- by eexists; split; [reflexivity | reflexivity | split=> // i j; exact: at_of_mx].
- by have [_ _ _ _] := C62_toeplitz_partial (Complex 0 2%:R^-1 : K) p.+1; apply; exact: rho_half.
- by split=> // i j; exact: at_of_mx.
Qed.
Example C12_hypothesis : exists draw, draws draw.
Proof.
exists (fun mean cov size => if mean is Parr a then Ok (np_zeros KReal (rcons size (len a))) else Err TypeErr) => a c d size sa.
by eexists; split; [reflexivity | | rewrite /= /len sa].
Qed.
(* C10: four points with uniform weights, S = 1 *)
Definition ex_Z : 'M[R]_(4, 1 + 1) := \matrix_(i, j) nth 0 (nth [::] [:: [:: 1; 0]; [:: -1; 0]; [:: 0; 1]; [:: 0; -1]] i) j.
Example C10_hypotheses : rows_of ex_Z (of_mx KReal (map_mx R2C ex_Z)) /\
  moment (fun _ => 2%:R^-1 * 2%:R^-1) (rvec (0 : 'cV[K]_1)) ex_Z = 2%:R^-1 *: rep (1%:M : 'M[K]_1).
Proof.
split; first by split=> // i k; rewrite at_of_mx mxE.
have hh : (2%:R^-1 + 2%:R^-1 : R) = 1 by have := half2; rewrite [X in _ * X]mulr2n mulrDr mulr1.
rewrite rep1 rvec0 /moment; apply/matrixP => i j; rewrite summxE !big_ord_recl big_ord0 !mxE !big_ord1 !mxE.
move: hh; move: (2%:R^-1 : R) => h hh.
have e : h * h + h * h = h by rewrite -mulrDl hh mul1r.
case: i => -[|[|//]] hi; case: j => -[|[|//]] hj; rewrite /= ?subr0 ?mulr1n ?mulr0n;
  rewrite ?(mulr1, mulr0, mul0r, mulrN1, mulN1r, opprK, mulrN, mulNr, addr0, add0r, oppr0) ?e //.
Qed.

Print Assumptions C08_logpdf_samples.
Print Assumptions C08_logpdf_vector.
Print Assumptions C08_frozen.
Print Assumptions C08_pdf.
Print Assumptions C68_entropy.
Print Assumptions C68_frozen_entropy.
Print Assumptions C09_frozen_logpdf_partial.
Print Assumptions C09_unfrozen_refuted.
Print Assumptions C12_shape_partial.
Print Assumptions C12_sizes.
Print Assumptions C12_sizes_refuted.
Print Assumptions C10_circular.
Print Assumptions C11_complex_covariance.
Print Assumptions C11_real_parameters.
Print Assumptions C11_complex_mean_refuted.
Print Assumptions C11_frozen_refuted.
Print Assumptions C11_defaults_refuted.
