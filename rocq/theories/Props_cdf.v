(* Theorems about the cumulative distribution functions of the complex normal law: C92. *)
From Coq Require Import Reals ClassicalEpsilon.
From mathcomp Require Import all_ssreflect all_algebra.
From mathcomp Require Import complex zify.
From Verif Require Import RealsMC RealTac Star StarInst FunCalc RealRep Model_featurearray Model_linalg Props_linalg Model_covariance Spec_covariance Proofs_cost
  NpArray Proofs_numpy Model_mappings Proofs_mappings Props_mappings Model_scipy Model_probability Proofs_probability Props_probability Model_cdf.
Set Implicit Arguments.
Unset Strict Implicit.
Unset Printing Implicit Defensive.
Local Open Scope ring_scope.
Import GRing.Theory Num.Theory Order.TTheory.
Local Notation Re := (@complex.Re R).
Local Notation Im := (@complex.Im R).
Local Notation K := complex_sf.

(* ------------------------------------------------------------------ what the cdf is *)
(* integrals over the spaces of real vectors, and over the complex vectors through their real and imaginary parts *)
Definition integrals := forall d, ('cV[R]_d -> R) -> R.
Definition of_parts p (y : 'cV[R]_(p + p)) : 'cV[K]_p := \col_k Complex (y (lshift p k) 0) (y (rshift p k) 0).
Definition cintegral (I : integrals) p (f : 'cV[K]_p -> R) : R := I (p + p)%N (fun y => f (of_parts y)).
Definition below d (y u : 'cV[R]_d) : bool := [forall k, y k 0 <= u k 0].
Definition cbelow p (z x : 'cV[K]_p) : bool := [forall k, (Re (z k 0) <= Re (x k 0)) && (Im (z k 0) <= Im (x k 0))].
(* probability that Z is below x, in real and imaginary parts, for the circular normal law of mean m and covariance S:
   integral of the density of C08 *)
Definition ccdf_spec (I : integrals) p (m : 'cV[K]_p) (S : 'M[K]_p) (x : 'cV[K]_p) : R :=
  cintegral I (fun z => if cbelow z x then exp (cnormal_spec m S z) else 0).
(* the integrator integrates the real normal density *)
Definition exact_integrator (I : integrals) (mvnun : integrator) := forall d (u m : 'cV[R]_d) (S : 'M[R]_d), spd S ->
  mvnun d u m S = I d (fun y => if below y u then exp (- 2%:R^-1 * (d%:R * ln (2%:R * PI) + ln (\det S) + ((y - m)^T *m invmx S *m (y - m)) 0 0)) else 0).

Lemma rvec_of p (y : 'cV[R]_(p + p)) : rvec (of_parts y) = y.
Proof.
apply/matrixP => i j; rewrite (ord1 j) mxE; case: splitP => k e; rewrite !mxE /=; congr (y _ _); apply: val_inj; rewrite //= e //.
Qed.
Lemma below_of p (y : 'cV[R]_(p + p)) (x : 'cV[K]_p) : below y (rvec x) = cbelow (of_parts y) x.
Proof.
rewrite /below /cbelow; apply/forallP/forallP => h k.
  have h1 := h (lshift p k); have h2 := h (rshift p k); rewrite !mxE in h1 h2 *.
  move: h1 h2; case: splitP => i //= e; last by have := ltn_ord k; rewrite e; lia.
  case: splitP => i' //= e'; first by have := ltn_ord i'; rewrite -e'; lia.
  have -> : i = k by apply: val_inj; rewrite /= -e.
  have -> : i' = k by apply: val_inj => /=; move: e'; lia.
  by rewrite !mxE => -> ->.
rewrite mxE; case: splitP => i e; have /andP[h1 h2] := h i; rewrite !mxE /= in h1 h2 *.
  by have -> : k = lshift p i by apply: val_inj; rewrite /= e.
by have -> : k = rshift p i by apply: val_inj; rewrite /= e.
Qed.

Section Cdf.
Variables (psd_other : psd_oracle) (I : integrals) (mvnun : integrator).
Hypothesis exact_mvnun : exact_integrator I mvnun.
Lemma mvnun_spec p (m : 'cV[K]_p) (S : 'M[K]_p) (x : 'cV[K]_p) : pd S -> mvnun (rvec x) (rvec m) (2%:R^-1 *: rep S) = ccdf_spec I m S x.
Proof.
move=> pS; rewrite exact_mvnun; last exact: spd_half.
congr (I _); apply: FunctionalExtensionality.functional_extensionality => y; rewrite below_of; case: ifP => // _.
by rewrite -(rnormal_half pS) /rnormal rvec_of.
Qed.
Lemma params_ok d (m : 'cV[R]_d) (S : 'M[R]_d) (a c : arr) : d != 1%N -> spd S -> vec_of m a ->
  sh c = [:: d; d] -> (forall i j : 'I_d, Re (at_ c [:: nat_of_ord i; nat_of_ord j]) = S i j) ->
  exists m1 c1, [/\ process_parameters (Parr a) (Parr c) = Ok (d, m1, c1), to_rcol d m1 [::] = m, to_rmx d d c1 = S &
     exists i, psd_of psd_other (to_rmx (len c1) (len c1) c1) = Ok i].
Proof.
move=> d1 pS [ka sa ha] sc hc; exists (asfloat a), (asfloat c); rewrite /process_parameters /params_dim /= /np_size sa big_seq1 (negbTE d1) [bindr _ _]/= sa eqxx /ndim /= sc /= eqxx.
have eS : to_rmx d d (asfloat c) = S by apply/matrixP => i j; rewrite mxE /= hc.
split=> //; first by apply/matrixP => k j; rewrite (ord1 j) mxE /= ha.
have l1 : len (asfloat c) = d by rewrite /len /= sc.
by move: (len _) l1 => k ->; rewrite eS /psd_of; case: excluded_middle_informative => // h; eexists.
Qed.
Lemma core_ok n d (Xr : 'M[R]_(n, d)) m S a c x : (0 < n)%N -> rows_of Xr x -> to_rcol d a [::] = m -> to_rmx d d c = S ->
  exists v, cdf_core mvnun d a c x = Ok v /\ values_of (fun i => mvnun (row i Xr)^T m S) v.
Proof.
move=> n0 [kx sx hx] ea ec; rewrite /cdf_core sx /= inE eq_sym (gtn_eqF n0) eqxx.
eexists; split; first reflexivity; apply: squeeze_values => // i; rewrite /= ea ec; congr (R2C (mvnun _ _ _)).
by apply/matrixP => k j; rewrite (ord1 j) !mxE /= hx.
Qed.
Lemma values_squeeze n (g : 'I_n -> R) v : values_of g v -> values_of g (squeeze v).
Proof.
case=> k s h; have E : [seq q <- sh v | q != 1%N] = sh v by rewrite s; case: eqP => //= /eqP /negbTE ->.
split=> //=; first by rewrite E.
move=> i; rewrite -(h i); congr (at_ v _); rewrite s /vals_idx; by case: eqP => //= /eqP /negbTE ->.
Qed.
Lemma values_log n (g : 'I_n -> R) v : values_of g v -> values_of (fun i => ln (g i)) (log_arr v).
Proof. by case=> k s h; split=> //= i; rewrite h. Qed.

Variables (p : nat) (m : 'cV[K]_p) (S : 'M[K]_p) (mean cov : param).
Hypotheses (hm : mean_is m mean) (hS : ccov_is S cov) (pS : pd S).
(* the value at each sample, rows of an array of any dtype; no sample at all is a ValueError *)
Theorem C92_samples n (X : 'M[K]_(n, p)) x : (0 < n)%N -> has_mx X x ->
  (exists v, cnormal_cdf psd_other mvnun x mean cov = Ok v /\ values_of (fun i => ccdf_spec I m S (samp X i)) v) /\
  (exists v, cnormal_logcdf psd_other mvnun x mean cov = Ok v /\ values_of (fun i => ln (ccdf_spec I m S (samp X i))) v).
Proof.
move=> n0 hX; have [a [c [e va sc hc]]] := check_complex hm hS; have [x' [ex rx]] := toreal_rows hX.
have [m1 [c1 [ep em ec [info ei]]]] := params_ok (dbl_neq1 p) (spd_half pS) va sc hc.
have [v [ev hv]] := core_ok n0 (quantiles_2 true (p + p) rx) em ec.
have hv' : values_of (fun i => ccdf_spec I m S (samp X i)) v by apply: values_eq hv => i; rewrite row_rvec mvnun_spec.
have E : check_parameters_array x mean cov = Ok (x', Parr a, Parr c).
  by rewrite /check_parameters_array e [bindr _ _]/= (p_cov_complex hS) ex.
have E2 : mvn_cdf psd_other mvnun true x' (Parr a) (Parr c) = Ok v by rewrite /mvn_cdf ep [bindr _ _]/= ei [bindr _ _]/= ev.
rewrite /cnormal_cdf /cnormal_logcdf E [bindr _ _]/= [X in _ /\ X]/= /mvn_logcdf E2.
split; (eexists; split; first reflexivity).
  exact: (values_re hv').
exact: (values_re (values_log hv')).
Qed.
Theorem C92_no_sample (X : 'M[K]_(0, p)) x : has_mx X x -> cnormal_cdf psd_other mvnun x mean cov = Err ValueErr.
Proof.
move=> hX; have [a [c [e va sc hc]]] := check_complex hm hS; have [x' [ex rx]] := toreal_rows hX.
have [m1 [c1 [ep em ec [info ei]]]] := params_ok (dbl_neq1 p) (spd_half pS) va sc hc.
rewrite /cnormal_cdf /check_parameters_array e [bindr _ _]/= (p_cov_complex hS) ex [bindr _ _]/= /mvn_cdf ep [bindr _ _]/= ei [bindr _ _]/=.
by have [_ s _] := quantiles_2 true (p + p) rx; rewrite /cdf_core s.
Qed.
(* one sample: a 1-D array gives a number *)
Theorem C92_vector (y : 'cV[K]_p) x : has_vec y x ->
  (exists v, [/\ cnormal_cdf psd_other mvnun x mean cov = Ok v, sh v = [::] & at_ v [::] = R2C (ccdf_spec I m S y)]) /\
  (exists v, [/\ cnormal_logcdf psd_other mvnun x mean cov = Ok v, sh v = [::] & at_ v [::] = R2C (ln (ccdf_spec I m S y))]).
Proof.
move=> hy; have [a [c [e va sc hc]]] := check_complex hm hS; have [x' [ex rx]] := toreal_vec hy.
have [m1 [c1 [ep em ec [info ei]]]] := params_ok (dbl_neq1 p) (spd_half pS) va sc hc.
have [v [ev hv]] := core_ok (isT : (0 < 1)%N) (quantiles_1 true (dbl_neq1 p) rx) em ec.
have hv' : values_of (fun i : 'I_1 => ccdf_spec I m S y) v.
  by apply: values_eq hv => i; rewrite -mvnun_spec //; congr (mvnun _ _ _); apply/matrixP => k j; rewrite (ord1 j) (ord1 i) [LHS]mxE [LHS]mxE [LHS]mxE.
have E : check_parameters_array x mean cov = Ok (x', Parr a, Parr c).
  by rewrite /check_parameters_array e [bindr _ _]/= (p_cov_complex hS) ex.
have E2 : mvn_cdf psd_other mvnun true x' (Parr a) (Parr c) = Ok v by rewrite /mvn_cdf ep [bindr _ _]/= ei [bindr _ _]/= ev.
rewrite /cnormal_cdf /cnormal_logcdf E [bindr _ _]/= [X in _ /\ X]/= /mvn_logcdf E2.
have [_ s1 h1] := values_re hv'; have [_ s2 h2] := values_re (values_log hv').
by split; [exists (np_re v)|exists (np_re (log_arr v))]; split=> //; [exact: (h1 0)|exact: (h2 0)].
Qed.
(* the frozen law gives the same values *)
Theorem C92_frozen : exists f, cdf_freeze psd_other mean cov = Ok f /\
  (forall n (X : 'M[K]_(n, p)) x, (0 < n)%N -> has_mx X x ->
     (exists v, cnormal_frozen_cdf mvnun f x = Ok v /\ values_of (fun i => ccdf_spec I m S (samp X i)) v) /\
     (exists v, cnormal_frozen_logcdf mvnun f x = Ok v /\ values_of (fun i => ln (ccdf_spec I m S (samp X i))) v)) /\
  (forall (y : 'cV[K]_p) x, has_vec y x ->
     exists v, [/\ cnormal_frozen_cdf mvnun f x = Ok v, sh v = [::] & at_ v [::] = R2C (ccdf_spec I m S y)]).
Proof.
have [a [c [e va sc hc]]] := check_complex hm hS.
have [m1 [c1 [ep em ec [info ei]]]] := params_ok (dbl_neq1 p) (spd_half pS) va sc hc.
rewrite /cdf_freeze e [bindr _ _]/= ep [bindr _ _]/= ei; eexists; split; first reflexivity; split=> [n X x n0 hX|y x hy].
  have [x' [ex rx]] := toreal_rows hX; have [v [ev hv]] := core_ok n0 (quantiles_2 false (p + p) rx) em ec.
  have hv' : values_of (fun i => ccdf_spec I m S (samp X i)) v by apply: values_eq hv => i; rewrite row_rvec mvnun_spec.
  have E : check_parameters_array x mean cov = Ok (x', Parr a, Parr c).
    by rewrite /check_parameters_array e [bindr _ _]/= (p_cov_complex hS) ex.
  rewrite /cnormal_frozen_logcdf /cnormal_frozen_cdf [cc_mean _]/= [cc_cov _]/= E [bindr _ _]/= [X in _ /\ X]/= ev.
  by split; [exists (np_re (squeeze v))|exists (log_arr (np_re (squeeze v)))]; split=> //; [|apply: values_log]; apply/values_re/values_squeeze.
have [x' [ex rx]] := toreal_vec hy; have [v [ev hv]] := core_ok (isT : (0 < 1)%N) (quantiles_1 false (dbl_neq1 p) rx) em ec.
have hv' : values_of (fun i : 'I_1 => ccdf_spec I m S y) v.
  by apply: values_eq hv => i; rewrite -mvnun_spec //; congr (mvnun _ _ _); apply/matrixP => k j; rewrite (ord1 j) (ord1 i) [LHS]mxE [LHS]mxE [LHS]mxE.
rewrite /cnormal_frozen_cdf /check_parameters_array [cc_mean _]/= [cc_cov _]/= e [bindr _ _]/= (p_cov_complex hS) ex [bindr _ _]/= ev.
by have [_ s1 h1] := values_re (values_squeeze hv'); exists (np_re (squeeze v)); split=> //; exact: (h1 0).
Qed.
End Cdf.

(* the hypotheses: a complex covariance that is not real, no mean, an exact integrator for any integral *)
Example C92_hypotheses p (I : integrals) : (exists mvnun, exact_integrator I mvnun) /\ exists (S : 'M[K]_p.+1) cov, [/\ mean_is (0 : 'cV[C]_p.+1) Pnone, ccov_is S cov & pd S].
Proof.
split; last by have [S [cov [h1 h2 h3 _]]] := C08_C68_hypotheses p; exists S, cov.
by exists (fun d u m S => I d (fun y => if below y u then exp (- 2%:R^-1 * (d%:R * ln (2%:R * PI) + ln (\det S) + ((y - m)^T *m invmx S *m (y - m)) 0 0)) else 0)).
Qed.
Print Assumptions C92_samples.
Print Assumptions C92_no_sample.
Print Assumptions C92_vector.
Print Assumptions C92_frozen.
