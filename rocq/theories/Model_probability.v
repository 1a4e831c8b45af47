(* Model of robuststats/models/probability.py.  Definitions only.  Logging is not modelled; the cumulative
   distribution functions are in Model_cdf.v. *)
From Coq Require Import Reals.
From mathcomp Require Import all_ssreflect all_algebra.
From mathcomp Require Import complex.
From Verif Require Import RealsMC Star StarInst Model_featurearray NpArray Model_mappings Model_scipy Model_covariance.
Set Implicit Arguments.
Unset Strict Implicit.
Unset Printing Implicit Defensive.
Local Open Scope ring_scope.
Import GRing.Theory Num.Theory Order.TTheory.

(* np.iscomplexobj of a parameter (None is an object array) *)
Definition p_iscomplex (p : param) : bool := if asarr p is Some a then iscomplexobj a else false.
(* p.astype(complex); numbers and None have no astype *)
Definition p_astype_complex (p : param) : res arr := if p is Parr a then Ok (astype_complex a) else Err AttributeErr.
(* np.zeros((len(cov),), dtype=cov.dtype); len() of a number, None or 0-d array is a TypeError *)
Definition zero_mean (cov : param) : res param := match cov with
  | Parr c => if ndim c == 0%N then Err TypeErr else Ok (Parr (np_zeros (kd c) [:: len c]))
  | _ => Err TypeErr end.

(* probability.py:22-47 *)
Definition check_parameters (mean cov : param) : res (param * param) :=
  bindr (if mean is Pnone then zero_mean cov else Ok mean) (fun mean =>
  if ~~ p_iscomplex mean && ~~ p_iscomplex cov then Ok (mean, cov)
  else bindr (p_astype_complex mean) (fun m => bindr (arraytoreal m) (fun m' =>
       bindr (p_astype_complex cov) (fun c => bindr (covariancetoreal c) (fun c' => Ok (Parr m', Parr c')))))).
(* probability.py:50-86 *)
Definition check_parameters_array (X : arr) (mean cov : param) : res (arr * param * param) :=
  bindr (check_parameters mean cov) (fun mc => let: (mean_map, cov_map) := mc in
  if p_iscomplex cov then bindr (arraytoreal (astype_complex X)) (fun x => Ok (x, mean_map, cov_map))
  else if iscomplexobj X then Ok (np_re X, mean, cov)
  else Ok (X, mean, cov)).

Section Oracles.
Variables (psd_other : psd_oracle) (gammaln : R -> R) (clog : C -> C).

(* complex_multivariate_normal_frozen, complex_multivariate_t_frozen: the SciPy distribution and the original parameters *)
Record cfrozen := CFrozen { cf_base : frozen; cf_mean : param; cf_cov : param }.
(* probability.py:92-100, 311-317 *)
Definition complex_freeze (mean cov : param) : res cfrozen :=
  bindr (check_parameters mean cov) (fun mc => bindr (freeze psd_other mc.1 mc.2) (fun f => Ok (CFrozen f mean cov))).
(* probability.py:102-106 *)
Definition cnormal_frozen_logpdf (f : cfrozen) (x : arr) : res arr :=
  bindr (check_parameters_array x (cf_mean f) (cf_cov f)) (fun t => fmapr np_re (mvn_frozen_logpdf (cf_base f) t.1.1)).
(* probability.py:164-181 *)
Definition cnormal_logpdf (x : arr) (mean cov : param) : res arr :=
  bindr (check_parameters_array x mean cov) (fun t => fmapr np_re (mvn_logpdf psd_other true t.1.1 t.1.2 t.2)).
(* probability.py:183-200; SciPy's pdf is the exponential of logpdf *)
Definition cnormal_pdf (x : arr) (mean cov : param) : res arr :=
  bindr (check_parameters_array x mean cov) (fun t =>
  fmapr np_re (fmapr (map_arr (fun z => R2C (exp (complex.Re z)))) (mvn_logpdf psd_other true t.1.1 t.1.2 t.2))).
(* probability.py:286-302, and the inherited multivariate_normal_frozen.entropy *)
Definition cnormal_entropy (mean cov : param) : res R :=
  bindr (check_parameters mean cov) (fun mc => mvn_entropy mc.1 mc.2).
Definition cnormal_frozen_entropy (f : cfrozen) : R := mvn_frozen_entropy (cf_base f).
(* probability.py:319-323 *)
Definition ct_frozen_logpdf (f : cfrozen) (df : R) (x : arr) : res arr :=
  bindr (check_parameters_array x (cf_mean f) (cf_cov f)) (fun t => fmapr np_re (mvt_frozen_logpdf gammaln clog (cf_base f) df t.1.1)).
(* complex_multivariate_t_gen does not override logpdf: SciPy's, with _process_quantiles of probability.py:359-377 *)
Definition ct_logpdf (x : arr) (loc shape : param) (df : R) : res arr := mvt_logpdf psd_other gammaln clog true x loc shape df.

(* random variates: draw mean cov size is the array drawn by the generator; SciPy squeezes it.
   probability.py:114-122, 262-284, 325-334, 379-402 *)
Variable draw : param -> param -> seq nat -> res arr.
Definition scipy_rvs (mean cov : param) (size : seq nat) : res arr := fmapr squeeze (draw mean cov size).
Definition complex_rvs (mean cov : param) (size : seq nat) : res arr :=
  let is_complex := p_iscomplex mean || p_iscomplex cov in
  bindr (check_parameters mean cov) (fun mc =>
  if is_complex then bindr (scipy_rvs mc.1 mc.2 size) arraytocomplex else scipy_rvs mc.1 mc.2 size).
End Oracles.
