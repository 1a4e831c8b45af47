(* Model of the cumulative distribution functions of robuststats/models/probability.py and of the part of SciPy they
   call (scipy/stats/_multivariate.py, 1.6-1.8).  Definitions only.
   Oracle: mvnun d u m S, SciPy's numerical integrator, for the probability that a normal vector of mean m and covariance
   S is less than u in every coordinate. *)
From Coq Require Import Reals.
From mathcomp Require Import all_ssreflect all_algebra.
From mathcomp Require Import complex.
From Verif Require Import RealsMC Model_featurearray NpArray Model_mappings Model_scipy Model_covariance Model_probability.
Set Implicit Arguments.
Unset Strict Implicit.
Unset Printing Implicit Defensive.
Local Open Scope ring_scope.
Import GRing.Theory Num.Theory Order.TTheory.

Definition integrator := forall d, 'cV[R]_d -> 'cV[R]_d -> 'M[R]_d -> R.
Section Oracles.
Variables (psd_other : psd_oracle) (mvnun : integrator).
Definition to_rcol d (a : arr) (idx : seq nat) : 'cV[R]_d := \col_k complex.Re (at_ a (rcons idx (nat_of_ord k))).

(* multivariate_normal_gen._cdf: the integrator for each row of x (np.apply_along_axis; it raises ValueError when a leading
   axis is empty; the integrator raises when the row has not the length of the mean) *)
Definition cdf_core (d : nat) (mean cov x : arr) : res arr :=
  if 0%N \in lead (sh x) then Err ValueErr
  else if last 0%N (sh x) == d then
    Ok (squeeze (Arr KReal (lead (sh x)) (fun idx => R2C (mvnun (to_rcol d x idx) (to_rcol d mean [::]) (to_rmx d d cov)))))
  else Err ValueErr.
(* multivariate_normal_gen.cdf, logcdf: _PSD checks the covariance; np.log (the values are positive) *)
Definition mvn_cdf (keep : bool) (x : arr) (mean cov : param) : res arr :=
  bindr (process_parameters mean cov) (fun dmc => let: (d, m, c) := dmc in
  bindr (psd_of psd_other (to_rmx (len c) (len c) c)) (fun _ => cdf_core d m c (process_quantiles keep x d))).
Definition log_arr (a : arr) : arr := map_arr (fun z => R2C (ln (complex.Re z))) a.
Definition mvn_logcdf (keep : bool) (x : arr) (mean cov : param) : res arr := fmapr log_arr (mvn_cdf keep x mean cov).

(* probability.py:232-260 *)
Definition cnormal_cdf (x : arr) (mean cov : param) : res arr :=
  bindr (check_parameters_array x mean cov) (fun t => fmapr np_re (mvn_cdf true t.1.1 t.1.2 t.2)).
(* probability.py:202-230 *)
Definition cnormal_logcdf (x : arr) (mean cov : param) : res arr :=
  bindr (check_parameters_array x mean cov) (fun t => fmapr np_re (mvn_logcdf true t.1.1 t.1.2 t.2)).

(* what a frozen distribution keeps for the cdf: dimension, mean, covariance and the original parameters *)
Record cdf_frozen := CdfFrozen { cc_dim : nat; cc_mu : arr; cc_sigma : arr; cc_mean : param; cc_cov : param }.
(* probability.py:92-99 *)
Definition cdf_freeze (mean cov : param) : res cdf_frozen :=
  bindr (check_parameters mean cov) (fun mc =>
  bindr (process_parameters mc.1 mc.2) (fun dmc => let: (d, m, c) := dmc in
  bindr (psd_of psd_other (to_rmx (len c) (len c) c)) (fun _ => Ok (CdfFrozen d m c mean cov)))).
(* probability.py:107-111; multivariate_normal_frozen.cdf squeezes once more *)
Definition cnormal_frozen_cdf (f : cdf_frozen) (x : arr) : res arr :=
  bindr (check_parameters_array x (cc_mean f) (cc_cov f)) (fun t =>
  fmapr np_re (fmapr squeeze (cdf_core (cc_dim f) (cc_mu f) (cc_sigma f) (process_quantiles false t.1.1 (cc_dim f))))).
(* multivariate_normal_frozen.logcdf, inherited: np.log(self.cdf(x)), with the cdf above *)
Definition cnormal_frozen_logcdf (f : cdf_frozen) (x : arr) : res arr := fmapr log_arr (cnormal_frozen_cdf f x).
End Oracles.
