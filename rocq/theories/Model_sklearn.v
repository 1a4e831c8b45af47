(* The part of scikit-learn (1.0) used by robuststats/estimation: check_array, BaseEstimator._validate_data,
   covariance.EmpiricalCovariance._set_covariance, error_norm and score.  Values are finite
   (the checks for nan and inf are not modelled).  No code of robuststats is modelled here. *)
From Coq Require Import Reals String.
From mathcomp Require Import all_ssreflect all_algebra.
From mathcomp Require Import complex.
From Verif Require Import RealsMC Star StarInst FunCalc Model_featurearray Model_linalg NpArray.
Set Implicit Arguments.
Unset Strict Implicit.
Unset Printing Implicit Defensive.
Local Open Scope ring_scope.
Import GRing.Theory Num.Theory Order.TTheory.

(* sklearn/utils/validation.py check_array with its default arguments: complex data are refused, then
   anything but two dimensions, at least one row and at least one column *)
Definition check_array (a : arr) : res arr :=
  if iscomplexobj a then Err ValueErr
  else if ndim a != 2%N then Err ValueErr
  else if nth 0%N (sh a) 0 == 0%N then Err ValueErr
  else if nth 0%N (sh a) 1 == 0%N then Err ValueErr
  else Ok a.

(* covariance/_empirical_covariance.py EmpiricalCovariance.error_norm.
   linalg.svdvals(M) has the square roots of the eigenvalues of M^H M; np.amax of them. *)
Definition amax_svdvals (eigh : eigsolver complex_sf) n (M : 'M[C]_n) : R :=
  let d := (@eigh n ((M : 'M[complex_sf]_n)^H *m M)).1 in
  \big[Num.max/0]_(j < n) R_sqrt.sqrt (d 0 j).
(* np.sqrt of a float or of a complex number (principal value, an oracle for non real numbers) *)
Definition np_sqrt1 (csqrt : C -> C) (k : kind) (z : C) : C :=
  if kind_eqb k KCplx then csqrt z else R2C (R_sqrt.sqrt (complex.Re z)).
Inductive norm_name := Nfro | Nspectral | Nother.
Definition sk_error_norm (eigh : eigsolver complex_sf) (csqrt : C -> C) n (k : kind)
    (comp_cov covariance_ : 'M[C]_n) (norm : norm_name) (scaling squared : bool) : res (kind * C) :=
  let error := comp_cov - covariance_ in
  bindr (match norm with
         | Nfro => Ok (k, \sum_i \sum_j error i j ^+ 2)
         | Nspectral => Ok (KReal, R2C (amax_svdvals eigh (error^T *m error)))
         | Nother => Err NotImplementedErr end) (fun kz =>
  let: (k, squared_norm) := kz in
  let squared_norm := if scaling then squared_norm / n%:R else squared_norm in
  Ok (k, if squared then squared_norm else np_sqrt1 csqrt k squared_norm)).
