(* Model of the score methods of robuststats/estimation/covariance.py.  Definitions only.
   The densities are those of Model_scipy.v and Model_probability.v, with the same oracles. *)
From Coq Require Import Reals.
From mathcomp Require Import all_ssreflect all_algebra.
From mathcomp Require Import complex.
From Verif Require Import RealsMC Star StarInst Model_featurearray NpArray Model_mappings Model_scipy Model_probability.
Set Implicit Arguments.
Unset Strict Implicit.
Unset Printing Implicit Defensive.
Local Open Scope ring_scope.
Import GRing.Theory Num.Theory Order.TTheory.

(* np.sum(a): all elements *)
Fixpoint sum_idx (s : seq nat) (f : seq nat -> C) : C := match s with
  | [::] => f [::]
  | n :: s' => \sum_(i < n) sum_idx s' (fun idx => f (nat_of_ord i :: idx)) end.
Definition np_sum (a : arr) : C := sum_idx (sh a) (at_ a).

Section Oracles.
Variables (psd_other : psd_oracle) (gammaln : R -> R) (clog : C -> C).
(* covariance.py:599-605 CenteredStudentMLE.score, for an estimator with attributes iteration_,
   covariance_, df; the logged error is not modelled *)
Definition student_score (iteration_ : nat) (covariance_ : arr) (df : R) (X_test : arr) : res (option C) :=
  if iteration_ == 0%N then Ok None else
  bindr (freeze psd_other Pnone (Parr covariance_)) (fun f =>
  bindr (mvt_frozen_logpdf gammaln clog f df X_test) (fun logpdf => Ok (Some (np_sum logpdf)))).
(* covariance.py:1177-1183 ComplexCenteredStudentMLE.score *)
Definition complex_student_score (iteration_ : nat) (covariance_ : arr) (df : R) (X_test : arr) : res (option C) :=
  if iteration_ == 0%N then Ok None else
  bindr (complex_freeze psd_other Pnone (Parr covariance_)) (fun f =>
  bindr (ct_frozen_logpdf gammaln clog f df X_test) (fun logpdf => Ok (Some (np_sum logpdf)))).
End Oracles.
