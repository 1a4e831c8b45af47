(* The fixed-point functions of covariance.py, gathered by algorithm.  Definitions only: no
   code beyond Model_covariance.v is modelled here. *)
From Coq Require Import Reals String.
From mathcomp Require Import all_ssreflect all_algebra.
From Verif Require Import RealsMC Star StarInst FunCalc Model_featurearray Model_linalg Model_covariance Spec_covariance.
Set Implicit Arguments.
Unset Strict Implicit.
Unset Printing Implicit Defensive.
Local Open Scope ring_scope.
Import GRing.Theory Num.Theory Order.TTheory.

Section Real.
Variable eigh : eigsolver real_sf.
Variables (ppf cdf : R -> R -> R).
Variables (N p : nat).
Local Notation K := real_sf.
(* the function called: covariance.py:121, 200, 374 *)
Definition real_fixed_point (a : algo) (X : 'M[K]_(N, p.+1)) (init : option 'M[K]_p.+1) tol iter_max :=
  match a with
  | HuberM q => huber_m_estimator_fixed_point eigh ppf cdf X q init tol iter_max
  | StudentMLE df => student_t_mle_fixed_point eigh X df init tol iter_max
  | TylerFP nrm => tyler_shape_matrix_fixedpoint eigh X init tol iter_max nrm
  end.
(* its update rule, initial point when none is given, final normalisation *)
Definition real_step (a : algo) (X : 'M[K]_(N, p.+1)) : 'M[K]_p.+1 -> res 'M[K]_p.+1 :=
  match a with
  | HuberM q => huber_step eigh X (huber_lbda ppf q p.+1) (huber_beta ppf cdf q p.+1)
  | StudentMLE df => fun s => Ok (student_step eigh X df s)
  | TylerFP _ => fun s => Ok (tyler_step eigh X s)
  end.
Definition real_init (X : 'M[K]_(N, p.+1)) (init : option 'M[K]_p.+1) :=
  if init is Some s then s else empirical_covariance_centered X.
(* parameters with which the update is defined *)
Definition real_valid (a : algo) := match a with
  | HuberM q => 0 < huber_lbda ppf q p.+1 /\ 0 < huber_beta ppf cdf q p.+1
  | StudentMLE df => 0 < df
  | TylerFP _ => True end.
End Real.

Section Complex.
Variable eigh : eigsolver complex_sf.
Variables (ppf cdf : R -> R -> R).
Variables (N p : nat).
Local Notation K := complex_sf.
(* covariance.py:713, 805, 946 *)
Definition complex_fixed_point (a : algo) (X : 'M[K]_(N, p.+1)) (init : option 'M[K]_p.+1) tol iter_max :=
  match a with
  | HuberM q => complex_huber_m_estimator_fixed_point eigh ppf cdf X q init tol iter_max
  | StudentMLE df => complex_student_t_mle_fixed_point eigh X df init tol iter_max
  | TylerFP nrm => complex_tyler_shape_matrix_fixedpoint eigh X init tol iter_max nrm
  end.
Definition complex_step (a : algo) (X : 'M[K]_(N, p.+1)) : 'M[K]_p.+1 -> res 'M[K]_p.+1 :=
  match a with
  | HuberM q => complex_huber_step eigh X (complex_huber_lbda ppf q p.+1) (complex_huber_beta ppf cdf q p.+1)
  | StudentMLE df => fun s => Ok (complex_student_step eigh X df s)
  | TylerFP _ => fun s => Ok (complex_tyler_step eigh X s)
  end.
Definition complex_init (X : 'M[K]_(N, p.+1)) (init : option 'M[K]_p.+1) :=
  if init is Some s then s else complex_empirical_covariance X true.
Definition complex_valid (a : algo) := match a with
  | HuberM q => 0 < complex_huber_lbda ppf q p.+1 /\ 0 < complex_huber_beta ppf cdf q p.+1
  | StudentMLE df => 0 < df
  | TylerFP _ => True end.
End Complex.

Definition algo_post (K : starField) p (a : algo) : 'M[K]_p.+1 -> 'M[K]_p.+1 := match a with
  | TylerFP nrm => normalised nrm
  | _ => id end.
