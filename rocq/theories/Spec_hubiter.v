(* Vocabulary of the theorems on the iterations of the Huber functions, independent of the model. *)
From Coq Require Import Reals.
From mathcomp Require Import all_ssreflect all_algebra.
From Verif Require Import RealsMC Star Spec_covariance.
Set Implicit Arguments.
Unset Strict Implicit.
Unset Printing Implicit Defensive.
Local Open Scope ring_scope.
Import GRing.Theory Num.Theory Order.TTheory.

Section Huber.
Variable K : starField.
Local Notation ofR := (@ofR K).
Local Notation "A ^H" := (adj A) (at level 8, format "A ^H").
(* sum rho(x^H S^-1 x) + N ln det S, where rho is linear up to lbda and quadratic beyond *)
Definition huber_objective (lbda beta : R) N p (X : 'M[K]_(N, p)) (S : 'M[K]_p) : R :=
  (\sum_i (let q := maha S (samp X i) in beta * (if q <= lbda then q else lbda / 2%:R + q ^+ 2 / (2%:R * lbda)))) +
  N%:R * ln (@toR K (\det S)).
(* the samples at a distance to S below lbda span the space *)
Definition core_spanning (lbda : R) N p (X : 'M[K]_(N, p)) (S : 'M[K]_p) :=
  forall y : 'cV[K]_p, (forall i, maha S (samp X i) < lbda -> (samp X i)^H *m y = 0) -> y = 0.
(* samples of norm 1 that weigh every direction equally: for instance the vectors of an orthonormal basis *)
Definition tight N p (X : 'M[K]_(N, p)) :=
  (forall i, (samp X i)^H *m samp X i = 1%:M) /\ wsum (fun=> 1) X = ofR (N%:R / p%:R) *: 1%:M.
(* 1/N sum x x^H *)
Definition scm N p (X : 'M[K]_(N, p)) : 'M[K]_p := wsum (fun=> N%:R^-1) X.
End Huber.
