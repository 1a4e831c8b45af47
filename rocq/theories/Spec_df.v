(* Vocabulary of the theorems on the number of degrees of freedom, independent of the model. *)
From Coq Require Import Reals.
From mathcomp Require Import all_ssreflect all_algebra.
From Verif Require Import RealsMC Star Spec_covariance.
Set Implicit Arguments.
Unset Strict Implicit.
Unset Printing Implicit Defensive.
Local Open Scope ring_scope.
Import GRing.Theory.

Section Df.
Variable K : starField.
(* the mean of 1 / (x^H S^-1 x) is 1/p *)
Definition harmonic N p (X : 'M[K]_(N, p)) (S : 'M[K]_p) := p%:R * (\sum_i (maha S (samp X i))^-1) = N%:R :> R.
End Df.
