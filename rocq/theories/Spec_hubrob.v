(* Vocabulary of the theorems on the Huber functions and arbitrary samples, independent of the model. *)
From Coq Require Import Reals.
From mathcomp Require Import all_ssreflect all_algebra.
From Verif Require Import RealsMC Star Spec_covariance Spec_exist.
Set Implicit Arguments.
Unset Strict Implicit.
Unset Printing Implicit Defensive.
Local Open Scope ring_scope.

Section Huber.
Variable K : starField.
(* whatever m samples are left out, the others span the space *)
Definition spans_without N p (m : nat) (X : 'M[K]_(N, p)) := forall V : 'M[K]_p, (\rank V < p)%N -> (count_in X V + m < N)%N.
(* all samples but the j-th are those of X *)
Definition one_moved N p (j : 'I_N) (X Y : 'M[K]_(N, p)) := forall i, i != j -> row i Y = row i X.
(* the squared norm of a sample *)
Definition sqnorm N p (X : 'M[K]_(N, p)) i : R := @toR K (((adj (samp X i)) *m samp X i) 0 0).
End Huber.
