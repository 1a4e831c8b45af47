(* Replacing samples by arbitrary ones: vocabulary of the theorems on robustness, independent of the model. *)
From Coq Require Import Reals.
From mathcomp Require Import all_ssreflect all_algebra.
From Verif Require Import RealsMC Star Spec_covariance Spec_exist.
Set Implicit Arguments.
Unset Strict Implicit.
Unset Printing Implicit Defensive.
Local Open Scope ring_scope.
Import GRing.Theory Num.Theory Order.TTheory.

Section Breakdown.
Variable K : starField.
(* Y is X in which at most m samples are replaced by arbitrary ones, other than 0 *)
Definition corrupted N p (m : nat) (X Y : 'M[K]_(N, p)) := (forall i, row i Y != 0) /\ (#|[set i | row i Y != row i X]| <= m)%N.
(* the largest eigenvalue is at most M times the smallest *)
Definition conditioned p (M : R) (S : 'M[K]_p) := exists2 c : R, 0 < c & loewner (@ofR K c *: 1%:M) S /\ loewner S (@ofR K (M * c) *: 1%:M).
(* adding m samples to a proper subspace leaves it with less than its share of the samples *)
Definition tyler_resists N p (m : nat) (X : 'M[K]_(N, p)) :=
  forall V : 'M[K]_p, (0 < \rank V < p)%N -> (p * (count_in X V + m) < N * \rank V)%N.
(* the same for Student's equation with parameter a, and m is less than N / (a + p) *)
Definition student_resists (a : R) N p (m : nat) (X : 'M[K]_(N, p)) :=
  (a + p%:R) * m%:R < N%:R /\ forall V : 'M[K]_p, (\rank V < p)%N -> (a + p%:R) * (count_in X V + m)%:R < N%:R * (a + (\rank V)%:R).
(* all eigenvalues between l and M *)
Definition between p (l M : R) (S : 'M[K]_p) := loewner (@ofR K l *: 1%:M) S /\ loewner S (@ofR K M *: 1%:M).
End Breakdown.
