(* Distance between two sets of samples, whatever their numbers: vocabulary of the theorems on contamination, independent
   of the model. *)
From Coq Require Import Reals.
From mathcomp Require Import all_ssreflect all_algebra.
From Verif Require Import RealsMC Star Spec_covariance.
Set Implicit Arguments.
Unset Strict Implicit.
Unset Printing Implicit Defensive.
Local Open Scope ring_scope.
Import GRing.Theory Num.Theory Order.TTheory.

Section Tv.
Variables (K : starField) (p : nat).
(* the mean of a function over the samples *)
Definition mean N (X : 'M[K]_(N, p)) (g : 'cV[K]_p -> R) : R := (\sum_i g (samp X i)) / N%:R.
(* no function with values in [0,1] has means over the two sets that differ by more than e: the distance in total
   variation between the empirical distributions is at most e *)
Definition tv_le N N' (e : R) (X : 'M[K]_(N, p)) (Y : 'M[K]_(N', p)) :=
  forall g : 'cV[K]_p -> R, (forall x, 0 <= g x <= 1) -> `|mean Y g - mean X g| <= e.
End Tv.
(* the relative change allowed to Student's estimate *)
Definition stu_influence (a : R) (p : nat) (Q e : R) : R := let h := e * (a + p%:R) in h * (a + Q) / (a - h * (a + Q)).
