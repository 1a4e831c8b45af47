(* Data sets with the same empirical distribution: C125. *)
From mathcomp Require Import all_ssreflect all_algebra.
Set Implicit Arguments.
Unset Strict Implicit.
Unset Printing Implicit Defensive.
Local Open Scope ring_scope.

(* neither data set is empty, and every sample makes up the same fraction of X and of Y *)
Definition same_frequencies (T : eqType) N M p (X : 'M[T]_(N, p)) (Y : 'M[T]_(M, p)) :=
  [/\ (0 < N)%N, (0 < M)%N & forall x, (M * #|[set i | row i X == x]| = N * #|[set j | row j Y == x]|)%N].
