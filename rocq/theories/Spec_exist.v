(* How many samples a subspace may contain: the conditions under which Tyler's and Student's equations have a solution,
   independent of the model. *)
From Coq Require Import Reals.
From mathcomp Require Import all_ssreflect all_algebra.
From Verif Require Import RealsMC Star Spec_covariance.
Set Implicit Arguments.
Unset Strict Implicit.
Unset Printing Implicit Defensive.
Local Open Scope ring_scope.

Section Conditions.
Variable K : starField.
(* the number of samples (with repetitions) in the row space of V *)
Definition count_in N p (X : 'M[K]_(N, p)) (V : 'M[K]_p) : nat := #|[set i | (row i X <= V)%MS]|.
(* a proper subspace other than 0 contains less than its share of the samples: their proportion is less than dim V / p *)
Definition tyler_condition N p (X : 'M[K]_(N, p)) :=
  forall V : 'M[K]_p, (0 < \rank V < p)%N -> (p * count_in X V < N * \rank V)%N.
(* a proper subspace contains a proportion less than (a + dim V) / (a + p) of the samples *)
Definition student_condition (a : R) N p (X : 'M[K]_(N, p)) :=
  forall V : 'M[K]_p, (\rank V < p)%N -> (a + p%:R) * (count_in X V)%:R < N%:R * (a + (\rank V)%:R).
(* no more than d samples in a proper subspace of dimension d *)
Definition general_position N p (X : 'M[K]_(N, p)) :=
  forall V : 'M[K]_p, (\rank V < p)%N -> (count_in X V <= \rank V)%N.
End Conditions.
