(* Vocabulary of the theorems on the fixed-point estimators, independent of the model. *)
From Coq Require Import Reals String.
From mathcomp Require Import all_ssreflect all_algebra.
From Verif Require Import RealsMC Star Model_featurearray.
Set Implicit Arguments.
Unset Strict Implicit.
Unset Printing Implicit Defensive.
Local Open Scope ring_scope.
Import GRing.Theory Num.Theory Order.TTheory.

Section Samples.
Variable K : starField.
(* sample i of the data set X (row i) as a column *)
Definition samp N p (X : 'M[K]_(N, p)) (i : 'I_N) : 'cV[K]_p := (row i X)^T.
(* the real number x^H S^-1 x *)
Definition maha p (S : 'M[K]_p) (x : 'cV[K]_p) : R := @toR K ((x^H *m invmx S *m x) 0 0).
(* x x^H *)
Definition outer p (x : 'cV[K]_p) : 'M[K]_p := x *m x^H.
(* sum_i a_i x_i x_i^H *)
Definition wsum N p (a : 'I_N -> R) (X : 'M[K]_(N, p)) : 'M[K]_p := \sum_i @ofR K (a i) *: outer (samp X i).
(* the data set with sample i multiplied by c_i *)
Definition scale_samples N p (c : 'I_N -> K) (X : 'M[K]_(N, p)) : 'M[K]_(N, p) := \matrix_(i, j) (c i * X i j).
(* Loewner order *)
Definition loewner p (A B : 'M[K]_p) := psd (B - A).
End Samples.

Section Loop.
Variables (St D : Type) (gt : D -> D -> bool) (np_inf : D).
Variable step : St -> res St.
Variable change : St -> St -> D.

(* k updates from s *)
Fixpoint updates (k : nat) (s : St) : res St :=
  match k with 0 => Ok s | k'.+1 => bindr (updates k' s) step end.
(* the error to report after k updates: inf, or the change made by the last update *)
Definition reported (s0 : St) (k : nat) (d : D) : Prop :=
  match k with
  | 0 => d = np_inf
  | k'.+1 => exists s' s, [/\ updates k' s0 = Ok s', updates k s0 = Ok s & d = change s s']
  end.
(* The run that stops after k updates in state s, reporting d:
   - s is the result of k updates, d the error to report, k <= iter_max,
   - if the error is greater than tol, then k = iter_max,
   - the error was greater than tol at each earlier iteration. *)
Definition stops_with (tol : D) (iter_max : nat) (s0 s : St) (d : D) (k : nat) : Prop :=
  [/\ updates k s0 = Ok s, reported s0 k d, (k <= iter_max)%N,
      gt d tol -> k = iter_max &
      forall j dj, (j < k)%N -> reported s0 j dj -> gt dj tol].
End Loop.

(* The fixed-point algorithms, to state theorems about all of them at once: Huber's with
   quantile q, Student's with df degrees of freedom, Tyler's with a normalisation. *)
Inductive algo := HuberM (q : R) | StudentMLE (df : R) | TylerFP (normalisation : string).
Definition scaling_norm (nrm : string) :=
  nrm = "trace"%string \/ nrm = "determinant"%string \/ nrm = "element"%string.
