(* Model of robuststats/estimation/base.py:157-172 (_feature_estimation) and 177-219
   (FeaturesEstimation).  Definitions only.

   The estimator is any object with a method fit_transform: a state, and for each trial the new state
   and the value returned.  The arrays it returns are new ones. *)
From mathcomp Require Import all_ssreflect.
From Coq Require Import ZArith.
From Verif Require Import Model_featurearray.
Set Implicit Arguments.
Unset Strict Implicit.
Unset Printing Implicit Defensive.

Section FE.
Variables (V : Type) (zero : V) (dty : eqType).
Notation heap := (heap V).
Notation nd := (nd dty).
Notation fa := (fa dty).

(* an array as a value: dtype, shape, entries in row-major order *)
Record aval := Aval { av_dtype : dty; av_shape : seq nat; av_data : seq V }.
(* what fit_transform returns, as far as the wrapper distinguishes: np.float64 or np.complex128, an array,
   a list or tuple of arrays, anything else *)
Inductive fval := FScalar of dty & V | FArr of aval | FSeq of seq aval | FOther.

(* base.py:163-167; anything else fails at len(f) or f[i].shape *)
Definition farrays (f : fval) : res (seq aval) := match f with
  | FScalar t v => Ok [:: Aval t [:: 1] [:: v]]
  | FArr a => Ok [:: a]
  | FSeq l => Ok l
  | FOther => Err TypeErr end.
Fixpoint allocs (h : heap) (l : seq aval) : heap * seq nd := match l with
  | [::] => (h, [::])
  | a :: l' =>
      let: (h1, d) := alloc h (av_dtype a) (av_shape a) (av_data a) in
      let: (h2, ds) := allocs h1 l' in (h2, d :: ds) end.
(* base.py:157-172 the wrapper, once fit_transform has returned f *)
Definition wrap (h : heap) (f : fval) : heap * res fa := match farrays f with
  | Err e => (h, Err e)
  | Ok l =>
      let: (h1, ds) := allocs h l in
      let: (h2, g, r) := append zero h1 (fa_init dty [seq nd_shape d | d <- ds]) (DList [seq ENd d | d <- ds]) in
      (h2, bindr r (fun _ => Ok g)) end.

Variables (S T : Type) (fit_transform : S -> T -> S * res fval).
(* base.py:211-213 Parallel(n_jobs)(delayed(estimation_function)(x) for x in X): results in the order of X.
   In one process all the calls are made on the same estimator (the deep copy of line 160 is not used);
   worker processes get the estimator as it is. *)
Fixpoint estimates (workers : bool) (s : S) (h : heap) (X : seq T) : S * heap * res (seq fa) := match X with
  | [::] => (s, h, Ok [::])
  | x :: X' =>
      let: (s1, r) := fit_transform s x in
      let s1 := if workers then s else s1 in
      match r with
      | Err e => (s1, h, Err e)
      | Ok f => match wrap h f with
          | (h1, Err e) => (s1, h1, Err e)
          | (h1, Ok g) =>
              let: (s2, h2, r2) := estimates workers s1 h1 X' in (s2, h2, bindr r2 (fun gs => Ok (g :: gs)))
          end
      end
  end.
(* base.py:215-217 *)
Fixpoint merge (h : heap) (array : fa) (l : seq fa) : heap * res fa := match l with
  | [::] => (h, Ok array)
  | data :: l' => match append zero h array (DFA data) with
      | (h1, array1, Ok _) => merge h1 array1 l'
      | (h1, _, Err e) => (h1, Err e) end end.
(* base.py:198-218 transform.  n_jobs = 1 never uses worker processes; other values do or not, depending
   on the number of processors. *)
Definition transform (workers : bool) (s : S) (h : heap) (X : seq T) : S * heap * res fa :=
  let: (s1, h1, r) := estimates workers s h X in
  match r with
  | Err e => (s1, h1, Err e)
  | Ok [::] => (s1, h1, Err IndexErr)       (* features_list[0] *)
  | Ok (array :: l) => let: (h2, r2) := merge h1 array l in (s1, h2, r2)
  end.
End FE.
