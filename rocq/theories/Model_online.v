(* Model of robuststats/online/estimation.py (StochasticGradientCovarianceEstimator).  Definitions only.

   E: estimates, G: gradients (arrays, or lists or tuples of arrays).  The manifold's retraction, the
   gradient and the map from estimates to covariances are arguments of the constructor, hence quantified.
   Not modelled: progress bar and cost (verbosity), which change nothing unless the cost raises. *)
From Coq Require Import Reals String.
From mathcomp Require Import all_ssreflect all_algebra.
From mathcomp Require Import complex.
From Verif Require Import RealsMC Star StarInst FunCalc Model_featurearray Model_linalg NpArray Model_mappings Model_covariance
  Spec_covariance Model_estimators Model_scipy Model_probability Model_scores Model_sklearn Model_objects.
Set Implicit Arguments.
Unset Strict Implicit.
Unset Printing Implicit Defensive.
Local Open Scope ring_scope.
Import GRing.Theory Num.Theory Order.TTheory.

Section Online.
Variables (E G : Type).
Variable retr : E -> G -> res E.                     (* manifold.retr *)
Variable rgrad : arr -> E -> res G.
Variable scale : R -> G -> G.                        (* t*nabla, or [t*x for x in nabla] (54-59) *)
Variable as_arr : E -> arr.                          (* the estimate itself as an array, when estimatetocov is None *)
Variable estimatetocov : option (option E -> res arr).
Variable pinvh : arr -> res arr.

(* attributes; on_obj holds those of ComplexEmpiricalCovariance *)
Record online := Onl { on_est : option E; on_obj : obj; on_lrate : R; on_iteration : nat }.
Definition with_est (s : online) e := Onl e (on_obj s) (on_lrate s) (on_iteration s).
Definition with_obj (s : online) o := Onl (on_est s) o (on_lrate s) (on_iteration s).
Definition with_it (s : online) i := Onl (on_est s) (on_obj s) (on_lrate s) i.
(* 18-31 *)
Definition on_new (lrate : R) : online := Onl None (blank (CEmp false) PInf "" 0 "") lrate 0.

(* 33-37 _estimate_to_cov; the argument and the result may be None *)
Definition estimate_to_cov (e : option E) : res (option arr) := match estimatetocov with
  | None => Ok (omap as_arr e)
  | Some f => fmapr Some (f e) end.
(* 39-42 set_estimate; check_array(None) raises ValueError *)
Definition set_estimate (s : online) (e : option E) : online * res unit :=
  let s := with_est s e in
  match estimate_to_cov e with
  | Err x => (s, Err x)
  | Ok None => (s, Err ValueErr)
  | Ok (Some c) => let: (o, r) := set_covariance pinvh (on_obj s) c in (with_obj s o, r) end.
(* 44-48 _current_lr *)
Definition current_lr (s : online) (lr_update : string) (iteration : nat) : R :=
  if (lr_update =? "inverse iteration")%string then on_lrate s / (iteration + 1)%N%:R else on_lrate s.
(* 50-70 update *)
Definition update (s : online) (X : arr) (lr_update : string) : online * res unit := match on_est s with
  | None => (s, Ok tt)                    (* logs an error *)
  | Some e =>
      match bindr (rgrad X e) (fun nabla => retr e (scale (current_lr s lr_update (on_iteration s)) nabla)) with
      | Err x => (s, Err x)
      | Ok e' => set_estimate s (Some e') end end.
(* X[i, :].reshape((1, n_features)) *)
Definition sample (X : arr) (i : nat) : arr :=
  Arr (kd X) [:: 1%N; nth 0%N (sh X) 1] (fun idx => at_ X [:: i; nth 0%N idx 1]).
(* 84-93 *)
Fixpoint fit_loop (s : online) (X : arr) (lr_update : string) (l : seq nat) : online * res unit := match l with
  | [::] => (s, Ok tt)
  | i :: l' => match update s (sample X i) lr_update with
      | (s1, Err x) => (s1, Err x)
      | (s1, Ok _) => fit_loop (with_it s1 (on_iteration s1).+1) X lr_update l' end end.
(* 72-95 fit *)
Definition on_fit (s : online) (X : arr) (init : option E) (lr_update : string) : online * res unit :=
  match set_estimate s init with
  | (s1, Err x) => (s1, Err x)
  | (s1, Ok _) =>
      if on_est s1 is Some _ then
        (if ndim X == 2%N then fit_loop s1 X lr_update (iota 0 (len X)) else (s1, Err ValueErr))
      else (s1, Ok tt) end.

Inductive on_op := OSet (e : option E) | OUpdate (X : arr) (lr_update : string) | OFit (X : arr) (init : option E) (lr_update : string).
Definition on_exec (s : online) (q : on_op) : online * res unit := match q with
  | OSet e => set_estimate s e
  | OUpdate X lr => update s X lr
  | OFit X init lr => on_fit s X init lr end.
Definition on_execs (s : online) (l : seq on_op) : online := foldl (fun s q => (on_exec s q).1) s l.
End Online.
Arguments OUpdate {E}.
