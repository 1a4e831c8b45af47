(* Model of robuststats/utils/montecarlo.py. Definitions only.
   (robuststats/utils/checking.py is modelled in Model_featurearray.v.) *)
From mathcomp Require Import all_ssreflect.
From Coq Require Import ZArith.
From Verif Require Import Model_featurearray.
Set Implicit Arguments.
Unset Strict Implicit.
Unset Printing Implicit Defensive.

Section Seed.
Variable S : Type.                 (* states of NumPy's global random generator *)
Variable seeded : Z -> res S.      (* np.random.seed: the new state, or ValueError *)

(* A piece of Python code that may use the global generator in any way (draw, reseed,
   set_state, nest other blocks), and returns a value or raises: any function of the
   generator state to the new state and the outcome. *)
Definition code (A : Type) := S -> S * res A.

Definition ret A (a : A) : code A := fun s => (s, Ok a).
Definition bindc A B (m : code A) (k : A -> code B) : code B := fun s =>
  let '(s1, r) := m s in match r with Ok a => k a s1 | Err e => (s1, Err e) end.

(* np.random.get_state(), np.random.set_state(x), np.random.seed(z); an invalid seed
   raises and leaves the state alone *)
Definition get_state : code S := fun s => (s, Ok s).
Definition set_state (x : S) : code unit := fun _ => (x, Ok tt).
Definition np_seed (z : Z) : code unit := fun s =>
  match seeded z with Ok s' => (s', Ok tt) | Err e => (s, Err e) end.

(* Python try: body finally: fin *)
Definition try_finally A (body : code A) (fin : code unit) : code A := fun s =>
  let '(s1, r) := body s in
  let '(s2, r2) := fin s1 in
  match r2 with Ok _ => (s2, r) | Err e => (s2, Err e) end.

(* montecarlo.py:16-23  with temp_seed(seed): body
   contextlib.contextmanager runs the generator up to yield, then the body, and resumes the
   generator (throwing the body's exception into it, if any) at the yield. *)
Definition with_temp_seed A (seed : Z) (body : code A) : code A :=
  bindc get_state (fun state =>
  bindc (np_seed seed) (fun _ =>
  try_finally body (set_state state))).
End Seed.
