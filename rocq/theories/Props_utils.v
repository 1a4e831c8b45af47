(* Theorems about the utility functions: C63 (temporary seeding), C65 (argument checks). *)
From mathcomp Require Import all_ssreflect.
From Coq Require Import ZArith Lia.
From Verif Require Import Model_featurearray Model_utils.
Set Implicit Arguments.
Unset Strict Implicit.
Unset Printing Implicit Defensive.

(* C63: whatever the code in the block does to the generator, and whether it returns or
   raises, the generator is afterwards in the state it had before ... *)
Theorem C63_state_restored S (seeded : Z -> res S) A z (body : code S A) st :
  (with_temp_seed seeded z body st).1 = st.
Proof.
rewrite /with_temp_seed /bindc /get_state /np_seed; case: (seeded z) => //= s'.
by rewrite /try_finally; case: (body s') => s1 r /=.
Qed.

(* ... the outcome of the block is the outcome of its code started from the seeded state,
   for every earlier state of the generator ... *)
Theorem C63_outcome_depends_on_seed_only S (seeded : Z -> res S) A z (body : code S A) st s' :
  seeded z = Ok s' -> (with_temp_seed seeded z body st).2 = (body s').2.
Proof.
move=> e; rewrite /with_temp_seed /bindc /get_state /np_seed e /= /try_finally.
by case: (body s') => s1 r /=.
Qed.

(* ... so code before and after a block that does not raise behaves as if the block were
   replaced by its value; blocks can be nested freely. *)
Theorem C63_rest_of_program_unaffected S (seeded : Z -> res S) A B z (body : code S A) (k : A -> code S B) st s' a s'' :
  seeded z = Ok s' -> body s' = (s'', Ok a) ->
  bindc (with_temp_seed seeded z body) k st = k a st.
Proof.
move=> e eb; have h1 := C63_state_restored seeded z body st.
have h2 := C63_outcome_depends_on_seed_only body st e.
rewrite eb /= in h2; rewrite /bindc.
by case: (with_temp_seed seeded z body st) h1 h2 => s1 r /= -> ->.
Qed.
Print Assumptions C63_rest_of_program_unaffected.

(* a non-trivial case: a generator counting in steps, a body that draws, nests a block, reseeds
   and then raises *)
Definition toy_seed (z : Z) : res Z := if (z <? 0)%Z then Err ValueErr else Ok (z * 1000)%Z.
Definition toy_draw : code Z Z := fun s => ((s + 1)%Z, Ok s).
Definition toy_body : code Z Z :=
  bindc toy_draw (fun x => bindc (with_temp_seed toy_seed 7 toy_draw) (fun y =>
  bindc (np_seed toy_seed 3) (fun _ => bindc toy_draw (fun w s => (s, Err AssertionErr))))).
Example C63_example : with_temp_seed toy_seed 5 toy_body 42%Z = (42%Z, Err AssertionErr)
  /\ toy_body 42%Z <> (42%Z, Err AssertionErr).
Proof. by []. Qed.

(* C65 *)
Theorem C65_check_positive v strictly :
  (check_positive v strictly = Ok tt <-> (if strictly then 0 < v else 0 <= v)%Z) /\
  (check_positive v strictly = Err ValueErr <-> ~ (if strictly then 0 < v else 0 <= v)%Z).
Proof.
rewrite /check_positive; case: strictly.
- by case: Z.ltb_spec => h; split; split=> //; lia.
- by case: Z.leb_spec => h; split; split=> //; lia.
Qed.
Theorem C65_check_type (T : eqType) (t : T) accepted :
  (check_type t accepted = Ok tt <-> t \in accepted) /\ (check_type t accepted = Err TypeErr <-> t \notin accepted).
Proof. by rewrite /check_type; case: (t \in accepted). Qed.
Theorem C65_check_value (T : eqType) (t : T) accepted :
  (check_value t accepted = Ok tt <-> t \in accepted) /\ (check_value t accepted = Err ValueErr <-> t \notin accepted).
Proof. by rewrite /check_value; case: (t \in accepted). Qed.
Print Assumptions C65_check_positive.
Print Assumptions C65_check_type.
Print Assumptions C65_check_value.
