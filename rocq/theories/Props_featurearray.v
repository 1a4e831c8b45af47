(* Theorems about feature arrays (properties C20-C26, C65-C67).
   Vocabulary: Spec_featurearray.v.  Model: Model_featurearray.v. *)
From mathcomp Require Import all_ssreflect.
From Coq Require Import ZArith.
From Verif Require Import Model_featurearray Spec_featurearray Proofs_featurearray Proofs_fa2.
Set Implicit Arguments.
Unset Strict Implicit.
Unset Printing Implicit Defensive.

Section Theorems.
Variable V : Type.
Variable zero : V.
Variable dty : eqType.
Notation start h shapes pool := (W h (fa_init dty shapes) pool).

(* C20: after any history of appends (exports, allocations, and for one component also
   rejected appends) starting from a new feature array, len is the number of items
   appended and export shows exactly the appended data in order. *)
Theorem C20_append_concatenates dts (h : heap V) shapes (pool : seq (nd dty)) w log :
  0 < size shapes -> all (nd_wf h) pool -> steps zero dts (start h shapes pool) w log ->
  fa_len (w_fa w) = total log /\
  (0 < size log -> observe zero (w_heap w) (w_fa w) = Some (expected shapes log)).
Proof.
move=> hs wf st; have [I sh _ _] := steps_ok st (Inv_init zero dts hs wf).
case: w I sh {st} => h' f' p' I /= sh; split; first by case: I.
by rewrite -sh => hl; exact: (observe_ok I hl).
Qed.

(* ... and an append of arrays of the declared shapes and agreed dtypes is never refused. *)
Theorem C20_append_accepted dts (h : heap V) shapes (pool : seq (nd dty)) w log ds n :
  0 < size shapes -> all (nd_wf h) pool -> steps zero dts (start h shapes pool) w log ->
  (forall d, List.In d ds -> List.In d (w_pool w)) -> typed shapes dts ds n ->
  exists w' , step zero dts w w' [:: (n, [seq ndata zero (w_heap w) d | d <- ds])].
Proof.
move=> hs wf st; have [I sh _ _] := steps_ok st (Inv_init zero dts hs wf).
case: w I sh {st} => h' f' p' I /= sh sub ty; rewrite -sh in ty.
have [h1 [f1 [e _ _ _ _]]] := append_ok I sub ty.
by exists (W h1 f1 p'); apply: StAppend.
Qed.

(* C21: integer indexing *)
Theorem C21_getitem_int dts (h : heap V) shapes (pool : seq (nd dty)) w log z :
  0 < size shapes -> all (nd_wf h) pool -> steps zero dts (start h shapes pool) w log ->
  0 < total log -> (- Z.of_nat (total log) <= z < Z.of_nat (total log))%Z ->
  exists j g, [/\ Z.of_nat j = z \/ Z.of_nat j = (z + Z.of_nat (total log))%Z, j < total log,
     getitem zero (w_heap w) (w_fa w) (KInt z) = (w_heap w, Ok g), fa_len g = 1 &
     observe zero (w_heap w) g = Some (expected_items shapes log [:: j])].
Proof.
move=> hs wf st; have [I sh _ _] := steps_ok st (Inv_init zero dts hs wf).
case: w I sh {st} => h' f' p' I /= sh; have el : fa_len f' = total log by case: I.
rewrite -sh -el => hl hz; exact: getitem_int I hl hz.
Qed.

Theorem C21_getitem_int_out_of_range dts (h : heap V) shapes (pool : seq (nd dty)) w log z :
  0 < size shapes -> all (nd_wf h) pool -> steps zero dts (start h shapes pool) w log ->
  0 < total log -> ~ (- Z.of_nat (total log) <= z < Z.of_nat (total log))%Z ->
  getitem zero (w_heap w) (w_fa w) (KInt z) = (w_heap w, Err IndexErr).
Proof.
move=> hs wf st; have [I sh _ _] := steps_ok st (Inv_init zero dts hs wf).
case: w I sh {st} => h' f' p' I /= sh; have el : fa_len f' = total log by case: I.
rewrite -el => hl hz; exact: getitem_int_err I hl hz.
Qed.

Theorem C21_getitem_slice dts (h : heap V) shapes (pool : seq (nd dty)) w log b e st :
  0 < size shapes -> all (nd_wf h) pool -> steps zero dts (start h shapes pool) w log ->
  0 < total log -> st <> 0%Z ->
  exists js g, [/\ is_slice (total log) b e st js,
     getitem zero (w_heap w) (w_fa w) (KSlice b e st) = (w_heap w, Ok g), fa_len g = size js &
     observe zero (w_heap w) g = Some (expected_items shapes log js)].
Proof.
move=> hs wf sts; have [I sh _ _] := steps_ok sts (Inv_init zero dts hs wf).
case: w I sh {sts} => h' f' p' I /= sh; have el : fa_len f' = total log by case: I.
rewrite -sh -el => hl hz; exact: getitem_slice I hl hz.
Qed.

(* C22, for one component: a rejected append leaves what is shown, the length, and the
   behaviour of every later action as they were (the invariant behind C20 holds again). *)
Theorem C22_rejected_append_one_component_partial dts (h : heap V) s (pool : seq (nd dty)) w log ds h' f' e :
  all (nd_wf h) pool -> steps zero dts (start h [:: s] pool) w log ->
  (forall d, List.In (ENd d) ds -> List.In d (w_pool w)) ->
  append zero (w_heap w) (w_fa w) (DList ds) = (h', f', Err e) ->
  [/\ steps zero dts (start h [:: s] pool) (W h' f' (w_pool w)) log,
      fa_len f' = fa_len (w_fa w),
      (0 < size log -> observe zero h' f' = observe zero (w_heap w) (w_fa w)) &
      forall v, List.In v (w_pool w) -> ndata zero h' v = ndata zero (w_heap w) v].
Proof.
move=> wf st sub ap.
have [I sh _ _] := steps_ok st (Inv_init (shapes := [:: s]) zero dts isT wf).
have sr : step zero dts w (W h' f' (w_pool w)) [::].
  by case: w st sub ap I sh => h1 f1 p1 /= st sub ap I sh; apply: StReject ap => //; rewrite sh.
have st2 : steps zero dts (start h [:: s] pool) (W h' f' (w_pool w)) log.
  by rewrite -[log]cats0; apply: StepsS st sr.
have [I2 sh2 _ k2] := step_ok sr I; rewrite cats0 in I2.
split=> //.
- by case: I2 => /= _ _ _ -> _; case: I.
- case: w st sub ap I sh sr st2 k2 sh2 I2 => h1 f1 p1 /= _ _ _ I _ _ _ _ sh2 I2 hl.
  by rewrite (observe_ok I hl) (observe_ok I2 hl) sh2.
Qed.

(* C24 / C26: in any such history, none of the arrays the user holds at any moment
   (own arrays and exports) is changed by later actions of the feature array. *)
Theorem C26_exports_and_caller_arrays_stable dts (h : heap V) shapes (pool : seq (nd dty)) w1 log1 w2 log2 :
  0 < size shapes -> all (nd_wf h) pool -> steps zero dts (start h shapes pool) w1 log1 ->
  steps zero dts w1 w2 log2 ->
  forall v, List.In v (w_pool w1) -> ndata zero (w_heap w2) v = ndata zero (w_heap w1) v.
Proof.
move=> hs wf st1 st2; have [I _ _ _] := steps_ok st1 (Inv_init zero dts hs wf).
by have [] := steps_ok st2 I.
Qed.

(* C25, for a feature array filled by a single append (in particular the result of
   indexing): one row per item, as described. *)
Theorem C25_vectorize_single_append_partial near anti dts (h : heap V) shapes (ds : seq (nd dty)) n :
  0 < size shapes -> typed shapes dts ds n -> all (nd_wf h) ds -> 0 < n ->
  exists f, [/\ append zero h (fa_init dty shapes) (DList [seq ENd d | d <- ds]) = (h, f, Ok tt),
    fa_len f = n &
    vectorize zero near anti h f =
      Ok [seq flatten [seq vec_row zero near anti sd.1 n (ndata zero h sd.2) k | sd <- zip shapes ds] | k <- iota 0 n]].
Proof. exact: vectorize_fresh. Qed.
End Theorems.
Print Assumptions C20_append_concatenates.
Print Assumptions C20_append_accepted.
Print Assumptions C21_getitem_int.
Print Assumptions C21_getitem_int_out_of_range.
Print Assumptions C21_getitem_slice.
Print Assumptions C22_rejected_append_one_component_partial.
Print Assumptions C26_exports_and_caller_arrays_stable.
Print Assumptions C25_vectorize_single_append_partial.

(* ------------------------------------------------------------------ *)
(* Concrete cases: entries are natural numbers, dtypes are numbered.     *)
(* ------------------------------------------------------------------ *)
Notation nd' := (nd nat_eqType).
Definition mem0 : heap nat := [:: [:: 1; 2; 3; 4; 5; 6]; [:: 7; 8]; [:: 9; 10; 11; 12]].
Definition X : nd' := @Nd nat_eqType 0 0 [:: 3; 2] (iota 0 6).    (* shape (3,2) *)
Definition Y : nd' := @Nd nat_eqType 1 0 [:: 2] (iota 0 2).       (* shape (2,) *)
Definition Z2 : nd' := @Nd nat_eqType 2 0 [:: 2; 2] (iota 0 4).   (* shape (2,2) *)
Definition Cplx : nd' := @Nd nat_eqType 2 1 [:: 2; 2] (iota 0 4). (* another dtype *)
Definition app (h : heap nat) (f : fa nat_eqType) l := append 0 h f (DList l).

Lemma trip A B C (r : A * B * C) c : r.2 = c -> r = (r.1.1, r.1.2, c).
Proof. by case: r => [[a b] d] /= ->. Qed.

(* the hypotheses of C20/C21/C26 are met by a history with growth, a rejected append and
   an export; it shows 6 items *)
Example history_example :
  exists w, steps 0 [:: 0] (W mem0 (fa_init nat_eqType [:: [:: 2]]) [:: X; Y; Z2; Cplx]) w
      [:: (3, [:: [:: 1; 2; 3; 4; 5; 6]]); (1, [:: [:: 7; 8]]); (2, [:: [:: 9; 10; 11; 12]])]
   /\ observe 0 (w_heap w) (w_fa w) = Some [:: ([:: 6; 2], [:: 1; 2; 3; 4; 5; 6; 7; 8; 9; 10; 11; 12])].
Proof.
set P := [:: X; Y; Z2; Cplx].
pose r1 := app mem0 (fa_init nat_eqType [:: [:: 2]]) [:: ENd X].
pose r2 := app r1.1.1 r1.1.2 [:: ENd Cplx].
pose r3 := app r2.1.1 r2.1.2 [:: ENd Y].
pose r4 := app r3.1.1 r3.1.2 [:: ENd Z2].
have e1 : r1.2 = Ok tt by vm_compute.
have e2 : r2.2 = Err ValueErr by vm_compute.
have e3 : r3.2 = Ok tt by vm_compute.
have e4 : r4.2 = Ok tt by vm_compute.
exists (W r4.1.1 r4.1.2 P); split; last by vm_compute.
apply: (@StepsS _ _ _ _ _ (W r3.1.1 r3.1.2 P) _ [:: _; _] [:: _]).
  apply: (@StepsS _ _ _ _ _ (W r2.1.1 r2.1.2 P) _ [:: _] [:: _]).
    apply: (@StepsS _ _ _ _ _ (W r1.1.1 r1.1.2 P) _ [:: _] [::]).
      apply: (@StepsS _ _ _ _ _ _ _ [::] [:: _]); first exact: Steps0.
      apply: (@StAppend _ _ _ _ _ _ _ [:: X] 3).
      - by move=> d [<-|//]; left.
      - by split=> //; left.
      - exact: (trip e1).
    apply: (@StReject _ _ _ _ _ _ _ [:: ENd Cplx] _ _ ValueErr) => //.
    - by move=> d [[<-]|//]; right; right; right; left.
  have -> : [:: [:: 7; 8]] = [seq ndata 0 r2.1.1 d | d <- [:: Y]] by vm_compute.
  apply: (@StAppend _ _ _ _ _ _ _ [:: Y] 1).
  - by move=> d [<-|//]; right; left.
  - by split=> //; right.
  - exact: (trip e3).
have -> : [:: [:: 9; 10; 11; 12]] = [seq ndata 0 r3.1.1 d | d <- [:: Z2]] by vm_compute.
apply: (@StAppend _ _ _ _ _ _ _ [:: Z2] 2).
- by move=> d [<-|//]; right; right; left.
- by split=> //; left.
- exact: (trip e4).
Qed.

Example history_wf : all (nd_wf mem0) [:: X; Y; Z2; Cplx].
Proof. by rewrite /= !nd_wfE. Qed.

(* C22 in general: false. A feature array with two components; the second component of
   the rejected append is not an array. Afterwards an append that would have been
   accepted is refused. *)
Theorem C22_rejected_append_refuted :
  exists f0 bad good,
   let '(h1, f1, r1) := app mem0 f0 bad in
   let '(_, _, r_without) := app mem0 f0 good in
   let '(_, _, r_with) := app h1 f1 good in
   [/\ f0 = fa_init nat_eqType [:: [:: 2]; [:: 2]], r1 = Err TypeErr, r_without = Ok tt & r_with = Err ValueErr].
Proof.
exists (fa_init nat_eqType [:: [:: 2]; [:: 2]]), [:: ENd X; @EOther _], [:: ENd Cplx; ENd Cplx].
by vm_compute.
Qed.
Print Assumptions C22_rejected_append_refuted.

(* C23 in general: false. Two components bringing 3 and 2 items are accepted; len is 2 and
   the third item of the first component is lost. *)
Theorem C23_component_lengths_refuted :
  let '(h, f, r) := app mem0 (fa_init nat_eqType [:: [:: 2]; [:: 2]]) [:: ENd X; ENd Z2] in
  [/\ r = Ok tt, fa_len f = 2 &
      observe 0 h f = Some [:: ([:: 2; 2], [:: 1; 2; 3; 4]); ([:: 2; 2], [:: 9; 10; 11; 12])]].
Proof. by vm_compute. Qed.
Print Assumptions C23_component_lengths_refuted.

(* C24 in general: false. After the accepted append above, the next append overwrites the
   third row of the caller's array X. *)
Theorem C24_caller_array_overwritten_refuted :
  let '(h1, f1, r1) := app mem0 (fa_init nat_eqType [:: [:: 2]; [:: 2]]) [:: ENd X; ENd Z2] in
  let '(h2, f2, r2) := app h1 f1 [:: ENd Y; ENd Y] in
  [/\ r1 = Ok tt, r2 = Ok tt, ndata 0 h1 X = [:: 1; 2; 3; 4; 5; 6] & ndata 0 h2 X = [:: 1; 2; 3; 4; 7; 8]].
Proof. by vm_compute. Qed.
Print Assumptions C24_caller_array_overwritten_refuted.

(* ... and after a first append the feature array shares the caller's memory: X[0,0] = 42
   changes what it shows. *)
Theorem C24_shares_memory_refuted :
  let '(h1, f1, r1) := app mem0 (fa_init nat_eqType [:: [:: 2]]) [:: ENd X] in
  let h2 := write 0 h1 (nd_loc X) [:: 0] [:: 42] in
  [/\ r1 = Ok tt, observe 0 h1 f1 = Some [:: ([:: 3; 2], [:: 1; 2; 3; 4; 5; 6])] &
      observe 0 h2 f1 = Some [:: ([:: 3; 2], [:: 42; 2; 3; 4; 5; 6])]].
Proof. by vm_compute. Qed.
Print Assumptions C24_shares_memory_refuted.

(* C25 in general: false. After two appends (4 items) vectorize returns 1003 rows. *)
Theorem C25_vectorize_refuted :
  let '(h1, f1, r1) := app mem0 (fa_init nat_eqType [:: [:: 2]]) [:: ENd X] in
  let '(h2, f2, r2) := app h1 f1 [:: ENd Y] in
  [/\ r1 = Ok tt, r2 = Ok tt, fa_len f2 = 4 &
    match vectorize 0 (fun x y => x == y) (fun x y => false) h2 f2 with
    | Ok rows => size rows = 1003
    | Err _ => False
    end].
Proof. by vm_compute. Qed.
Print Assumptions C25_vectorize_refuted.

(* C66: indexing with a NumPy integer is not indexing with a Python int: item 1 of a
   feature array of 2-vectors comes back as 2 items. *)
Theorem C66_numpy_integer_index_refuted :
  let '(h1, f1, _) := app mem0 (fa_init nat_eqType [:: [:: 2]]) [:: ENd X] in
  [/\ (exists g, getitem 0 h1 f1 (KInt 1) = (h1, Ok g) /\ fa_len g = 1) &
      (exists g, getitem 0 h1 f1 (KNpInt 1) = (h1, Ok g) /\ fa_len g = 2)].
Proof. by vm_compute; split; eexists; split. Qed.
Print Assumptions C66_numpy_integer_index_refuted.

(* C67: item shapes are not checked. Items of shape (1,) are accepted into a feature array of
   items of shape (2,), silently repeated; and a first append of the wrong shape is accepted. *)
Definition Narrow : nd' := @Nd nat_eqType 1 0 [:: 2; 1] (iota 0 2).
Theorem C67_item_shape_refuted :
  (let '(h1, f1, _) := app mem0 (fa_init nat_eqType [:: [:: 2]]) [:: ENd Y] in
   let '(h2, f2, r2) := app h1 f1 [:: ENd Narrow] in
   r2 = Ok tt /\ observe 0 h2 f2 = Some [:: ([:: 3; 2], [:: 7; 8; 7; 7; 8; 8])])
  /\ (let '(h1, f1, r1) := app mem0 (fa_init nat_eqType [:: [:: 2]]) [:: ENd Narrow] in r1 = Ok tt).
Proof. by vm_compute. Qed.
Print Assumptions C67_item_shape_refuted.
