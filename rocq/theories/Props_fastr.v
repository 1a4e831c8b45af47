(* C113: what str() and repr() of a feature array show.
   Vocabulary: Spec_featurearray.v.  Model: Model_featurearray.v, Model_fastr.v. *)
From mathcomp Require Import all_ssreflect.
From Verif Require Import Model_featurearray Spec_featurearray Proofs_featurearray Props_featurearray Model_fastr.
Set Implicit Arguments.
Unset Strict Implicit.
Unset Printing Implicit Defensive.

Section Theorems.
Variables (V : Type) (zero : V) (dty : eqType).
Notation start h shapes pool := (W h (fa_init dty shapes) pool).

(* the entries appended to component i, all calls together *)
Definition appended (log : seq (nat * seq (seq V))) (i : nat) : seq V := flatten [seq nth [::] b.2 i | b <- log].

(* A printed array shows exactly the items of a component: n items of shape s, dtype t. *)
Definition shows_items (s : seq nat) (t : dty) (n : nat) (D : seq V) (o : option (dty * seq nat * seq V)) : Prop :=
  o = Some (t, n :: s, D).
(* A printed array shows the items first, possibly followed by further rows. *)
Definition shows_first (s : seq nat) (t : dty) (n : nat) (D : seq V) (o : option (dty * seq nat * seq V)) : Prop :=
  exists m rest, [/\ n <= m, o = Some (t, m :: s, D ++ rest) & size (D ++ rest) = m * \prod_(d <- s) d].

(* str and repr give the same text *)
Theorem C113_repr (text : Type) (show : pyval V dty -> text) (h : heap V) (f : fa dty) :
  fa_repr zero show h f = fa_str zero show h f.
Proof. by []. Qed.

Lemma contents_nth (h : heap V) k shapes (arrs : seq (nd dty)) i d :
  i < size shapes -> size arrs = size shapes ->
  nth [::] (contents zero h k shapes arrs) i = first zero h (nth d arrs i) (k * prodn (nth [::] shapes i)).
Proof. by elim: shapes arrs i => [|s shapes IH] [|a arrs] [|i] //= hi [e]; apply: IH. Qed.

Lemma comps_nth (h : heap V) len shapes (arrs P : seq (nd dty)) L i d :
  comps_ok h len shapes arrs P L -> i < size shapes ->
  exists L', comp_ok h len (nth [::] shapes i) (nth d arrs i) P L'.
Proof.
elim: shapes arrs L i => [|s shapes IH] [|a arrs] L [|i] //= [c1 c2] hi; last exact: IH c2 hi.
by eexists; exact: c1.
Qed.

(* In any history of correct use with at least one append, the printed list has one array per
   component, of the agreed dtype, which starts with the items of this component in order. *)
Theorem C113_items_shown_first dts (h : heap V) shapes (pool : seq (nd dty)) w log :
  0 < size shapes -> all (nd_wf h) pool -> steps zero dts (start h shapes pool) w log -> 0 < size log ->
  exists l, [/\ printed_value zero (w_heap w) (w_fa w) = PyList l, size l = size shapes, size dts = size shapes &
    forall i t, i < size shapes ->
      shows_first (nth [::] shapes i) (nth t dts i) (total log) (appended log i) (nth None l i)].
Proof.
move=> hs wf st; have [I sh _ _] := steps_ok st (Inv_init zero dts hs wf).
case: w I sh {st} => h' f' p' [/= pp wfP hs' hl [[-> //]|[arrs [fe co dt ct]]]] sh hlog.
rewrite sh in co ct hs'; have sz := comps_ok_size co.
rewrite /printed_value fe; eexists; split; first by [].
- by rewrite !size_map.
- by rewrite -dt size_map.
move=> i t hi.
have hi2 : i < size arrs by rewrite sz.
case: arrs fe co dt ct sz hi2 => [//|a0 arrs0]; set arrs := a0 :: arrs0 => fe co dt ct sz hi2.
have [L' [wfi [m [shi lem _]]]] := comps_nth a0 co hi.
have := congr1 (fun c => nth [::] c i) ct.
rewrite (contents_nth h' _ a0 hi sz) /flat_log (nth_map 0) ?size_iota // nth_iota // add0n -/(appended log i) => e.
exists m, (drop (fa_len f' * prodn (nth [::] shapes i)) (ndata zero h' (nth a0 arrs i))).
rewrite -e /first cat_take_drop -hl; split=> //.
  by rewrite (nth_map (Some a0)) ?size_map // (nth_map a0) //= -dt (nth_map a0) // shi.
by rewrite size_ndata; move: wfi; rewrite nd_wfE shi => /and3P[_ /eqP-> _]; rewrite -prodnE.
Qed.

(* After a first append, str shows exactly what was appended. *)
Theorem C113_first_append_partial dts (h : heap V) shapes (ds : seq (nd dty)) n :
  0 < size shapes -> all (nd_wf h) ds -> typed shapes dts ds n ->
  exists f l, [/\ append zero h (fa_init dty shapes) (DList [seq ENd d | d <- ds]) = (h, f, Ok tt),
    printed_value zero h f = PyList l, size l = size shapes &
    forall i t d, i < size shapes ->
      shows_items (nth [::] shapes i) (nth t dts i) n (ndata zero h (nth d ds i)) (nth None l i)].
Proof.
move=> hs wfds ty; rewrite /append; cbv beta iota zeta.
rewrite /nb_manifolds size_map (typed_size ty) eqxx [~~ true]/=; cbv iota.
have [d' [e1 e2 e3 e4 e5]] := first_append_loop zero (fa_pre (fa_init dty shapes)) None ds [::] ty wfds.
rewrite [fa_shape _]/= [fa_len _]/= [fa_array _]/= e1.
have [d -> nd] : exists2 d, d' = Some d & ndlen d = n by move: e2; case: (shapes) hs.
rewrite nd add0n; do 2 eexists; split; first by [].
- by [].
- by rewrite !size_map (comps_ok_size e3).
move=> i t d0 {e1 e2 e3 e4 e5 hs}; rewrite /shows_items.
elim: shapes dts ds i ty wfds => [|s shapes IH] [|t0 dts] [|a ds] [|i] //= [br dt ty] /andP[wa wds] hi; last first.
  exact: IH.
have [sh1 _ dd1 dt1] := batchE zero h br.
by rewrite sh1 dd1 dt1 dt.
Qed.
End Theorems.

(* The hypotheses are met: the 3 by 2 array X of nat entries and type 0. *)
Example C113_ex : 0 < size [:: [:: 2]] /\ all (nd_wf mem0) [:: X] /\ typed [:: [:: 2]] [:: nd_dtype X] [:: X] 3.
Proof.
split=> //; split; first by rewrite /= andbT /nd_wf /= !big_cons big_nil.
by split=> //; left.
Qed.

(* In general str does not show the items: before any append it shows None; after appends of
   three and of one item it shows arrays of 1003 rows, the last 999 of them zeros; and two
   feature arrays with the same four items print differently. *)
Definition XY : Model_featurearray.nd nat_eqType := @Nd nat_eqType 3 0 [:: 4; 2] (iota 0 8).
Definition mem1 := mem0 ++ [:: [:: 1; 2; 3; 4; 5; 6; 7; 8]].
Theorem C113_str_refuted :
  printed_value 0 mem1 (fa_init nat_eqType [:: [:: 2]]) = PyNone _ _ /\
  let '(h1, f1, r1) := app mem1 (fa_init nat_eqType [:: [:: 2]]) [:: ENd X] in
  let '(h2, f2, r2) := app h1 f1 [:: ENd Y] in
  let '(h3, f3, r3) := app mem1 (fa_init nat_eqType [:: [:: 2]]) [:: ENd XY] in
  [/\ r1 = Ok tt /\ r2 = Ok tt /\ r3 = Ok tt, fa_len f2 = 4 /\ fa_len f3 = 4, observe 0 h2 f2 = observe 0 h3 f3,
      printed_value 0 h2 f2 = PyList [:: Some (0, [:: 1003; 2], [:: 1; 2; 3; 4; 5; 6; 7; 8] ++ nseq 1998 0)] &
      printed_value 0 h3 f3 = PyList [:: Some (0, [:: 4; 2], [:: 1; 2; 3; 4; 5; 6; 7; 8])]].
Proof. by vm_compute; do !split. Qed.

Print Assumptions C113_repr.
Print Assumptions C113_items_shown_first.
Print Assumptions C113_first_append_partial.
Print Assumptions C113_ex.
Print Assumptions C113_str_refuted.
