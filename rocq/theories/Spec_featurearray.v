(* What a user expects of a feature array, phrased with the data seen through
   its public methods (export, len, indexing) and through the caller's arrays. *)
From mathcomp Require Import all_ssreflect.
From Coq Require Import ZArith.
From Verif Require Import Model_featurearray.
Set Implicit Arguments.
Unset Strict Implicit.
Unset Printing Implicit Defensive.

Section S.
Variable V : Type.
Variable zero : V.
Variable dty : eqType.
Notation heap := (heap V).
Notation nd := (nd dty).
Notation fa := (fa dty).

(* an array object is well formed in a memory *)
Definition nd_wf (h : heap) (a : nd) : bool :=
  [&& nd_loc a < size h,
      size (nd_pos a) == \prod_(d <- nd_shape a) d
    & all (fun p => p < size (nth [::] h (nd_loc a))) (nd_pos a)].

(* the array [d] brings [n] items of shape [s]: either a batch of shape (n, *s), or a
   single item of shape s *)
Definition brings (s : seq nat) (d : nd) (n : nat) : Prop :=
  nd_shape d = n :: s \/ (n = 1 /\ nd_shape d = s).

(* what export() shows: for each component its shape and entries (row-major) *)
Definition shown (h : heap) (x : res (exported dty)) : option (seq (seq nat * seq V)) :=
  match x with
  | Ok (XNd a) => Some [:: (nd_shape a, ndata zero h a)]
  | Ok (XList l) => Some [seq (nd_shape a, ndata zero h a) | a <- l]
  | Err _ => None
  end.
Definition observe (h : heap) (f : fa) := shown h (export f).

(* n items of shape s, exported: the batch dimension is dropped for one item *)
Definition expected_shape (n : nat) (s : seq nat) := if n == 1 then s else n :: s.

(* The situation of a user working with one feature array: the memory, the feature
   array, and all the arrays the user holds (created by the user or obtained from
   export()). *)
Record world := W { w_heap : heap; w_fa : fa; w_pool : seq nd }.

(* arguments of append of the declared item shapes and of the agreed dtypes, all
   components bringing the same number n of items *)
Fixpoint typed (shapes : seq (seq nat)) (dts : seq dty) (ds : seq nd) (n : nat) : Prop :=
  match shapes, dts, ds with
  | s :: shapes', t :: dts', d :: ds' => [/\ brings s d n, nd_dtype d = t & typed shapes' dts' ds' n]
  | [::], [::], [::] => True
  | _, _, _ => False
  end.

Definition views (x : exported dty) : seq nd := match x with XNd a => [:: a] | XList l => l end.

(* One user action; the last argument lists what was appended: number of items, and
   entries of each component.
   A rejected append is a possible action too, for feature arrays with one component. *)
Inductive step (dts : seq dty) : world -> world -> seq (nat * seq (seq V)) -> Prop :=
  | StAlloc h f pool dt sh data :
      size data = \prod_(d <- sh) d ->
      step dts (W h f pool) (W (alloc h dt sh data).1 f ((alloc h dt sh data).2 :: pool)) [::]
  | StAppend h f pool ds n h' f' :
      (forall d, List.In d ds -> List.In d pool) -> typed (fa_shape f) dts ds n ->
      append zero h f (DList [seq ENd d | d <- ds]) = (h', f', Ok tt) ->
      step dts (W h f pool) (W h' f' pool) [:: (n, [seq ndata zero h d | d <- ds])]
  | StReject h f pool ds h' f' e :
      size (fa_shape f) = 1 -> (forall d, List.In (ENd d) ds -> List.In d pool) ->
      append zero h f (DList ds) = (h', f', Err e) ->
      step dts (W h f pool) (W h' f' pool) [::]
  | StExport h f pool x :
      export f = Ok x -> step dts (W h f pool) (W h f (views x ++ pool)) [::].

Inductive steps (dts : seq dty) : world -> world -> seq (nat * seq (seq V)) -> Prop :=
  | Steps0 w : steps dts w w [::]
  | StepsS w1 w2 w3 l1 l2 : steps dts w1 w2 l1 -> step dts w2 w3 l2 -> steps dts w1 w3 (l1 ++ l2).

(* what export must show after the appends in [log] *)
Definition total (log : seq (nat * seq (seq V))) : nat := \sum_(b <- log) b.1.
Definition expected (shapes : seq (seq nat)) (log : seq (nat * seq (seq V))) : seq (seq nat * seq V) :=
  [seq (expected_shape (total log) (nth [::] shapes i),
        flatten [seq nth [::] b.2 i | b <- log]) | i <- iota 0 (size shapes)].

(* the j-th item of shape s in a row-major list of items *)
Definition item (s : seq nat) (j : nat) (D : seq V) : seq V :=
  take (\prod_(d <- s) d) (drop (j * \prod_(d <- s) d) D).

(* what export must show of the items numbered js *)
Definition expected_items (shapes : seq (seq nat)) (log : seq (nat * seq (seq V))) (js : seq nat)
  : seq (seq nat * seq V) :=
  [seq (expected_shape (size js) (nth [::] shapes i),
        flatten [seq item (nth [::] shapes i) j (flatten [seq nth [::] b.2 i | b <- log]) | j <- js])
      | i <- iota 0 (size shapes)].

(* vectorize: one row per item. A component whose items are all Hermitian (or all
   skew-Hermitian) square matrices, up to the tolerance of the comparisons [near] and [anti],
   contributes its upper triangle, any other one all its entries; row-major. *)
Variable near anti : V -> V -> bool.
Definition entry (p : nat) (m : seq V) (i j : nat) : V := nth zero m (i * p + j).
Definition all_items (rel : V -> V -> bool) (p n : nat) (D : seq V) : bool :=
  [forall k : 'I_n, forall i : 'I_p, forall j : 'I_p,
     rel (entry p (item [:: p; p] k D) i j) (entry p (item [:: p; p] k D) j i)].
Definition upper (p : nat) (m : seq V) : seq V :=
  [seq entry p m ij.1 ij.2 | ij <- [seq (i, j) | i <- iota 0 p, j <- iota 0 p] & ij.1 <= ij.2].
Definition vec_row (s : seq nat) (n : nat) (D : seq V) (k : nat) : seq V :=
  match s with
  | [:: p; q] => if (p == q) && (all_items near p n D || all_items anti p n D)
                 then upper p (item s k D) else item s k D
  | _ => item s k D
  end.
End S.

(* Python slices (language reference 6.3.2 and slice.indices): start:stop:step on a
   sequence of length n selects the positions first, first+step, ... as long as they
   lie before (step > 0) or after (step < 0) the bound. *)
Definition clamp (lo hi v : Z) : Z := Z.min hi (Z.max lo v).
Definition from_end (n : nat) (v : Z) : Z := if (v <? 0)%Z then (v + Z.of_nat n)%Z else v.
Definition slice_first (n : nat) (start : option Z) (step : Z) : Z :=
  match start with
  | None => if (0 <? step)%Z then 0%Z else (Z.of_nat n - 1)%Z
  | Some v => if (0 <? step)%Z then clamp 0 (Z.of_nat n) (from_end n v)
              else clamp (-1) (Z.of_nat n - 1) (from_end n v)
  end.
Definition slice_bound (n : nat) (stop : option Z) (step : Z) : Z :=
  match stop with
  | None => if (0 <? step)%Z then Z.of_nat n else (-1)%Z
  | Some v => if (0 <? step)%Z then clamp 0 (Z.of_nat n) (from_end n v)
              else clamp (-1) (Z.of_nat n - 1) (from_end n v)
  end.
Definition is_slice (n : nat) (start stop : option Z) (step : Z) (js : seq nat) : Prop :=
  forall t, (t < size js) = (let x := (slice_first n start step + Z.of_nat t * step)%Z in
                             if (0 <? step)%Z then (x <? slice_bound n stop step)%Z
                             else (slice_bound n stop step <? x)%Z)
         /\ (t < size js -> Z.of_nat (nth 0 js t) = (slice_first n start step + Z.of_nat t * step)%Z
                           /\ nth 0 js t < n).
