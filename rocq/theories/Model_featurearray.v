(* Model of robuststats/estimation/base.py:27-172 (_FeatureArray and
   _feature_estimation) and of robuststats/utils/checking.py.
   Definitions only. *)
From mathcomp Require Import all_ssreflect.
From Coq Require Import ZArith.
Set Implicit Arguments.
Unset Strict Implicit.
Unset Printing Implicit Defensive.

(* Python exceptions raised by the modelled code. *)
Inductive exn := TypeErr | ValueErr | IndexErr | AttributeErr | UnboundLocalErr
  | AssertionErr | LinAlgErr | NotFittedErr | NotImplementedErr.

Inductive res (A : Type) := Ok of A | Err of exn.
Arguments Ok {A}.
Arguments Err {A}.

Definition bindr {A B} (r : res A) (f : A -> res B) : res B :=
  match r with Ok a => f a | Err e => Err e end.

(* ------------------------------------------------------------------ *)
(* utils/checking.py                                                   *)
(* ------------------------------------------------------------------ *)
(* checking.py:12-31 check_positive, on Python integers. *)
Definition check_positive (var : Z) (strictly : bool) : res unit :=
  let condition := if strictly then (0 <? var)%Z else (0 <=? var)%Z in
  if ~~ condition then Err ValueErr else Ok tt.

(* checking.py:34-48 check_type; [T] is the set of Python types. *)
Definition check_type (T : eqType) (ty : T) (accepted : seq T) : res unit :=
  if ty \notin accepted then Err TypeErr else Ok tt.

(* checking.py:51-65 check_value; [==] on the values is modelled by equality. *)
Definition check_value (T : eqType) (v : T) (accepted : seq T) : res unit :=
  if v \notin accepted then Err ValueErr else Ok tt.

(* ------------------------------------------------------------------ *)
(* NumPy arrays as views on buffers                                     *)
(* ------------------------------------------------------------------ *)
Section FA.
Variable V : Type.            (* array entries *)
Variable zero : V.            (* np.zeros *)
Variable dty : eqType.        (* dtypes *)

(* A buffer is a block of memory; a heap is the list of all buffers ever
   allocated; an array object (np.ndarray) is a view: the buffer, the dtype, the
   shape, and for each entry in row-major order its position in the buffer.
   This covers slices, np.newaxis, squeeze and integer indexing, which all share
   memory with the array they are taken from. *)
Definition heap := seq (seq V).
Record nd := Nd { nd_loc : nat; nd_dtype : dty; nd_shape : seq nat; nd_pos : seq nat }.

Definition prodn (s : seq nat) : nat := foldr muln 1 s.

(* entries of an array, row-major *)
Definition ndata (h : heap) (a : nd) : seq V :=
  [seq nth zero (nth [::] h (nd_loc a)) p | p <- nd_pos a].

(* len(a) for an array of rank >= 1 *)
Definition ndlen (a : nd) : nat := head 0 (nd_shape a).

(* j-th chunk of length k *)
Definition chunk {T : Type} (k j : nat) (xs : seq T) : seq T := take k (drop (j * k) xs).

(* a[np.newaxis, ...] *)
Definition newaxis (a : nd) : nd := Nd (nd_loc a) (nd_dtype a) (1 :: nd_shape a) (nd_pos a).

(* basic or fancy indexing of the first axis by a list of row numbers, as a view *)
Definition take_rows (a : nd) (js : seq nat) : nd :=
  let item := behead (nd_shape a) in
  Nd (nd_loc a) (nd_dtype a) (size js :: item)
     (flatten [seq chunk (prodn item) j (nd_pos a) | j <- js]).

(* a[:n] *)
Definition take_first (a : nd) (n : nat) : nd := take_rows a (iota 0 (minn n (ndlen a))).

(* np.squeeze(a, axis=0) on an array of length 1, and a[j] for an integer j *)
Definition row_view (a : nd) (j : nat) : nd :=
  let item := behead (nd_shape a) in
  Nd (nd_loc a) (nd_dtype a) item (chunk (prodn item) j (nd_pos a)).

(* a new array with its own memory *)
Definition alloc (h : heap) (dt : dty) (shape : seq nat) (data : seq V) : heap * nd :=
  (rcons h data, Nd (size h) dt shape (iota 0 (size data))).

(* write the entries [xs] at the positions [ps] of buffer [l] *)
Fixpoint write_cells (buf : seq V) (ps : seq nat) (xs : seq V) : seq V :=
  match ps, xs with
  | p :: ps', x :: xs' => write_cells (set_nth zero buf p x) ps' xs'
  | _, _ => buf
  end.
Definition write (h : heap) (l : nat) (ps : seq nat) (xs : seq V) : heap :=
  set_nth [::] h l (write_cells (nth [::] h l) ps xs).

(* NumPy broadcasting of an array of shape ds to shape ts (same rank) *)
Definition bcast_ok (ds ts : seq nat) : bool :=
  (size ds == size ts) && all (fun dt => (dt.1 == dt.2) || (dt.1 == 1)) (zip ds ts).
Fixpoint bcast (ds ts : seq nat) (xs : seq V) : seq V :=
  match ds, ts with
  | d :: ds', t :: ts' =>
      if d == t then flatten [seq bcast ds' ts' (chunk (prodn ds') j xs) | j <- iota 0 d]
      else flatten (nseq t (bcast ds' ts' xs))
  | _, _ => xs
  end.

(* ------------------------------------------------------------------ *)
(* base.py:30-35 _FeatureArray.__init__                                 *)
(* ------------------------------------------------------------------ *)
Record fa := Fa {
  fa_array : option (seq (option nd));   (* self._array: None, or a list of None / ndarray *)
  fa_shape : seq (seq nat);              (* self._shape *)
  fa_pre : nat;                          (* self._size_preallocation *)
  fa_len : nat                           (* self._len *)
}.
Definition fa_init (shape : seq (seq nat)) : fa := Fa None shape 1000 0.

(* base.py:65-67 nb_manifolds *)
Definition nb_manifolds (f : fa) : nat := size (fa_shape f).

(* base.py:49-53 dtype; only when non empty does it look at the arrays *)
Definition fa_dtype (f : fa) : res (seq dty) :=
  if fa_len f == 0 then Ok [::]
  else match fa_array f with
       | None => Err TypeErr
       | Some l => if all isSome l then Ok [seq nd_dtype a | a <- pmap id l] else Err AttributeErr
       end.

(* base.py:55-63 shape *)
Definition fa_shapes (f : fa) : nat + seq (seq nat) :=
  if fa_len f == 0 then inl (fa_len f) else inr [seq fa_len f :: s | s <- fa_shape f].

(* values handed to append: what type(...) distinguishes *)
Inductive elt := ENd of nd | EOther.     (* ndarray/memmap, or anything else *)
Inductive arg := DNd of nd | DList of seq elt | DFA of fa | DOther.
(* DList stands for list and tuple: the code does not distinguish them. *)

(* base.py:147-154 export. None[:n] is a TypeError. *)
Definition export_comp (len : nat) (a : option nd) : res nd :=
  match a with
  | None => Err TypeErr
  | Some a => let v := take_first a len in
              Ok (if ndlen v == 1 then row_view v 0 else v)
  end.
Fixpoint mapr {A B} (f : A -> res B) (l : seq A) : res (seq B) :=
  match l with
  | [::] => Ok [::]
  | x :: l' => bindr (f x) (fun y => bindr (mapr f l') (fun ys => Ok (y :: ys)))
  end.
Inductive exported := XNd of nd | XList of seq nd.
Definition export (f : fa) : res exported :=
  let comps := match fa_array f with None => nseq (nb_manifolds f) None | Some l => take (nb_manifolds f) l end in
  bindr (mapr (export_comp (fa_len f)) comps) (fun l =>
    match l with
    | [:: a] => if nb_manifolds f == 1 then Ok (XNd a) else Ok (XList l)
    | _ => Ok (XList l)
    end).

(* base.py:109-113 the growth loop
     while len(self) + len(d) > len(self._array[i]):
         temp = np.zeros(shape); self._array[i] = np.concatenate([a, temp], axis=0)
   The while loop is run with fuel; [grow_exits] in Proofs_featurearray shows that
   the fuel used below is always enough when the preallocation size is positive.
   np.concatenate raises ValueError when the item shapes differ. *)
Fixpoint grow (fuel : nat) (pre : nat) (need : nat) (s : seq nat) (h : heap) (a : nd)
  : res (heap * nd) :=
  if need <= ndlen a then Ok (h, a)
  else match fuel with
       | 0 => Ok (h, a)
       | k.+1 =>
           if behead (nd_shape a) != s then Err ValueErr
           else let '(h', a') := alloc h (nd_dtype a) ((ndlen a + pre) :: s)
                                   (ndata h a ++ nseq (pre * prodn s) zero) in
                grow k pre need s h' a'
       end.

(* base.py:96-114 the body of the for loop of append, for one component.
   [a] is self._array[i] on entry, [s] is self._shape[i]. Returns the heap, the new
   self._array[i] and either the exception or d after the batch dimension is added. *)
Definition append_comp (pre len : nat) (s : seq nat) (a : option nd) (d : elt) (h : heap)
  : heap * option nd * res nd :=
  match d with
  | EOther => (h, a, Err TypeErr)                                       (* 96 *)
  | ENd d =>
      let bad_dtype := match a with Some a => nd_dtype d != nd_dtype a | None => false end in
      if bad_dtype then (h, a, Err ValueErr)                            (* 97-98 *)
      else
        let d := if size (nd_shape d) == size s then newaxis d else d in  (* 101-102 *)
        if size (nd_shape d) != (size s).+1 then (h, a, Err ValueErr)   (* 104 *)
        else match a with
        | None => (h, Some d, Ok d)                                     (* 106-107 *)
        | Some a =>
            match grow (len + ndlen d) pre (len + ndlen d) s h a with   (* 109-113 *)
            | Err e => (h, Some a, Err e)
            | Ok (h1, a1) =>
                let tgt := take_rows a1 (iota len (ndlen d)) in         (* 114 *)
                if ~~ bcast_ok (nd_shape d) (nd_shape tgt) then (h1, Some a1, Err ValueErr)
                else (write h1 (nd_loc a1) (nd_pos tgt)
                        (bcast (nd_shape d) (nd_shape tgt) (ndata h1 d)), Some a1, Ok d)
            end
        end
  end.

(* base.py:95-114 the for loop; an exception leaves the components already
   processed modified. *)
Fixpoint append_loop (pre len : nat) (shapes : seq (seq nat)) (arrs : seq (option nd))
  (data : seq elt) (h : heap) (last : option nd) : heap * seq (option nd) * res (option nd) :=
  match shapes, arrs, data with
  | s :: shapes', a :: arrs', d :: data' =>
      let '(h1, a1, r) := append_comp pre len s a d h in
      match r with
      | Err e => (h1, a1 :: arrs', Err e)
      | Ok d' =>
          let '(h2, arrs2, r2) := append_loop pre len shapes' arrs' data' h1 (Some d') in
          (h2, a1 :: arrs2, r2)
      end
  | _, _, _ => (h, arrs, Ok last)
  end.

(* base.py:81-116 append *)
Definition append (h : heap) (f : fa) (data : arg) : heap * fa * res unit :=
  let data1 :=                                                          (* 82-88 *)
    match data with
    | DOther => Err TypeErr
    | DFA g => bindr (export g) (fun x => match x with XNd a => Ok [:: ENd a]
                                                  | XList l => Ok [seq ENd a | a <- l] end)
    | DNd a => Ok [:: ENd a]
    | DList l => Ok l
    end in
  match data1 with
  | Err e => (h, f, Err e)
  | Ok l =>
      let arrs := match fa_array f with                                 (* 90-91 *)
                  | None => nseq (size (fa_shape f)) None | Some x => x end in
      let f1 := Fa (Some arrs) (fa_shape f) (fa_pre f) (fa_len f) in
      if nb_manifolds f != size l then (h, f1, Err ValueErr)            (* 93 *)
      else
        let '(h2, arrs2, r) := append_loop (fa_pre f) (fa_len f) (fa_shape f) arrs l h None in
        match r with
        | Err e => (h2, Fa (Some arrs2) (fa_shape f) (fa_pre f) (fa_len f), Err e)
        | Ok None => (h2, Fa (Some arrs2) (fa_shape f) (fa_pre f) (fa_len f), Err UnboundLocalErr)
        | Ok (Some d) =>                                                (* 116 *)
            (h2, Fa (Some arrs2) (fa_shape f) (fa_pre f) (fa_len f + ndlen d), Ok tt)
        end
  end.

(* ------------------------------------------------------------------ *)
(* base.py:69-79 __getitem__                                            *)
(* ------------------------------------------------------------------ *)
(* Python slice.indices(n) for step > 0 and for step < 0 (CPython,
   PySlice_AdjustIndices), start/stop possibly absent. *)
Definition adjust (n : Z) (lo hi : Z) (v : Z) : Z :=
  let v := if (v <? 0)%Z then (v + n)%Z else v in
  if (v <? lo)%Z then lo else if (hi <? v)%Z then hi else v.
Definition slice_bounds (n : nat) (start stop : option Z) (step : Z) : Z * Z :=
  let n := Z.of_nat n in
  if (0 <? step)%Z
  then (match start with None => 0%Z | Some v => adjust n 0 n v end,
        match stop with None => n | Some v => adjust n 0 n v end)
  else (match start with None => (n - 1)%Z | Some v => adjust n (-1) (n - 1) v end,
        match stop with None => (-1)%Z | Some v => adjust n (-1) (n - 1) v end).
(* range(start, stop, step): at most n elements. *)
Fixpoint zrange (fuel : nat) (a b step : Z) : seq nat :=
  match fuel with
  | 0 => [::]
  | k.+1 => if (if (0 <? step)%Z then (a <? b)%Z else (b <? a)%Z)
            then Z.to_nat a :: zrange k (a + step)%Z b step else [::]
  end.
Definition slice_rows (n : nat) (start stop : option Z) (step : Z) : seq nat :=
  let '(a, b) := slice_bounds n start stop step in zrange n a b step.

Inductive key :=
  | KInt of Z                                  (* a Python int *)
  | KNpInt of Z                                (* np.int64 etc.: type(key) != int *)
  | KSlice of option Z & option Z & Z          (* start:stop:step, step given (1 by default) *)
  | KList of seq Z.                            (* list or array of integers: copies *)

Definition norm_index (n : nat) (k : Z) : res nat :=
  let k' := if (k <? 0)%Z then (k + Z.of_nat n)%Z else k in
  if (0 <=? k')%Z && (k' <? Z.of_nat n)%Z then Ok (Z.to_nat k') else Err IndexErr.

(* a[key] for an array a of rank >= 1 *)
Definition index_array (h : heap) (a : nd) (k : key) : res (heap * nd) :=
  match k with
  | KInt z | KNpInt z => bindr (norm_index (ndlen a) z) (fun j => Ok (h, row_view a j))
  | KSlice b e st => if (st =? 0)%Z then Err ValueErr
                     else Ok (h, take_rows a (slice_rows (ndlen a) b e st))
  | KList zs => bindr (mapr (norm_index (ndlen a)) zs) (fun js =>
                  let v := take_rows a js in
                  Ok (alloc h (nd_dtype v) (nd_shape v) (ndata h v)))
  end.

Fixpoint index_all (h : heap) (l : seq nd) (k : key) : res (heap * seq nd) :=
  match l with
  | [::] => Ok (h, [::])
  | a :: l' => bindr (index_array h a k) (fun ha =>
               bindr (index_all ha.1 l' k) (fun hl => Ok (hl.1, ha.2 :: hl.2)))
  end.

(* A 0-d result of integer indexing is a NumPy scalar, not an ndarray: with an
   int key line 76 turns it into an array of shape (1,), otherwise append
   rejects its type (base.py:96). *)
Definition getitem (h : heap) (f : fa) (k : key) : heap * res fa :=
  match check_positive (Z.of_nat (fa_len f)) true with
  | Err e => (h, Err e)
  | Ok _ =>
      match mapr (fun a => match a with None => Err TypeErr | Some a => Ok (take_first a (fa_len f)) end)
                 (match fa_array f with None => [::] | Some l => l end) with
      | Err e => (h, Err e)
      | Ok a =>
          match index_all h a k with
          | Err e => (h, Err e)
          | Ok (h1, temp) =>
              let temp := match k with KInt _ => [seq newaxis t | t <- temp] | _ => temp end in
              let shapes := [seq behead (nd_shape t) | t <- temp] in
              let elts := [seq if (if k is KNpInt _ then nd_shape t == [::] else false)
                               then EOther else ENd t | t <- temp] in
              let '(h2, f2, r) := append h1 (fa_init shapes) (DList elts) in
              match r with Err e => (h2, Err e) | Ok _ => (h2, Ok f2) end
          end
      end
  end.

(* ------------------------------------------------------------------ *)
(* base.py:118-145 vectorize                                            *)
(* ------------------------------------------------------------------ *)
(* near x y : |x - conj y| < self._tol ; anti x y : |x + conj y| < self._tol *)
Variable near anti : V -> V -> bool.

Definition mat_all (rel : V -> V -> bool) (p : nat) (m : seq V) : bool :=
  all (fun i => all (fun j => rel (nth zero m (i * p + j)) (nth zero m (j * p + i))) (iota 0 p))
      (iota 0 p).
(* np.triu_indices(p) in row-major order *)
Definition triu (p : nat) : seq (nat * nat) :=
  flatten [seq [seq (i, j) | j <- iota i (p - i)] | i <- iota 0 p].

(* rows of one component, as flat lists; the whole buffer is used (line 122-124) *)
Definition vec_comp (h : heap) (a : nd) : res (seq (seq V)) :=
  let item := behead (nd_shape a) in
  let data := ndata h a in
  let rows := [seq chunk (prodn item) j data | j <- iota 0 (ndlen a)] in
  let rows' :=
    match item with
    | [:: p; q] =>
        if (p == q) && (all (mat_all near p) rows || all (mat_all anti p) rows)
        then [seq [seq nth zero m (ij.1 * p + ij.2) | ij <- triu p] | m <- rows]
        else rows
    | _ => rows
    end in
  if ndlen a == 0 then Err ValueErr (* reshape((0,-1)) *) else Ok rows'.

(* np.concatenate(temp, axis=1) *)
Definition hcat (l : seq (seq (seq V))) : res (seq (seq V)) :=
  match l with
  | [::] => Err ValueErr
  | c :: l' => if all (fun c' => size c' == size c) l'
               then Ok (foldl (fun acc c' => [seq xy.1 ++ xy.2 | xy <- zip acc c']) c l')
               else Err ValueErr
  end.

Definition vectorize (h : heap) (f : fa) : res (seq (seq V)) :=
  bindr (check_positive (Z.of_nat (fa_len f)) true) (fun _ =>
  bindr (mapr (fun a => match a with None => Err TypeErr | Some a => vec_comp h a end)
              (match fa_array f with None => [::] | Some l => l end)) hcat).

End FA.
