(* The part of NumPy used by robuststats/models/mappings.py, models/probability.py and
   estimation/base.py.  An array is a dtype kind, a shape and the value at each index; values
   outside the shape are meaningless.  Numbers are exact.  No code of robuststats is modelled
   here. *)
From Coq Require Import Reals.
From mathcomp Require Import all_ssreflect all_algebra.
From mathcomp Require Import complex.
From Verif Require Import RealsMC Star StarInst Model_featurearray.
Set Implicit Arguments.
Unset Strict Implicit.
Unset Printing Implicit Defensive.
Local Open Scope ring_scope.
Import GRing.Theory Num.Theory Order.TTheory.

(* dtype kinds: integers, floats, complex numbers *)
Inductive kind := KInt | KReal | KCplx.
Definition kind_eqb (a b : kind) : bool := match a, b with
  | KInt, KInt | KReal, KReal | KCplx, KCplx => true | _, _ => false end.
Definition kmax (a b : kind) : kind := match a, b with
  | KCplx, _ | _, KCplx => KCplx
  | KReal, _ | _, KReal => KReal
  | _, _ => KInt end.

Record arr := Arr { kd : kind; sh : seq nat; at_ : seq nat -> C }.
Definition ndim (a : arr) := size (sh a).
Definition len (a : arr) := head 0%N (sh a).
(* indices of a shape *)
Definition inb (s idx : seq nat) : bool := (size idx == size s) && all (fun p => p.1 < p.2)%N (zip idx s).
(* the same array: same dtype kind, same shape, same entries *)
Definition same (a b : arr) : Prop :=
  [/\ kd a = kd b, sh a = sh b & forall idx, inb (sh a) idx -> at_ a idx = at_ b idx].
Definition same_res (a b : res arr) : Prop := match a, b with
  | Ok x, Ok y => same x y
  | Err e, Err f => e = f
  | _, _ => False end.
(* well-formed: the entries of a real array are real *)
Definition wf (a : arr) : Prop := kd a <> KCplx -> forall idx, inb (sh a) idx -> complex.Im (at_ a idx) = 0.

Definition R2C (x : R) : C := Complex x 0.
Definition ii : C := Complex 0 1.
(* |z| *)
Definition cabs (z : C) : R := R_sqrt.sqrt (complex.Re z * complex.Re z + complex.Im z * complex.Im z).

(* np.iscomplexobj, np.isrealobj *)
Definition iscomplexobj (a : arr) : bool := kind_eqb (kd a) KCplx.
Definition isrealobj (a : arr) : bool := ~~ iscomplexobj a.
(* np.real, np.imag, np.conj, a.T *)
Definition real_kind k := if kind_eqb k KCplx then KReal else k.
Definition np_re (a : arr) : arr := Arr (real_kind (kd a)) (sh a) (fun i => R2C (complex.Re (at_ a i))).
Definition np_im (a : arr) : arr := Arr (real_kind (kd a)) (sh a) (fun i => R2C (complex.Im (at_ a i))).
Definition np_cj (a : arr) : arr := Arr (kd a) (sh a) (fun i => conjc (at_ a i)).
Definition npT (a : arr) : arr := Arr (kd a) (rev (sh a)) (fun i => at_ a (rev i)).
(* c * a and -a *)
Definition smul (k : kind) (c : C) (a : arr) : arr := Arr (kmax k (kd a)) (sh a) (fun i => c * at_ a i).
Definition neg (a : arr) : arr := Arr (kd a) (sh a) (fun i => - at_ a i).
(* a.astype(complex) *)
Definition astype_complex (a : arr) : arr := Arr KCplx (sh a) (at_ a).
(* np.zeros *)
Definition np_zeros (k : kind) (s : seq nat) : arr := Arr k s (fun _ => 0).

(* broadcasting: shapes are aligned on the right; sizes must be equal or 1 *)
Definition bdim (m n : nat) : option nat :=
  if m == n then Some m else if m == 1%N then Some n else if n == 1%N then Some m else None.
Fixpoint bzip (s t : seq nat) : option (seq nat) := match s, t with
  | m :: s', n :: t' => if bdim m n is Some d then omap (cons d) (bzip s' t') else None
  | _, _ => Some [::] end.
Definition pad (n : nat) (s : seq nat) : seq nat := nseq (n - size s) 1%N ++ s.
Definition bshape (s t : seq nat) : option (seq nat) :=
  let n := maxn (size s) (size t) in bzip (pad n s) (pad n t).
(* the index of shape s read for an index of the broadcast shape *)
Definition bidx (s idx : seq nat) : seq nat :=
  map (fun p => if p.2 == 1%N then 0%N else p.1) (zip (drop (size idx - size s) idx) s).
(* a (op) b elementwise *)
Definition broadcast2 (k : kind) (op : C -> C -> C) (a b : arr) : res arr :=
  if bshape (sh a) (sh b) is Some s
  then Ok (Arr k s (fun i => op (at_ a (bidx (sh a) i)) (at_ b (bidx (sh b) i))))
  else Err ValueErr.
Definition add (a b : arr) : res arr := broadcast2 (kmax (kd a) (kd b)) (fun x y => x + y) a b.

(* a[.., lo:hi, ..] on axis ax *)
Definition slice (ax lo hi : nat) (a : arr) : arr :=
  let n := nth 0%N (sh a) ax in
  Arr (kd a) (set_nth 0%N (sh a) ax (minn hi n - minn lo n)%N) (fun i => at_ a (set_nth 0%N i ax (minn lo n + nth 0%N i ax)%N)).
(* a[i] : the i-th sub-array (i in range) *)
Definition sub (a : arr) (i : nat) : arr := Arr (kd a) (behead (sh a)) (fun j => at_ a (i :: j)).
(* np.concatenate([a, b], axis=ax) *)
Definition concat2 (ax : nat) (a b : arr) : res arr :=
  let na := nth 0%N (sh a) ax in let nb := nth 0%N (sh b) ax in
  if (ax < size (sh a))%N && (set_nth 0%N (sh a) ax 0%N == set_nth 0%N (sh b) ax 0%N) && (size (sh a) == size (sh b)) then
    Ok (Arr (kmax (kd a) (kd b)) (set_nth 0%N (sh a) ax (na + nb)%N)
         (fun i => let j := nth 0%N i ax in if (j < na)%N then at_ a i else at_ b (set_nth 0%N i ax (j - na)%N)))
  else Err ValueErr.
(* np.concatenate of a list *)
Fixpoint concat (ax : nat) (a : arr) (l : seq arr) : res arr := match l with
  | [::] => Ok a
  | b :: l' => bindr (concat2 ax a b) (fun c => concat ax c l') end.
(* np.hstack: axis 0 for one-dimensional arrays, else axis 1 *)
Definition hstack2 (a b : arr) : res arr := concat2 (if ndim a == 1%N then 0 else 1)%N a b.
(* np.atleast_2d of an array of rank 1 or more *)
Definition atleast_2d (a : arr) : arr :=
  if ndim a == 1%N then Arr (kd a) (1%N :: sh a) (fun i => at_ a (behead i)) else a.
(* np.vstack(a): a is iterated over, each item made two-dimensional, all concatenated on axis 0;
   "need at least one array to concatenate" otherwise *)
Definition vstack (a : arr) : res arr :=
  match [seq atleast_2d (sub a i) | i <- iota 0 (len a)] with
  | [::] => Err ValueErr
  | b :: l => concat 0 b l end.
(* np.block([[a, b], [c, d]]) of two-dimensional arrays *)
Definition block2 (a b c d : arr) : res arr :=
  bindr (concat2 1 a b) (fun u => bindr (concat2 1 c d) (fun v => concat2 0 u v)).

(* casts done by an assignment into an array of the given kind: the imaginary part is dropped
   (ComplexWarning), fractional parts are truncated towards zero *)
Definition trunc (x : R) : R := if 0 <= x then IZR (Int_part x) else - IZR (Int_part (- x)).
Definition cast (to from : kind) (z : C) : C := match to, from with
  | KCplx, _ => z
  | KReal, _ => R2C (complex.Re z)
  | KInt, KInt => z
  | KInt, _ => R2C (trunc (complex.Re z)) end.
(* a[i] = v, i in range: v must broadcast to the shape of a[i] *)
Definition set_sub (a : arr) (i : nat) (v : arr) : res arr :=
  let s := behead (sh a) in
  if bshape s (sh v) == Some s then
    Ok (Arr (kd a) (sh a) (fun j => if head 0%N j == i then cast (kd a) (kd v) (at_ v (bidx (sh v) (behead j))) else at_ a j))
  else Err ValueErr.

(* P holds at every index of the shape *)
Fixpoint all_idx (s : seq nat) (P : seq nat -> bool) : bool := match s with
  | [::] => P [::]
  | n :: s' => all (fun i => all_idx s' (fun j => P (i :: j))) (iota 0 n) end.
(* np.allclose on finite values: |x - y| <= atol + rtol*|y| everywhere, after broadcasting *)
Definition allclose (a b : arr) (rtol atol : R) : res bool :=
  if bshape (sh a) (sh b) is Some s
  then Ok (all_idx s (fun i => let x := at_ a (bidx (sh a) i) in let y := at_ b (bidx (sh b) i) in
                               cabs (x - y) <= atol + rtol * cabs y))
  else Err ValueErr.

(* arrays and mathcomp matrices *)
Definition of_mx (k : kind) m n (A : 'M[C]_(m, n)) : arr :=
  Arr k [:: m; n] (fun idx => match idx with
    | [:: i; j] => match insub i, insub j with Some i', Some j' => A i' j' | _, _ => 0 end
    | _ => 0 end).
Definition of_cv (k : kind) n (x : 'cV[C]_n) : arr :=
  Arr k [:: n] (fun idx => match idx with
    | [:: i] => if insub i is Some i' then x i' 0 else 0
    | _ => 0 end).
Definition to_mx m n (a : arr) : 'M[C]_(m, n) := \matrix_(i, j) at_ a [:: nat_of_ord i; nat_of_ord j].
Definition to_cv n (a : arr) : 'cV[C]_n := \col_i at_ a [:: nat_of_ord i].
