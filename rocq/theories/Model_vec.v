(* Model of robuststats/utils/linalg.py, lines 146-188: vec, vech, unvec, unvech.
   Definitions only.  Square roots are exact (in binary64 np.sqrt is correctly rounded, so the
   integers computed from it are the same for every length below 2^52). *)
From Coq Require Import Reals.
From mathcomp Require Import all_ssreflect all_algebra.
From mathcomp Require Import complex.
From Verif Require Import RealsMC Star StarInst Model_featurearray NpArray Model_vecnum.
Set Implicit Arguments.
Unset Strict Implicit.
Unset Printing Implicit Defensive.
Local Open Scope ring_scope.

(* ---- NumPy ---- *)
(* the index of shape s reached after k steps of Fortran order (first axis fastest) *)
Fixpoint unrav (s : seq nat) (k : nat) : seq nat := match s with
  | [::] => [::]
  | n :: s' => (k %% n)%N :: unrav s' (k %/ n)%N end.
Fixpoint rav (s idx : seq nat) : nat := match s, idx with
  | n :: s', i :: idx' => (i + n * rav s' idx')%N
  | _, _ => 0%N end.
Definition prodn (s : seq nat) : nat := foldr muln 1%N s.
(* C order (last axis fastest) *)
Definition unravC (s : seq nat) (k : nat) : seq nat := rev (unrav (rev s) k).
(* a.ravel('F') *)
Definition ravelF (a : arr) : arr := Arr (kd a) [:: prodn (sh a)] (fun i => at_ a (unrav (sh a) (head 0%N i))).
(* a.reshape(s, order='F') *)
Definition reshapeF (a : arr) (s : seq nat) : res arr :=
  if prodn (sh a) == prodn s then Ok (Arr (kd a) s (fun i => at_ a (unrav (sh a) (rav s i)))) else Err ValueErr.
(* a.take(l): positions in the array flattened in C order *)
Definition take_flat (a : arr) (l : seq nat) : res arr :=
  if all (fun k => k < prodn (sh a))%N l
  then Ok (Arr (kd a) [:: size l] (fun i => at_ a (unravC (sh a) (nth 0%N l (head 0%N i)))))
  else Err IndexErr.
(* len(a) *)
Definition np_len (a : arr) : res nat := if sh a is n :: _ then Ok n else Err TypeErr.
(* np.triu_indices(n), np.tril_indices(n), np.diag_indices(n), as lists of (row, column) *)
Definition triu_pairs (n : nat) : seq (nat * nat) := flatten [seq [seq (r, c) | c <- iota r (n - r)] | r <- iota 0 n].
Definition tril_pairs (n : nat) : seq (nat * nat) := flatten [seq [seq (r, c) | c <- iota 0 r.+1] | r <- iota 0 n].
Definition diag_pairs (n : nat) : seq (nat * nat) := [seq (r, r) | r <- iota 0 n].
(* a[rows, cols] and a[rows, cols] = v for two-dimensional a and distinct indices in range *)
Definition get_pairs (a : arr) (l : seq (nat * nat)) : arr :=
  Arr (kd a) [:: size l] (fun i => let p := nth (0, 0)%N l (head 0%N i) in at_ a [:: p.1; p.2]).
Definition set_pairs (a : arr) (l : seq (nat * nat)) (v : arr) : res arr :=
  if bshape [:: size l] (sh v) == Some [:: size l] then
    Ok (Arr (kd a) (sh a) (fun i => let p := (nth 0%N i 0, nth 0%N i 1) in
          if p \in l then cast (kd a) (kd v) (at_ v (bidx (sh v) [:: index p l])) else at_ a i))
  else Err ValueErr.
(* a /= 2 on an integer array cannot be cast back: UFuncTypeError, a TypeError *)
Definition idiv2 (a : arr) : res arr :=
  if kd a is KInt then Err TypeErr else Ok (Arr (kd a) (sh a) (fun i => at_ a i / 2%:R)).
(* ---- linalg.py ---- *)
(* linalg.py:146-147 *)
Definition vec (mat : arr) : arr := ravelF mat.
(* linalg.py:155-157, 160-162, 165-167 *)
Definition _tril_indices (n : nat) : seq nat := [seq (p.1 * n + p.2)%N | p <- tril_pairs n].
Definition _triu_indices (n : nat) : seq nat := [seq (p.1 * n + p.2)%N | p <- triu_pairs n].
Definition _diag_indices (n : nat) : seq nat := [seq (p.1 * n + p.2)%N | p <- diag_pairs n].
(* linalg.py:150-152 *)
Definition vech (mat : arr) : res arr :=
  bindr (np_len mat) (fun n => take_flat (npT mat) (_triu_indices n)).
(* linalg.py:170-173 *)
Definition unvec (v : arr) : res arr :=
  bindr (np_len v) (fun l =>
  let k := unvec_k l in
  if (k * k == l)%N then reshapeF v [:: k; k] else Err AssertionErr).
(* linalg.py:176-188 *)
Definition unvech (v : arr) : res arr :=
  bindr (np_len v) (fun l =>
  let rows := unvech_rows l in
  let result := np_zeros (kd v) [:: rows; rows] in
  bindr (set_pairs result (triu_pairs rows) v) (fun result =>
  bindr (add result (npT (np_cj result))) (fun result =>
  bindr (idiv2 (get_pairs result (diag_pairs rows))) (fun d =>
  set_pairs result (diag_pairs rows) d)))).
