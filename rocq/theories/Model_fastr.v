(* Model of the printing of feature arrays, robuststats/estimation/base.py:37-41.
   Definitions only. *)
From mathcomp Require Import all_ssreflect.
From Verif Require Import Model_featurearray.
Set Implicit Arguments.
Unset Strict Implicit.
Unset Printing Implicit Defensive.

Section M.
Variables (V : Type) (zero : V) (dty : eqType).

(* What Python prints: None, or a list whose elements are None or arrays, given by their
   dtype, shape and entries in row-major order. *)
Inductive pyval := PyNone | PyList of seq (option (dty * seq nat * seq V)).

(* base.py:38 and 41: the value on which __str__ is called, the attribute self._array. *)
Definition printed_value (h : heap V) (f : fa dty) : pyval :=
  match fa_array f with
  | None => PyNone
  | Some l => PyList [seq omap (fun a => (nd_dtype a, nd_shape a, ndata zero h a)) o | o <- l]
  end.

(* base.py:37-38 __str__; [show] is the text Python and NumPy make of a value (NumPy
   abbreviates long arrays; the text depends on the value only). *)
Definition fa_str (text : Type) (show : pyval -> text) (h : heap V) (f : fa dty) : text :=
  show (printed_value h f).
(* base.py:40-41 __repr__ *)
Definition fa_repr (text : Type) (show : pyval -> text) (h : heap V) (f : fa dty) : text :=
  show (printed_value h f).
End M.
