(* Model in IEEE binary64, round to nearest even, of computations of robuststats/utils/linalg.py: the sizes found by unvec and
   unvech (170-179), hermitian and multiherm (22-24, 130-132), the entries of unvech (181-186).  Definitions only.
   A complex array is a function of its two indices; an entry is a pair of binary64 numbers. *)
From Coq Require Import Reals ZArith.
From Flocq Require Import Core IEEE754.BinarySingleNaN IEEE754.Binary IEEE754.Bits.
From Verif Require Import Model_float.

Local Notation mul := (b64_mult mode_NE).
Local Notation add := (b64_plus mode_NE).
Local Notation sub := (b64_minus mode_NE).
Local Notation div := (b64_div mode_NE).
Definition f_one : binary64 := b64_of_bits 0x3FF0000000000000.
Definition f_mone : binary64 := b64_of_bits 0xBFF0000000000000.
(* conversion of a Python integer to float64 *)
Definition f_of_Z (n : Z) : binary64 := binary_normalize 53 1024 eq_refl eq_refl mode_NE n 0 false.
(* linalg.py:171 int(np.sqrt(len(v))) *)
Definition unvec_k64 (l : Z) : Z := Btrunc 53 1024 (b64_sqrt mode_NE (f_of_Z l)).
(* linalg.py:172 the assertion *)
Definition unvec_accepts64 (l : Z) : bool := Z.eqb (unvec_k64 l * unvec_k64 l) l.
(* linalg.py:178-179 int(np.round(.5 * (-1 + np.sqrt(1 + 8 * len(v))))) *)
Definition unvech_rows64 (l : Z) : Z :=
  ZnearestE (B2R 53 1024 (mul f_half (add f_mone (b64_sqrt mode_NE (f_of_Z (1 + 8 * l)))))).
(* linalg.py:182 the assignment of v to the upper triangle needs as many entries; a vector with one entry would be broadcast *)
Definition unvech_accepts64 (l : Z) : bool :=
  let r := unvech_rows64 l in Z.eqb (r * (r + 1) / 2) l || Z.eqb l 1.
(* np.conjugate *)
Definition cconj64 (z : binary64 * binary64) : binary64 * binary64 := (fst z, b64_opp (snd z)).
(* linalg.py:24 and 132, complex and real arrays: .5 * (X + X^H); the constant is converted to the type of the array *)
Definition hermitian64 (X : nat -> nat -> binary64 * binary64) (i j : nat) : binary64 * binary64 :=
  cmul64 (f_half, f_zero) (cadd64 (X i j) (cconj64 (X j i))).
Definition symmetric64 (X : nat -> nat -> binary64) (i j : nat) : binary64 := mul f_half (add (X i j) (X j i)).
(* NumPy complex quotient when the real part of the divisor is not the smaller one *)
Definition cdiv64 (x y : binary64 * binary64) : binary64 * binary64 :=
  let rat := div (snd y) (fst y) in
  let scl := div f_one (add (fst y) (mul (snd y) rat)) in
  (mul (add (fst x) (mul (snd x) rat)) scl, mul (sub (snd x) (mul (fst x) rat)) scl).
(* linalg.py:181-186: u i j, i <= j, is the entry of v put at (i,j) *)
Definition unvech64 (u : nat -> nat -> binary64 * binary64) (i j : nat) : binary64 * binary64 :=
  let r i j := if Nat.leb i j then u i j else (f_zero, f_zero) in
  let t := cadd64 (r i j) (cconj64 (r j i)) in
  if Nat.eqb i j then cdiv64 t (f_two, f_zero) else t.
(* mappings.py:40-42 and 66-71: one entry of arraytoreal and of arraytocomplex, a + 1j * b with the real arrays converted to complex *)
Definition array_toreal64 (z : binary64 * binary64) : binary64 * binary64 := (fst z, snd z).
Definition array_tocomplex64 (a b : binary64) : binary64 * binary64 := cadd64 (a, f_zero) (cmul64 (f_zero, f_one) (b, f_zero)).
(* covariance.py:446 and 1019: the entries of sigma/S(sigma), real and complex arrays *)
Definition normalise64 (c x : binary64) : binary64 := div x c.
Definition cnormalise64 (c x : binary64 * binary64) : binary64 * binary64 := cdiv64 x c.
