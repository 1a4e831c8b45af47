(* Model of the arithmetic done on one entry by covariancetoreal and covariancetocomplex
   (robuststats/models/mappings.py:144-206) in IEEE binary64, round to nearest even.
   Definitions only.  An entry of a complex array is a pair of binary64 numbers. *)
From Coq Require Import Reals ZArith.
From Flocq Require Import IEEE754.BinarySingleNaN IEEE754.Binary IEEE754.Bits.

Local Notation mul := (b64_mult mode_NE).
Local Notation add := (b64_plus mode_NE).
Local Notation sub := (b64_minus mode_NE).
(* the constants .5, 0. and 2. *)
Definition f_half : binary64 := b64_of_bits 0x3FE0000000000000.
Definition f_zero : binary64 := B754_zero 53 1024 false.
Definition f_two : binary64 := b64_of_bits 0x4000000000000000.
(* mappings.py:163-164: entry (k,l) of the blocks Re and Im of .5*np.block(..) *)
Definition to_real64 (re im : binary64) : binary64 * binary64 := (mul f_half re, mul f_half im).
(* NumPy complex product and sum *)
Definition cmul64 (x y : binary64 * binary64) : binary64 * binary64 :=
  (sub (mul (fst x) (fst y)) (mul (snd x) (snd y)), add (mul (fst x) (snd y)) (mul (snd x) (fst y))).
Definition cadd64 (x y : binary64 * binary64) : binary64 * binary64 := (add (fst x) (fst y), add (snd x) (snd y)).
(* mappings.py:197-199: 2 * a[:p,:p] + 2j*a[p:,:p]; the real arrays are converted to complex *)
Definition to_complex64 (p q : binary64) : binary64 * binary64 :=
  cadd64 (mul f_two p, f_zero) (cmul64 (f_zero, f_two) (q, f_zero)).
(* entry (k,l) of covariancetocomplex(covariancetoreal(S)) *)
Definition round_trip64 (re im : binary64) : binary64 * binary64 :=
  let '(p, q) := to_real64 re im in to_complex64 p q.
