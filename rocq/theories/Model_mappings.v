(* Model of robuststats/models/mappings.py.  Definitions only.  Arguments are NumPy arrays
   (NpArray.v); logging is not modelled.  int(n/2) is the integer half (exact below 2^53). *)
From Coq Require Import Reals.
From mathcomp Require Import all_ssreflect all_algebra.
From mathcomp Require Import complex.
From Verif Require Import RealsMC Star StarInst Model_featurearray NpArray.
Set Implicit Arguments.
Unset Strict Implicit.
Unset Printing Implicit Defensive.
Local Open Scope ring_scope.
Import GRing.Theory Num.Theory Order.TTheory.

(* mappings.py:18-45 *)
Definition arraytoreal (a : arr) : res arr :=
  if iscomplexobj a then
    if ndim a == 1%N then concat2 0 (np_re a) (np_im a)
    else if ndim a == 2%N then hstack2 (np_re a) (np_im a)
    else Err AttributeErr
  else Ok a.
(* mappings.py:48-76 *)
Definition arraytocomplex (a : arr) : res arr :=
  if ~~ iscomplexobj a then
    if ndim a == 1%N then
      let p := (len a)./2 in
      add (slice 0 0 p a) (smul KCplx ii (slice 0 p (len a) a))
    else if ndim a == 2%N then
      let p := (nth 0%N (sh a) 1)./2 in
      bindr (add (slice 1 0 p a) (smul KCplx ii (slice 1 p (nth 0%N (sh a) 1) a))) vstack
    else Err AttributeErr
  else Ok a.
(* mappings.py:209-224 *)
Definition iscovariance (a : arr) : bool := (ndim a == 2%N) && (nth 0%N (sh a) 0 == nth 0%N (sh a) 1)%N.
(* mappings.py:144-172 *)
Definition covariancetoreal (a : arr) : res arr :=
  if iscomplexobj a then
    if iscovariance a then
      bindr (block2 (np_re a) (neg (np_im a)) (np_im a) (np_re a)) (fun b => Ok (smul KReal (R2C 2%:R^-1) b))
    else Err AttributeErr
  else Ok a.
(* mappings.py:175-206 *)
Definition covariancetocomplex (a : arr) : res arr :=
  if ~~ iscomplexobj a then
    if iscovariance a && (len a %% 2 == 0)%N then
      let p := (len a)./2 in
      add (smul KInt (R2C 2%:R) (slice 1 0 p (slice 0 0 p a)))
          (smul KCplx (Complex 0 2%:R) (slice 1 0 p (slice 0 p (len a) a)))
    else Err AttributeErr
  else Ok a.
(* for i in range(n): out[i] = f(a[i]) *)
Fixpoint fill (f : arr -> res arr) (a : arr) (l : seq nat) (out : arr) : res arr := match l with
  | [::] => Ok out
  | i :: l' => bindr (f (sub a i)) (fun v => bindr (set_sub out i v) (fill f a l')) end.
(* mappings.py:79-108; "n_samples, n_features, _ = a.shape" *)
Definition covariancestoreal (a : arr) : res arr :=
  if ~~ iscomplexobj a then Ok a
  else if ndim a == 3%N then
    let n := nth 0%N (sh a) 0 in let p := nth 0%N (sh a) 1 in
    fill covariancetoreal a (iota 0 n) (np_zeros KReal [:: n; 2 * p; 2 * p]%N)
  else Err AttributeErr.
(* mappings.py:111-141 *)
Definition covariancestocomplex (a : arr) : res arr :=
  if iscomplexobj a then Ok a
  else if (ndim a == 3%N) && (nth 0%N (sh a) 1 %% 2 == 0)%N then
    let n := nth 0%N (sh a) 0 in let p := (nth 0%N (sh a) 1)./2 in
    fill covariancetocomplex a (iota 0 n) (np_zeros KCplx [:: n; p; p])
  else Err AttributeErr.
(* mappings.py:227-246, 249-268 *)
Definition check_Hermitian (a : arr) (rtol atol : R) : res bool := allclose a (np_cj (npT a)) rtol atol.
Definition check_Symmetric (a : arr) (rtol atol : R) : res bool := allclose a (npT a) rtol atol.
