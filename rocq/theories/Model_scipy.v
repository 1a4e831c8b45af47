(* The part of SciPy used by robuststats/models/probability.py and estimation/covariance.py:
   scipy.stats.multivariate_normal and multivariate_t (scipy/stats/_multivariate.py, 1.6-1.8).
   Numbers are exact.  Oracles, given as arguments:
   - psd_other: what _PSD gives (pseudo-inverse, log pseudo-determinant, rank, or an exception) for a
     matrix that is not symmetric positive definite,
   - gammaln: the log of the gamma function,
   - clog: the complex logarithm.
   No code of robuststats is modelled here. *)
From Coq Require Import Reals ClassicalEpsilon.
From mathcomp Require Import all_ssreflect all_algebra.
From mathcomp Require Import complex.
From Verif Require Import RealsMC Star StarInst Model_featurearray NpArray.
Set Implicit Arguments.
Unset Strict Implicit.
Unset Printing Implicit Defensive.
Local Open Scope ring_scope.
Import GRing.Theory Num.Theory Order.TTheory.

(* an optional parameter of a distribution: None, a Python number or an array *)
Inductive param := Pnone | Pnum (k : kind) (z : C) | Parr (a : arr).
(* np.asarray *)
Definition asarr (p : param) : option arr := match p with
  | Pnone => None
  | Pnum k z => Some (Arr k [::] (fun _ => z))
  | Parr a => Some a end.
(* np.asarray(a, dtype=float): imaginary parts are dropped (ComplexWarning) *)
Definition asfloat (a : arr) : arr := Arr KReal (sh a) (fun i => R2C (complex.Re (at_ a i))).
Definition np_size (a : arr) : nat := \prod_(n <- sh a) n.
(* a.squeeze(): axes of length 1 are removed *)
Fixpoint unsqueeze (s idx : seq nat) : seq nat := match s with
  | [::] => [::]
  | n :: s' => if n == 1%N then 0%N :: unsqueeze s' idx
               else if idx is i :: idx' then i :: unsqueeze s' idx' else 0%N :: unsqueeze s' [::] end.
Definition squeeze (a : arr) : arr := Arr (kd a) [seq n <- sh a | n != 1%N] (fun i => at_ a (unsqueeze (sh a) i)).
(* reshapes of arrays of size 1, np.eye(d)*c, np.diag *)
Definition reshape1 (a : arr) : res arr :=
  if np_size a == 1%N then Ok (Arr (kd a) [:: 1%N] (fun _ => at_ a (nseq (ndim a) 0%N))) else Err ValueErr.
Definition reshape11 (a : arr) : res arr :=
  if np_size a == 1%N then Ok (Arr (kd a) [:: 1%N; 1%N] (fun _ => at_ a (nseq (ndim a) 0%N))) else Err ValueErr.
Definition scaled_eye (d : nat) (c : C) : arr := Arr KReal [:: d; d] (fun i => if nth 0%N i 0 == nth 0%N i 1 then c else 0).
Definition np_diag (a : arr) : arr := Arr KReal [:: len a; len a] (fun i => if nth 0%N i 0 == nth 0%N i 1 then at_ a [:: nth 0%N i 0] else 0).

(* _process_parameters(None, mean, cov): dimension, mean, covariance *)
Definition params_dim (mean cov : param) : nat := match asarr mean with
  | None => if asarr cov is Some c then (if (ndim c < 2)%N then 1%N else len c) else 1%N
  | Some m => np_size m end.
Definition process_parameters (mean cov : param) : res (nat * arr * arr) :=
  let d := params_dim mean cov in
  let m := if asarr mean is Some a then asfloat a else np_zeros KReal [:: d] in
  let c := if asarr cov is Some a then asfloat a else Arr KReal [::] (fun _ => 1) in
  bindr (if d == 1%N then bindr (reshape1 m) (fun m' => bindr (reshape11 c) (fun c' => Ok (m', c'))) else Ok (m, c))
  (fun mc => let: (m, c) := mc in
     if sh m == [:: d] then
       if ndim c == 0%N then Ok (d, m, scaled_eye d (at_ c [::]))
       else if ndim c == 1%N then Ok (d, m, np_diag c)
       else if sh c == [:: d; d] then Ok (d, m, c) else Err ValueErr
     else Err ValueErr).
(* _process_quantiles(x, dim); keep: without the conversion to float of complex arrays, as overridden in
   probability.py:144-162, 359-377 *)
Definition process_quantiles (keep : bool) (x : arr) (d : nat) : arr :=
  let x := if keep && iscomplexobj x then x else asfloat x in
  if ndim x == 0%N then Arr (kd x) [:: 1%N] (fun _ => at_ x [::])
  else if ndim x == 1%N then
    if d == 1%N then Arr (kd x) [:: len x; 1%N] (fun i => at_ x [:: head 0%N i])
    else Arr (kd x) [:: 1%N; len x] (fun i => at_ x (behead i))
  else x.

(* real matrix in an array *)
Definition to_rmx m n (a : arr) : 'M[R]_(m, n) := \matrix_(i, j) complex.Re (at_ a [:: nat_of_ord i; nat_of_ord j]).
Definition spd n (S : 'M[R]_n) : Prop := pd (S : 'M[real_sf]_n).
Definition psd_info (d : nat) := ('M[R]_d * R * nat)%type.
Definition psd_oracle := forall d, 'M[R]_d -> res (psd_info d).
(* _PSD(cov): U U^T = cov^-1, log det cov and the rank *)
Definition psd_of (psd_other : psd_oracle) d (S : 'M[R]_d) : res (psd_info d) :=
  if excluded_middle_informative (spd S) then Ok (invmx S, ln (\det S), d) else psd_other d S.

(* np.sum(np.square(np.dot(x - mean, U)), axis=-1): for an index of the leading axes, d^T (U U^T) d *)
Definition dev_at (dev : arr) (d : nat) (idx : seq nat) : 'cV[C]_d := \col_k at_ dev (rcons idx (nat_of_ord k)).
Definition lead (s : seq nat) : seq nat := rev (behead (rev s)).
Definition mahalanobis d (P : 'M[R]_d) (x mean : arr) : res arr :=
  bindr (broadcast2 (kmax (kd x) (kd mean)) (fun a b => a - b) x mean) (fun dev =>
  if last 0%N (sh dev) == d then
    Ok (Arr (kd dev) (lead (sh dev)) (fun idx => ((dev_at dev d idx)^T *m map_mx R2C P *m dev_at dev d idx) 0 0))
  else Err ValueErr).

Section Oracles.
Variables (psd_other : psd_oracle) (gammaln : R -> R) (clog : C -> C).

(* np.log *)
Definition np_log (k : kind) (z : C) : C := if kind_eqb k KCplx then clog z else R2C (ln (complex.Re z)).
Definition map_arr (f : C -> C) (a : arr) : arr := Arr (kd a) (sh a) (fun i => f (at_ a i)).

(* a frozen distribution: dimension, mean, precision matrix, log det, rank *)
Record frozen := Frozen { fr_dim : nat; fr_mean : arr; fr_d : nat; fr_psd : psd_info fr_d }.
Definition freeze (mean cov : param) : res frozen :=
  bindr (process_parameters mean cov) (fun dmc => let: (d, m, c) := dmc in
  bindr (psd_of psd_other (to_rmx (len c) (len c) c)) (fun i => Ok (@Frozen d m (len c) i))).

(* multivariate_normal_gen._logpdf: -0.5 * (rank * log(2 pi) + log det cov + maha) *)
Definition normal_logpdf_core (f : frozen) (x : arr) : res arr :=
  let: (P, ld, rank) := fr_psd f in
  bindr (mahalanobis P x (fr_mean f)) (fun q =>
  Ok (squeeze (map_arr (fun z => - R2C (2%:R^-1) * (R2C (rank%:R * ln (2%:R * PI)) + R2C ld + z)) q))).
(* multivariate_normal_gen.logpdf, multivariate_normal_frozen.logpdf *)
Definition mvn_frozen_logpdf (f : frozen) (x : arr) : res arr := normal_logpdf_core f (process_quantiles false x (fr_dim f)).
Definition mvn_logpdf (keep : bool) (x : arr) (mean cov : param) : res arr :=
  bindr (freeze mean cov) (fun f => normal_logpdf_core f (process_quantiles keep x (fr_dim f))).
(* multivariate_normal_gen.entropy: 0.5 * log|det(2 pi e cov)|; multivariate_normal_frozen.entropy:
   0.5 * (rank * (log(2 pi) + 1) + log det cov) *)
Definition mvn_entropy (mean cov : param) : res R :=
  bindr (process_parameters mean cov) (fun dmc => let: (d, m, c) := dmc in
  Ok (2%:R^-1 * ln `|\det ((2%:R * PI * exp 1) *: to_rmx (len c) (len c) c)|)).
Definition mvn_frozen_entropy (f : frozen) : R :=
  let: (P, ld, rank) := fr_psd f in 2%:R^-1 * (rank%:R * (ln (2%:R * PI) + 1) + ld).

(* multivariate_t_gen._logpdf, df finite: t = (df + dim) / 2;
   gammaln(t) - gammaln(df/2) - dim/2 log(df pi) - log det / 2 - t log(1 + maha / df) *)
Definition t_logpdf_core (f : frozen) (df : R) (x : arr) : res arr :=
  let: (P, ld, rank) := fr_psd f in
  bindr (mahalanobis P x (fr_mean f)) (fun q =>
  let t := 2%:R^-1 * (df + (fr_dim f)%:R) in
  Ok (squeeze (map_arr (fun z =>
    R2C (gammaln t - gammaln (2%:R^-1 * df) - (fr_dim f)%:R / 2%:R * ln (df * PI) - 2%:R^-1 * ld)
    - R2C t * np_log (kd q) (1 + R2C (1 / df) * z)) q))).
Definition mvt_frozen_logpdf (f : frozen) (df : R) (x : arr) : res arr := t_logpdf_core f df (process_quantiles false x (fr_dim f)).
Definition mvt_logpdf (keep : bool) (x : arr) (loc shape : param) (df : R) : res arr :=
  bindr (freeze loc shape) (fun f => t_logpdf_core f df (process_quantiles keep x (fr_dim f))).
End Oracles.
