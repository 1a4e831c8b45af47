(* Model of robuststats/utils/generation_data.py: synthetic covariances, textures, orthonormal
   frames and samplers.  Definitions only.
   Random draws are arguments: [u] is what random.rand(p) returned, [Q] what ortho_group.rvs /
   unitary_group.rvs returned, [Z] what random.randn returned.  Everything the code does with
   the draws is modelled, in exact arithmetic. *)
From Coq Require Import Reals.
From mathcomp Require Import all_ssreflect all_algebra.
From mathcomp Require Import complex.
From Verif Require Import RealsMC Star StarInst Model_featurearray Model_linalg Model_covariance.
Set Implicit Arguments.
Unset Strict Implicit.
Unset Printing Implicit Defensive.
Local Open Scope ring_scope.
Import GRing.Theory Num.Theory Order.TTheory.

(* 2-D arrays by dtype: float64, complex128, or any other dtype (whose entries do not matter,
   the functions below reject it) *)
Inductive array2 m n :=
  | Float64 (A : 'M[real_sf]_(m, n))
  | Complex128 (A : 'M[complex_sf]_(m, n))
  | OtherDtype.
Arguments OtherDtype {m n}.

Section Field.
Variable K : starField.

(* scipy 1.7.3 (pinned in /repo/requirements.txt): ortho_group.rvs(dim) and unitary_group.rvs(dim)
   raise ValueError unless dim > 1; otherwise the drawn matrix *)
Definition group_rvs p (Q : 'M[K]_p) : res 'M[K]_p := if (p <= 1)%N then Err ValueErr else Ok Q.

(* the slice Q[:, :k], which has min(k, p) columns *)
Definition cols p k (Q : 'M[K]_p) : 'M[K]_(p, minn k p) :=
  \matrix_(i, j) Q i (widen_ord (geq_minr k p) j).

(* generation_data.py:68-73 generate_stiefel, 76-81 generate_complex_stiefel.  When k >= p the
   result is all of Q, which is the slice of width min(k, p) = p. *)
Definition generate_stiefel p k (Q : 'M[K]_p) : res 'M[K]_(p, minn k p) :=
  fmapr (@cols p k) (group_rvs Q).

(* x ** a on a float64 x >= 0 and a > 0 *)
Definition fpow (x a : R) : R := if x == 0 then 0 else Rpower.Rpower x a.

(* array / float64: dividing by 0 gives an array of nan/inf (and a warning): None *)
Definition fdivmx m n (A : 'M[K]_(m, n)) (d : R) : option 'M[K]_(m, n) :=
  if d == 0 then None else Some (@ofR K d^-1 *: A).

(* generation_data.py:33-34, 49-50: the unit_det branch *)
Definition normalise p (sigma : 'M[K]_p) (unit_det : bool) : option 'M[K]_p :=
  if unit_det then fdivmx sigma (fpow (@toR K (\det sigma)) (p%:R^-1)) else Some sigma.

(* Q @ np.diag(d) @ Q^H *)
Definition assemble p (d : 'rV[R]_p) (Q : 'M[K]_p) : 'M[K]_p :=
  Q *m diag_mx (map_mx (@ofR K) d) *m (map_mx (@cj K) Q)^T.
End Field.

(* generation_data.py:23-36 (Q.T is the adjoint of a float array) *)
Definition generate_covariance p (u : 'rV[R]_p) (Q : 'M[real_sf]_p) (unit_det : bool)
    : res (option 'M[real_sf]_p) :=
  bindr (generate_stiefel p Q) (fun Q =>
    let Q := castmx (erefl p, minnn p) Q in
    Ok (normalise (assemble (map_mx (fun x => x ^+ 2) u) Q) unit_det)).

(* generation_data.py:39-52 *)
Definition generate_complex_covariance p (u : 'rV[R]_p) (Q : 'M[complex_sf]_p) (unit_det : bool)
    : res (option 'M[complex_sf]_p) :=
  bindr (generate_stiefel p Q) (fun Q =>
    let Q := castmx (erefl p, minnn p) Q in
    Ok (normalise (assemble (map_mx (fun x => 1 + x) u) Q) unit_det)).

(* generation_data.py:55-57: the (shape, scale) handed to random.gamma *)
Definition gamma_texture_params (nu : R) : R * R := (nu, 1 / nu).

(* generation_data.py:60-65: the (scale, s) handed to lognorm.rvs *)
Definition lognormal_texture_params (variance : R) : R * R :=
  let s := R_sqrt.sqrt variance in
  let mu := - (s ^+ 2) / 2%:R in
  (Rtrigo_def.exp mu, s).

(* generation_data.py:88-91 sample_complex_standard_normal_distribution: A and B are the two
   arrays returned by random.randn(p, N) *)
Definition sample_complex_standard_normal p N (A B : 'M[real_sf]_(p, N)) : 'M[complex_sf]_(p, N) :=
  (@ofR complex_sf (1 / R_sqrt.sqrt 2%:R))
    *: \matrix_(i, j) ((A i j)%:C%C + 'i%C * (B i j)%:C%C : C).

(* np.sqrt(tau).reshape((1, -1)) * X for tau of shape (N, 1) *)
Definition texture (K : starField) p N (tau : 'cV[R]_N) (X : 'M[K]_(p, N)) : 'M[K]_(p, N) :=
  \matrix_(i, j) (@ofR K (R_sqrt.sqrt (tau j 0)) * X i j).

Section Samplers.
Variables (eighR : eigsolver real_sf) (eighC : eigsolver complex_sf).

(* generation_data.py:94-99; Z is what sample_standard_normal_distribution(p, N), lines 84-85,
   returned *)
Definition sample_normal_distribution p N (cov : array2 p p) (Z : 'M[real_sf]_(p, N))
    : res 'M[real_sf]_(p, N) :=
  if cov is Float64 cov then Ok (sqrtm eighR cov *m Z) else Err AssertionErr.

(* generation_data.py:102-107 *)
Definition sample_complex_normal_distribution p N (cov : array2 p p) (A B : 'M[real_sf]_(p, N))
    : res 'M[complex_sf]_(p, N) :=
  if cov is Complex128 cov then Ok (sqrtm eighC cov *m sample_complex_standard_normal A B)
  else Err AssertionErr.

(* generation_data.py:110-115 *)
Definition sample_compound_distribution p N (tau : 'cV[R]_N) (cov : array2 p p)
    (Z : 'M[real_sf]_(p, N)) : res 'M[real_sf]_(p, N) :=
  if cov is Float64 _ then fmapr (texture tau) (sample_normal_distribution cov Z)
  else Err AssertionErr.

(* generation_data.py:118-123 *)
Definition sample_complex_compound_distribution p N (tau : 'cV[R]_N) (cov : array2 p p)
    (A B : 'M[real_sf]_(p, N)) : res 'M[complex_sf]_(p, N) :=
  if cov is Complex128 _ then fmapr (texture tau) (sample_complex_normal_distribution cov A B)
  else Err AssertionErr.

(* generation_data.py:126-133 *)
Definition sample_tau_UUH_distribution p k N (tau : 'cV[R]_N) (U : array2 p k)
    (Zk : 'M[real_sf]_(k, N)) (Zp : 'M[real_sf]_(p, N)) : res 'M[real_sf]_(p, N) :=
  if U is Float64 U then
    bindr (sample_normal_distribution (Float64 1%:M) Zk) (fun cn_k =>
    bindr (sample_normal_distribution (Float64 1%:M) Zp) (fun cn_p =>
    Ok (texture tau (U *m cn_k) + cn_p)))
  else Err AssertionErr.

(* generation_data.py:136-145 *)
Definition sample_complex_tau_UUH_distribution p k N (tau : 'cV[R]_N) (U : array2 p k)
    (Ak Bk : 'M[real_sf]_(k, N)) (Ap Bp : 'M[real_sf]_(p, N)) : res 'M[complex_sf]_(p, N) :=
  if U is Complex128 U then
    bindr (sample_complex_normal_distribution (Complex128 1%:M) Ak Bk) (fun cn_k =>
    bindr (sample_complex_normal_distribution (Complex128 1%:M) Ap Bp) (fun cn_p =>
    Ok (texture tau (U *m cn_k) + cn_p)))
  else Err AssertionErr.
End Samplers.
