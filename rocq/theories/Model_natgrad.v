(* Model of Tyler's estimators by natural gradient, covariance.py:274-371 and 878-943.  Definitions only.
   pymanopt's SteepestDescent().solve(Problem(SymmetricPositiveDefinite(p), cost, egrad), x=init) is an oracle which
   gets the cost and the initial point (the Euclidean gradient is that of the cost, computed by autograd).  The arguments
   are two-dimensional floating point arrays, whose entries are exact reals or complex numbers here; no sample is
   zero (NumPy would make its row of Y nan).  Logging is not modelled. *)
From Coq Require Import Reals String.
From mathcomp Require Import all_ssreflect all_algebra.
From mathcomp Require Import complex.
From Verif Require Import RealsMC Star StarInst Model_featurearray NpArray Model_linalg Model_covariance.
Set Implicit Arguments.
Unset Strict Implicit.
Unset Printing Implicit Defensive.
Local Open Scope ring_scope.
Import GRing.Theory Num.Theory Order.TTheory.

(* solver.solve(problem, x=init), the problem being on p x p matrices; init is any array *)
Definition solver := forall p : nat, ('M[real_sf]_p -> res R) -> option arr -> res 'M[real_sf]_p.

Section Oracles.
Variables (eigh : eigsolver real_sf) (solve : solver).
(* covariance.py:356-357: norm_X = la.norm(X, axis=1); Y = X / np.tile(norm_X.reshape(n, 1), [1, p]) *)
Definition normalise_rows N p (X : 'M[real_sf]_(N, p)) : 'M[real_sf]_(N, p) :=
  \matrix_(i, j) (X i j / R_sqrt.sqrt (\sum_k X i k ^+ 2)).
(* covariance.py:274-294 *)
Definition _generate_realTyler_cost_function N p (Y : 'M[real_sf]_(N, p)) : 'M[real_sf]_p -> res R :=
  fun Q => Tyler_cost_real eigh Y Q.
(* covariance.py:324-371 *)
Definition tyler_shape_matrix_naturalgradient N p (X : 'M[real_sf]_(N, p.+1)) (init : option arr) (normalisation : string)
    : res ('M[real_sf]_p.+1 * R * option nat) :=
  let Y := normalise_rows X in
  let cost := _generate_realTyler_cost_function Y in
  bindr (solve cost init) (fun sigma =>
  bindr (cost sigma) (fun c => Ok (normalised normalisation sigma, - c, None))).
(* mappings.py:18-45 arraytoreal of a complex matrix: np.hstack([np.real(a), np.imag(a)]) *)
Definition mx_toreal N p (X : 'M[complex_sf]_(N, p)) : 'M[real_sf]_(N, p + p) :=
  row_mx (map_mx (@complex.Re R) X) (map_mx (@complex.Im R) X).
(* mappings.py:175-206 covariancetocomplex of a real matrix of even size: 2 * a[:p, :p] + 2j*a[p:, :p] *)
Definition mx_tocomplex p (a : 'M[real_sf]_(p + p)) : 'M[complex_sf]_p :=
  \matrix_(i, j) (2%:R * (Complex (ulsubmx a i j) 0 : C) + (Complex 0 2%:R : C) * (Complex (dlsubmx a i j) 0 : C)).
(* covariance.py:909-919; the size of the problem is p.+1 + p.+1 *)
Definition complex_tyler_shape_matrix_naturalgradient N p (X : 'M[complex_sf]_(N, p.+1)) (init : option arr) (normalisation : string)
    : res ('M[complex_sf]_p.+1 * R * option nat) :=
  bindr (@tyler_shape_matrix_naturalgradient N (p + p.+1) (mx_toreal X) init "None") (fun r =>
  let: (Sigma, cost_value, _) := r in
  let Sigma := @mx_tocomplex p.+1 Sigma in
  let Sigma := 2%:R^-1 *: (Sigma + (map_mx (@cj complex_sf) Sigma)^T) in
  Ok (normalised normalisation Sigma, cost_value, None)).
End Oracles.
