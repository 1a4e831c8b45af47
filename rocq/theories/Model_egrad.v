(* Model of _generate_Tyler_egrad, covariance.py:296-321, and of the way tyler_shape_matrix_naturalgradient passes it to
   pymanopt.  Definitions only.  autograd.grad and pymanopt's solver are oracles. *)
From Coq Require Import Reals String.
From mathcomp Require Import all_ssreflect all_algebra.
From Verif Require Import RealsMC Star StarInst Model_featurearray NpArray Model_linalg Model_covariance Model_natgrad.
Set Implicit Arguments.
Unset Strict Implicit.
Unset Printing Implicit Defensive.
Local Open Scope ring_scope.
Import GRing.Theory Num.Theory Order.TTheory.

(* autograd.grad(cost, argnum=[0])(Q)[0]: an array of the shape of Q *)
Definition autograd_grad := forall p : nat, ('M[real_sf]_p -> res R) -> 'M[real_sf]_p -> 'M[real_sf]_p.
(* solver.solve(problem, x=init) of a problem with a cost and a Euclidean gradient *)
Definition gsolver := forall p : nat, ('M[real_sf]_p -> res R) -> ('M[real_sf]_p -> 'M[real_sf]_p) -> option arr -> res 'M[real_sf]_p.

(* covariance.py:317-319: def egrad(Q): res = autograd.grad(cost, argnum=[0])(Q); return res[0] *)
Definition _generate_Tyler_egrad (grad : autograd_grad) p (cost : 'M[real_sf]_p -> res R) : 'M[real_sf]_p -> 'M[real_sf]_p :=
  fun Q => grad p cost Q.
(* covariance.py:362-369: problem = Problem(manifold, cost, egrad); sigma = solver.solve(problem, x=init); as the oracle
   of Model_natgrad.v *)
Definition solve_with (grad : autograd_grad) (solve : gsolver) : solver :=
  fun p cost init => solve p cost (_generate_Tyler_egrad grad cost) init.
(* pymanopt.manifolds.psd.SymmetricPositiveDefinite.egrad2rgrad(x, u): multiprod(multiprod(x, multisym(u)), x) *)
Definition spd_egrad2rgrad p (x u : 'M[real_sf]_p) : 'M[real_sf]_p := x *m (2%:R^-1 *: (u + u^T)) *m x.
