(* Vocabulary of the theorems on Kronecker structured covariances, independent of the model. *)
From Coq Require Import Reals.
From mathcomp Require Import all_ssreflect all_algebra.
From mathcomp Require Import mxtens.
From Verif Require Import RealsMC Star Spec_covariance.
Set Implicit Arguments.
Unset Strict Implicit.
Unset Printing Implicit Defensive.
Local Open Scope ring_scope.
Import GRing.Theory Num.Theory Order.TTheory.

Section Kron.
Variable K : starField.
Variables (N a b : nat) (X : 'M[K]_(N, a * b)).
(* Tyler's cost, N log det S + ab sum log x^H S^-1 x, of S = kron(P, B) *)
Definition kron_cost (P : 'M[K]_a) (B : 'M[K]_b) : R :=
  (a * b)%:R * (\sum_i ln (maha (P *t B) (samp X i))) + N%:R * ln (@toR K (\det (P *t B))).
Definition kron_minimiser (P : 'M[K]_a) (B : 'M[K]_b) :=
  [/\ pd P, pd B & forall P' B', pd P' -> pd B' -> kron_cost P B <= kron_cost P' B'].
(* the only one up to a positive factor for each matrix *)
Definition kron_unique (P : 'M[K]_a) (B : 'M[K]_b) := forall P' B', kron_minimiser P' B' ->
  (exists2 c : R, 0 < c & P' = @ofR K c *: P) /\ (exists2 c : R, 0 < c & B' = @ofR K c *: B).
(* coordinates of sample i in the basis of the products of the columns of G and H *)
Definition kcoord (G : 'M[K]_a) (H : 'M[K]_b) i (j : 'I_a) (k : 'I_b) : K := (invmx (G *t H) *m samp X i) (mxtens_index (j, k)) 0.
(* Whatever the bases of the two spaces and the weights given to their vectors (of sum 0, not all 0), one can choose for
   each sample a product of basis vectors on which it has a coordinate, so that the sum of the weights is negative. *)
Definition kron_stable := forall (G : 'M[K]_a) (H : 'M[K]_b) (al : 'I_a -> R) (be : 'I_b -> R), G \in unitmx -> H \in unitmx ->
  \sum_j al j = 0 -> \sum_k be k = 0 -> (exists j, al j != 0) \/ (exists k, be k != 0) ->
  exists2 c : 'I_N -> 'I_a * 'I_b, forall i, kcoord G H i (c i).1 (c i).2 != 0 & \sum_i (al (c i).1 + be (c i).2) < 0.
End Kron.
