(* Vocabulary of the theorems on the solutions of the estimating equations, independent of the model. *)
From Coq Require Import Reals.
From mathcomp Require Import all_ssreflect all_algebra.
From Verif Require Import RealsMC Star Spec_covariance.
Set Implicit Arguments.
Unset Strict Implicit.
Unset Printing Implicit Defensive.
Local Open Scope ring_scope.
Import GRing.Theory Num.Theory Order.TTheory.

Section Equations.
Variable K : starField.
(* the space is not the direct sum of two proper subspaces whose union contains all the samples: a projection P (along
   its kernel, onto its image) that fixes or kills each sample is 0 or the identity *)
Definition irreducible N p (X : 'M[K]_(N, p)) := forall P : 'M[K]_p, P *m P = P ->
  (forall i, P *m samp X i = 0 \/ P *m samp X i = samp X i) -> P = 0 \/ P = 1%:M.
(* S = p/N sum x x^H / (x^H S^-1 x) *)
Definition tyler_solution N p (X : 'M[K]_(N, p)) (S : 'M[K]_p) :=
  pd S /\ S = wsum (fun i => p%:R / N%:R / maha S (samp X i)) X.
(* S = 1/N sum (a + p) x x^H / (a + x^H S^-1 x) *)
Definition student_solution (a : R) N p (X : 'M[K]_(N, p)) (S : 'M[K]_p) :=
  pd S /\ S = wsum (fun i => (a + p%:R) / N%:R / (a + maha S (samp X i))) X.
(* the costs whose stationary points these are *)
Definition tyler_objective N p (X : 'M[K]_(N, p)) (S : 'M[K]_p) : R :=
  p%:R * (\sum_i ln (maha S (samp X i))) + N%:R * ln (@toR K (\det S)).
Definition student_objective (a : R) N p (X : 'M[K]_(N, p)) (S : 'M[K]_p) : R :=
  (a + p%:R) * (\sum_i ln (a + maha S (samp X i))) + N%:R * ln (@toR K (\det S)).
(* equal up to a positive factor *)
Definition proportional p (S T : 'M[K]_p) := exists2 c : R, 0 < c & T = @ofR K c *: S.
End Equations.
