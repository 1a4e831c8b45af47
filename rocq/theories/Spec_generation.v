(* What "expectation" and "covariance" mean in the statements about the samplers.  A law is any
   linear functional commuting with conjugation on a space of integrable K-valued functions of the random outcome: this
   covers Lebesgue integrals against a probability measure as well as averages over a sample. *)
From Coq Require Import Reals.
From mathcomp Require Import all_ssreflect all_algebra.
From Verif Require Import RealsMC Star.
Set Implicit Arguments.
Unset Strict Implicit.
Unset Printing Implicit Defensive.
Local Open Scope ring_scope.
Import GRing.Theory Num.Theory Order.TTheory.

Record law (K : starField) (Om : Type) := Law {
  integrable : (Om -> K) -> Prop;
  expect : (Om -> K) -> K;
  integrable_ext : forall f g, f =1 g -> integrable f -> integrable g;
  expect_ext : forall f g, f =1 g -> expect f = expect g;
  integrable0 : integrable (fun=> 0);
  integrable_lin : forall a f g, integrable f -> integrable g -> integrable (fun o => a * f o + g o);
  expect0 : expect (fun=> 0) = 0;
  expect_lin : forall a f g, integrable f -> integrable g ->
    expect (fun o => a * f o + g o) = a * expect f + expect g;
  expect_cj : forall f, integrable f ->
    integrable (fun o => cj K (f o)) /\ expect (fun o => cj K (f o)) = cj K (expect f) }.

(* E[f] exists and is v *)
Definition E_is K Om (L : law K Om) (f : Om -> K) (v : K) := integrable L f /\ expect L f = v.

(* E[x y^H] = G for random vectors x, y *)
Definition cross_is K Om (L : law K Om) m n (x : Om -> 'cV[K]_m) (y : Om -> 'cV[K]_n) (G : 'M[K]_(m, n)) :=
  forall i k, E_is L (fun o => x o i 0 * cj K (y o k 0)) (G i k).

(* E[x] = v *)
Definition vmean_is K Om (L : law K Om) m (x : Om -> 'cV[K]_m) (v : 'cV[K]_m) :=
  forall i, E_is L (fun o => x o i 0) (v i 0).

(* The columns of a random p x N array X are centred, uncorrelated with each other, and column j has
   second-moment matrix G j *)
Definition columns_are K Om (L : law K Om) p N (X : Om -> 'M[K]_(p, N)) (G : 'I_N -> 'M[K]_p) :=
  (forall j, vmean_is L (fun o => col j (X o)) 0) /\
  (forall i j, cross_is L (fun o => col i (X o)) (fun o => col j (X o)) (if i == j then G j else 0)).

(* X and Y are uncorrelated *)
Definition uncorrelated K Om (L : law K Om) p q N (X : Om -> 'M[K]_(p, N)) (Y : Om -> 'M[K]_(q, N)) :=
  forall i j, cross_is L (fun o => col i (X o)) (fun o => col j (Y o)) 0.
