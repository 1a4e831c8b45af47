(* The linearised estimating equation: C124. *)
From Coq Require Import Reals.
From mathcomp Require Import all_ssreflect all_algebra.
From Verif Require Import RealsMC Star Spec_covariance.
Set Implicit Arguments.
Unset Strict Implicit.
Unset Printing Implicit Defensive.
Local Open Scope ring_scope.

Section Deriv.
Variable K : starField.
Local Notation "A ^H" := (adj A) (at level 8, format "A ^H").
(* change of the squared distance x^H S^-1 x when x moves along u and S along D *)
Definition dmaha p (S : 'M[K]_p) (x u : 'cV[K]_p) (D : 'M[K]_p) : K :=
  (u^H *m invmx S *m x + x^H *m invmx S *m u - x^H *m invmx S *m D *m invmx S *m x) 0 0.
(* change of the mean of the outer products weighted by c / (a + squared distance) when the samples X move along U and S
   along D *)
Definition dupdate N p (c a : R) (X U : 'M[K]_(N, p)) (S D : 'M[K]_p) : 'M[K]_p :=
  \sum_i (@ofR K (c / (a + maha S (samp X i))) *: (samp U i *m (samp X i)^H + samp X i *m (samp U i)^H) -
          (@ofR K (c / (a + maha S (samp X i)) ^+ 2) * dmaha S (samp X i) (samp U i) D) *: (samp X i *m (samp X i)^H)).
(* D is the change of the estimate S when the samples X move along U *)
Definition student_change N p (df : R) (X : 'M[K]_(N, p)) S U D := herm D /\ D = dupdate ((df + p%:R) / N%:R) df X U S D.
Definition tyler_change N p (X : 'M[K]_(N, p)) S U D := [/\ herm D, \tr D = 0 & D = dupdate (p%:R / N%:R) 0 X U S D].
End Deriv.
