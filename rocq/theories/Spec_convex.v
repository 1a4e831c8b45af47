(* Convex functions of a real number, for C104.  Nothing here models code. *)
From Coq Require Import Reals.
From mathcomp Require Import all_ssreflect all_algebra.
From Verif Require Import RealsMC.
Set Implicit Arguments.
Unset Strict Implicit.
Unset Printing Implicit Defensive.
Local Open Scope ring_scope.
Import GRing.Theory Num.Theory Order.TTheory.

Definition convexR (f : R -> R) := forall th s t : R, 0 <= th <= 1 -> f (th * s + (1 - th) * t) <= th * f s + (1 - th) * f t.
