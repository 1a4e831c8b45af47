(* Real-number facts for Props_gconvex.v, in the notations of the standard library. *)
From Coq Require Import Reals Lra.
Local Open Scope R_scope.

Lemma exp_convex (th a b : R) : 0 <= th -> th <= 1 ->
  exp (th * a + (1 - th) * b) <= th * exp a + (1 - th) * exp b.
Proof.
intros h0 h1; set (m := th * a + (1 - th) * b).
assert (A : exp m * (1 + (a - m)) <= exp a).
{ replace a with (m + (a - m)) at 2 by ring; rewrite exp_plus.
  apply Rmult_le_compat_l; [left; apply exp_pos | apply exp_ineq1_le]. }
assert (B : exp m * (1 + (b - m)) <= exp b).
{ replace b with (m + (b - m)) at 2 by ring; rewrite exp_plus.
  apply Rmult_le_compat_l; [left; apply exp_pos | apply exp_ineq1_le]. }
apply Rle_trans with (th * (exp m * (1 + (a - m))) + (1 - th) * (exp m * (1 + (b - m)))).
- unfold m; right; ring.
- apply Rplus_le_compat; apply Rmult_le_compat_l; lra.
Qed.
(* one term of the proof of Hoelder's inequality *)
Lemma holder_term (th a b p q : R) : 0 <= th -> th <= 1 -> 
  exp (th * a + (1 - th) * b) <= exp (th * p + (1 - th) * q) * (th * (exp a / exp p) + (1 - th) * (exp b / exp q)).
Proof.
intros h0 h1; replace (th * a + (1 - th) * b) with ((th * p + (1 - th) * q) + (th * (a - p) + (1 - th) * (b - q))) by ring.
rewrite exp_plus; apply Rmult_le_compat_l; [left; apply exp_pos|].
assert (e : forall u v, exp u / exp v = exp (u - v)).
{ intros u v; unfold Rminus, Rdiv; rewrite exp_plus, exp_Ropp; reflexivity. }
rewrite !e; apply exp_convex; assumption.
Qed.
