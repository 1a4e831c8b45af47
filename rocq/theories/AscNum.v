(* Facts about derivatives used for C116, in the notations of the standard library.  Nothing here models code. *)
From Coq Require Import Reals Lra.
From Coquelicot Require Import Coquelicot.
Local Open Scope R_scope.
Lemma increases_at (f : R -> R) (d : R) : is_derive f 0 d -> 0 < d ->
  exists dl, 0 < dl /\ forall h, 0 < h < dl -> f 0 < f h /\ f (- h) < f 0.
Proof.
  intros H d0; apply is_derive_Reals in H; destruct (H d d0) as [dl Hd].
  exists dl; split; [apply cond_pos|]; intros h [h0 h1]; split.
  - assert (A := Hd h ltac:(lra) ltac:(rewrite Rabs_pos_eq; lra)); rewrite Rplus_0_l in A.
    apply Rabs_def2 in A; assert (B : 0 < (f h - f 0) / h) by lra.
    assert (C : 0 < (f h - f 0) / h * h) by (apply Rmult_lt_0_compat; lra).
    replace ((f h - f 0) / h * h) with (f h - f 0) in C by (field; lra); lra.
  - assert (A := Hd (- h) ltac:(lra) ltac:(rewrite Rabs_Ropp, Rabs_pos_eq; lra)); rewrite Rplus_0_l in A.
    apply Rabs_def2 in A; assert (B : 0 < (f (- h) - f 0) / - h) by lra.
    assert (C : 0 < (f (- h) - f 0) / - h * h) by (apply Rmult_lt_0_compat; lra).
    replace ((f (- h) - f 0) / - h * h) with (f 0 - f (- h)) in C by (field; lra); lra.
Qed.
Lemma d_lnphi_std : is_derive (fun u => ln (1 + u + / 2 * (u * u)) + 1) 0 1.
Proof. auto_derive; [lra|field]. Qed.
