(* Derivatives of finite sums of exponentials.  Nothing here models code. *)
From Coq Require Import Reals.
From Coquelicot Require Import Coquelicot.
Local Open Scope R_scope.
Lemma d_exp0 (r t c : R) : is_derive (fun t => exp (t * r) * c) t (r * exp (t * r) * c).
Proof. auto_derive; [exact I | ring]. Qed.
Lemma d_exp1 (r t c : R) : is_derive (fun t => r * exp (t * r) * c) t (r * (r * exp (t * r)) * c).
Proof. auto_derive; [exact I | ring]. Qed.
Lemma d_spv0 (x u t : R) : 0 < x -> is_derive (fun t => x * exp (/ x * (t * u))) t (u * exp (/ x * (t * u))).
Proof. intros h; auto_derive; [exact I | field; apply Rgt_not_eq; exact h]. Qed.
Lemma d_spv1 (x u t : R) : 0 < x -> is_derive (fun t => u * exp (/ x * (t * u))) t (u * (/ x * (u * exp (/ x * (t * u))))).
Proof. intros h; auto_derive; [exact I | field; apply Rgt_not_eq; exact h]. Qed.
Lemma d_add (f g : R -> R) (t a b : R) : is_derive f t a -> is_derive g t b -> is_derive (fun s => f s + g s) t (a + b).
Proof. intros hf hg; apply (is_derive_plus f g t a b); assumption. Qed.
Lemma d_zero (t : R) : is_derive (fun _ : R => 0) t 0.
Proof. apply (is_derive_const 0). Qed.
