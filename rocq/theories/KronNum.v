(* Derivatives used for C58, in the notations of the standard library.  Nothing here models code. *)
From Coq Require Import Reals Ratan Lra.
From Coquelicot Require Import Coquelicot.
Local Open Scope R_scope.
Lemma d_ln1 (h : R) : is_derive (fun s => ln (1 + s * h)) 0 h.
Proof. auto_derive; [lra | field]. Qed.
Lemma d_frac (c h : R) : is_derive (fun s => c * / (1 + s * h)) 0 (- (c * h)).
Proof. auto_derive; [lra | field]. Qed.
Lemma d_scale (f : R -> R) (t a k : R) : is_derive f t a -> is_derive (fun s => k * f s) t (k * a).
Proof. intros hf; apply (is_derive_scal f t k a hf). Qed.
Lemma d_const (k t : R) : is_derive (fun _ : R => k) t 0.
Proof. apply (is_derive_const k). Qed.
(* f(s) = k ln (1 + q(s)/d) *)
Lemma d_lnq (q : R -> R) (q' k d : R) : 0 < d -> 0 <= q 0 -> is_derive q 0 q' ->
  is_derive (fun s => k * ln (1 + q s * / d)) 0 (k * / (d + q 0) * q').
Proof.
intros d0 q0 hq. assert (hd : 0 < / d) by (apply Rinv_0_lt_compat; assumption).
assert (h : 0 < 1 + q 0 * / d) by (assert (0 <= q 0 * / d) by (apply Rmult_le_pos; lra); lra).
replace (k * / (d + q 0) * q') with (k * (/ (d + q 0) * q')) by ring.
apply d_scale.
replace (/ (d + q 0) * q') with (q' * / d * / (1 + q 0 * / d)).
2: { field. split; [lra|]. intro E. assert (0 <= q 0) by assumption. lra. }
assert (h1 : is_derive (fun s => 1 + q s * / d) 0 (q' * / d)).
{ replace (q' * / d) with (0 + / d * q') by ring.
  apply (is_derive_ext (fun s => 1 + / d * q s)); [intros t; change (1 + / d * q t = 1 + q t * / d); ring|].
  apply (is_derive_plus (fun _ => 1) (fun s => / d * q s)); [apply d_const | apply d_scale; assumption]. }
apply (is_derive_comp ln (fun s => 1 + q s * / d) 0 (/ (1 + q 0 * / d)) (q' * / d)); [|exact h1].
auto_derive; [exact h | field; lra].
Qed.
(* the witnesses: one dimension *)
Lemma w_sign (k : R) : is_derive (fun s => (k + (ln (1 + s) + (1 * / 2 + 1) * ln (1 + 2 * (/ 2 * / 2 * / (1 + s)) * / 1))) +
  (k + (ln (1 + s) + (1 * / 2 + 1) * ln (1 + 2 * (3 * 3 * / (1 + s)) * / 1)))) 0 (3 * / 38).
Proof. auto_derive; [repeat split; lra | field]. Qed.
Lemma w_loc (k : R) : is_derive (fun s => k + (ln (1 + s) + (2 * / 2 + 1) * ln (1 + 2 * (0 * / (1 + s)) * / 2))) 0 1.
Proof. auto_derive; [repeat split; lra | field]. Qed.
Lemma w_cplx (k : R) : is_derive (fun s => k + (ln (1 + s) + (2 * / 2 + 1) * ln (1 + 2 * (1 * / (1 + s)) * / 2))) 0 0.
Proof. auto_derive; [repeat split; lra | field]. Qed.
Lemma PI_gt1 : 1 < PI. Proof. assert (t := PI2_1). assert (u := PI_RGT_0). lra. Qed.
