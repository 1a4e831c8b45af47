(* Facts about real numbers: the constants of Huber's estimators for q near 1.  Nothing here models code. *)
From Coq Require Import Reals Lra Lia.
From Coquelicot Require Import Coquelicot.
From Verif Require Import Spec_chi2 HuberNum HuberNum2 HuberNum3.
Local Open Scope R_scope.

Lemma J_tail k s A : 0 <= s <= A -> s ^ 2 * (J k A - J k s) <= J (S (S k)) A - J (S (S k)) s.
Proof.
intros h; rewrite (J_chasles k s A), (J_chasles (S (S k)) s A).
enough (E : s ^ 2 * RInt (f k) s A <= RInt (f (S (S k))) s A) by (set (u := RInt (f k) s A) in *; set (v := RInt (f (S (S k))) s A) in *; lra).
change (scal (s ^ 2) (RInt (f k) s A) <= RInt (f (S (S k))) s A).
rewrite <- (RInt_scal (f k) s A (s ^ 2)) by apply f_int.
apply RInt_le; [lra | apply (ex_RInt_scal (f k)), f_int | apply f_int |].
intros t ht; change (s ^ 2 * f k t <= f (S (S k)) t); replace (f (S (S k)) t) with (t ^ 2 * f k t) by (unfold f; simpl; ring).
apply Rmult_le_compat_r; [apply f_nonneg; lra | apply pow_incr; lra].
Qed.
Lemma tail_limit k (M M2 : R) s : is_lim (J k) p_infty M -> is_lim (J (S (S k))) p_infty M2 -> 0 <= s -> s ^ 2 * (M - J k s) <= M2 - J (S (S k)) s.
Proof.
intros h h2 s0; change (Rbar_le (Finite (s ^ 2 * (M - J k s))) (Finite (M2 - J (S (S k)) s))).
apply (is_lim_le_loc (fun A => s ^ 2 * (J k A - J k s)) (fun A => J (S (S k)) A - J (S (S k)) s) p_infty).
- exists s; intros A hA; apply J_tail; lra.
- apply (is_lim_scal_l (fun A => J k A - J k s) (s ^ 2) p_infty (Finite (M - J k s))).
  apply (is_lim_minus' (J k) (fun _ => J k s)); [assumption | apply is_lim_const].
- apply (is_lim_minus' (J (S (S k))) (fun _ => J (S (S k)) s)); [assumption | apply is_lim_const].
Qed.
Lemma prob_tail d x q F : (0 < d)%nat -> 0 < x -> chi2_probability d x q -> chi2_probability (d + 2) x F -> x * (1 - q) <= INR d * (1 - F).
Proof.
intros d0 x0 [M hM ->] [M2 hM2 ->]; unfold mass in *.
replace (d + 2)%nat with (S (S d)) in * by lia.
assert (e : exists k, d = S k) by (exists (d - 1)%nat; lia); destruct e as [k ->]; clear d0.
assert (h1 : is_lim (J k) p_infty M) by (replace k with (S k - 1)%nat by lia; exact hM).
assert (h2 : is_lim (J (S (S k))) p_infty M2) by (replace (S (S k)) with (S (S (S k)) - 1)%nat by lia; exact hM2).
clear hM hM2; rename h1 into hM; rename h2 into hM2.
change (x * (1 - J (S k - 1) (sqrt x) / M) <= INR (S k) * (1 - J (S (S (S k)) - 1) (sqrt x) / M2)).
replace (S k - 1)%nat with k by lia; replace (S (S (S k)) - 1)%nat with (S (S k)) by lia.
assert (E : M2 = INR (S k) * M) by (apply (M_rec k); assumption).
pose proof (M_pos k M hM) as m0; pose proof (M_pos _ M2 hM2) as m2; pose proof (tail_limit k M M2 (sqrt x) hM hM2 (sqrt_pos x)) as t.
rewrite pow2_sqrt in t by lra.
apply (Rmult_le_reg_r M); [assumption|].
replace (x * (1 - J k (sqrt x) / M) * M) with (x * (M - J k (sqrt x))) by (field; lra).
apply Rle_trans with (1 := t); right; replace (INR (S k) * (1 - J (S (S k)) (sqrt x) / M2) * M) with (INR (S k) * M * (1 - J (S (S k)) (sqrt x) / M2)) by ring.
rewrite <- E; field; lra.
Qed.
(* for all levels near 1 *)
Lemma top_quantile d d2 C eps : 0 < C -> 0 < eps -> exists2 q0, 0 < q0 < 1 & forall q x F, q0 <= q -> 0 < x -> chi2_probability d x q ->
  chi2_probability d2 x F -> C <= x * F /\ 1 - eps <= F.
Proof.
intros C0 e0; destruct (quantile_exists d2 (Rmax (1 / 2) (1 - eps))) as [z z0 hz].
  split; [apply Rlt_le_trans with (1 / 2); [lra | apply Rmax_l] | apply Rmax_lub_lt; lra].
pose proof (Rmax_l (1 / 2) (1 - eps)); pose proof (Rmax_r (1 / 2) (1 - eps)).
set (y := Rmax z (2 * C)); assert (y1 : z <= y) by apply Rmax_l; assert (y2 : 2 * C <= y) by apply Rmax_r.
destruct (prob_exists d y) as [q0 hq]; pose proof (prob_gt0 _ _ _ hq ltac:(lra)) as q00.
exists q0; [assumption|]; intros q x F le x0 hx hF.
assert (yx : y <= x).
  apply Rnot_lt_le; intros l; assert (q < q0); [|lra]; apply (prob_lt d x y); [lra | assumption | assumption].
assert (le2 : Rmax (1 / 2) (1 - eps) <= F) by (apply (prob_mono d2 z x); [lra | assumption | assumption]).
split; [|lra]; replace C with (2 * C * (1 / 2)) by lra; apply Rmult_le_compat; lra.
Qed.
Lemma top_complex p eps C : (0 < p)%nat -> 0 < C -> 0 < eps -> exists2 q0, 0 < q0 < 1 & forall q x F, q0 <= q < 1 -> 0 < x -> chi2_probability (2 * p) x q ->
  chi2_probability (2 * p + 2) x F -> C <= x * F /\ Rabs (F + x * (1 - q) / INR (2 * p) - 1) <= eps.
Proof.
intros p0 C0 e0; destruct (top_quantile (2 * p) (2 * p + 2) C eps C0 e0) as [q0 h0 h]; exists q0; [assumption|]; intros q x F hq x0 hx hF.
destruct (h q x F) as [h1 h2]; [lra | assumption | assumption | assumption |]; split; [assumption|].
pose proof (prob_tail (2 * p) x q F ltac:(lia) x0 hx hF) as t; assert (P : 0 < INR (2 * p)) by (apply lt_0_INR; lia).
assert (t2 : x * (1 - q) / INR (2 * p) <= 1 - F) by (apply (Rmult_le_reg_r (INR (2 * p))); [assumption|]; unfold Rdiv; rewrite Rmult_assoc, Rinv_l by lra; lra).
assert (t3 : 0 <= x * (1 - q) / INR (2 * p)) by (apply Rmult_le_pos; [apply Rmult_le_pos; lra | left; apply Rinv_0_lt_compat; assumption]).
apply Rabs_le_between; lra.
Qed.
Lemma top_real p eps C : (0 < p)%nat -> 0 < C -> 0 < eps -> exists2 q0, 0 < q0 < 1 & forall q x F, q0 <= q < 1 -> 0 < x -> chi2_probability p x q ->
  chi2_probability (p + 1) x F -> C <= x * F /\ Rabs (F + x * (1 - q) / INR p - 1) <= eps.
Proof.
intros p0 C0 e0; destruct (top_quantile p (p + 2) C eps C0 e0) as [q0 h0 h]; exists q0; [assumption|]; intros q x F hq x0 hx hF.
destruct (prob_exists (p + 2) x) as [G hG]; destruct (h q x G) as [h1 h2]; [lra | assumption | assumption | assumption |].
assert (GF : G < F) by (apply (prob_decr (p + 1) x); [lia | assumption | assumption | replace (p + 1 + 1)%nat with (p + 2)%nat by lia; assumption]).
pose proof (prob_gt0 _ _ _ hF x0) as F1.
split; [apply Rle_trans with (1 := h1); apply Rmult_le_compat_l; lra|].
pose proof (prob_tail p x q G p0 x0 hx hG) as t; assert (P : 0 < INR p) by (apply lt_0_INR; lia).
assert (t2 : x * (1 - q) / INR p <= 1 - G) by (apply (Rmult_le_reg_r (INR p)); [assumption|]; unfold Rdiv; rewrite Rmult_assoc, Rinv_l by lra; lra).
assert (t3 : 0 <= x * (1 - q) / INR p) by (apply Rmult_le_pos; [apply Rmult_le_pos; lra | left; apply Rinv_0_lt_compat; assumption]).
apply Rabs_le_between; lra.
Qed.
