(* Facts about real numbers: the tails of consecutive distributions.  Nothing here models code. *)
From Coq Require Import Reals Lra Lia.
From Coquelicot Require Import Coquelicot.
From Verif Require Import Spec_chi2 HuberNum HuberNum2 HuberNum3 HuberNum4.
Local Open Scope R_scope.

Lemma exp_mono x y : x <= y -> exp x <= exp y.
Proof. intros [ l | -> ]; [left; apply exp_increasing; assumption | right; reflexivity]. Qed.
Lemma J_step k s : 1 <= s -> f k s * exp (-2) / s <= J k (s + / s) - J k s.
Proof.
intros s1; assert (i0 : 0 < / s) by (apply Rinv_0_lt_compat; lra); assert (i1 : / s <= 1) by (rewrite <- Rinv_1; apply Rinv_le_contravar; lra).
assert (si : s * / s = 1) by (apply Rinv_r; lra).
rewrite (J_chasles k s (s + / s)); enough (E : f k s * exp (-2) / s <= RInt (f k) s (s + / s)) by (set (u := RInt (f k) s (s + / s)) in *; lra).
replace (f k s * exp (-2) / s) with (RInt (fun _ => f k s * exp (-2)) s (s + / s)).
  2: rewrite RInt_const; change ((s + / s - s) * (f k s * exp (-2)) = f k s * exp (-2) / s); field; lra.
apply RInt_le; [lra | apply ex_RInt_const | apply f_int |].
intros t ht; unfold f; rewrite Rmult_assoc, <- exp_plus; apply Rmult_le_compat; [apply pow_le; lra | left; apply exp_pos | apply pow_incr; lra |].
apply exp_mono.
assert (t * t <= (s + / s) * (s + / s)) by (apply Rmult_le_compat; lra).
assert (/ s * / s <= 1) by (replace 1 with (1 * 1) by ring; apply Rmult_le_compat; lra).
replace (s ^ 2) with (s * s) by ring; replace (t ^ 2) with (t * t) by ring.
replace ((s + / s) * (s + / s)) with (s * s + 2 * (s * / s) + / s * / s) in H by ring; rewrite si in H; lra.
Qed.
Section Tails.
Variables (k : nat) (M M1 M2 : R).
Hypotheses (h : is_lim (J k) p_infty M) (h1 : is_lim (J (S k)) p_infty M1) (h2 : is_lim (J (S (S k))) p_infty M2).
Lemma tail_step s : 1 <= s -> f k s * exp (-2) / s <= M - J k s.
Proof.
intros s1; assert (i0 : 0 < / s) by (apply Rinv_0_lt_compat; lra); apply Rle_trans with (1 := J_step k s s1).
pose proof (lim_ge k M (s + / s) h ltac:(lra)); lra.
Qed.
Lemma tail_rec s : M2 - J (S (S k)) s = INR (S k) * (M - J k s) + f (S k) s.
Proof. rewrite (M_rec k M M2 h h2), (J_rec k s); ring. Qed.
Lemma tail_next s A : 0 <= s <= A -> s * (J (S k) A - J (S k) s) <= J (S (S k)) A - J (S (S k)) s.
Proof.
intros hs; rewrite (J_chasles (S k) s A), (J_chasles (S (S k)) s A).
enough (E : s * RInt (f (S k)) s A <= RInt (f (S (S k))) s A) by (set (u := RInt (f (S k)) s A) in *; set (v := RInt (f (S (S k))) s A) in *; lra).
change (scal s (RInt (f (S k)) s A) <= RInt (f (S (S k))) s A).
rewrite <- (RInt_scal (f (S k)) s A s) by apply f_int.
apply RInt_le; [lra | apply (ex_RInt_scal (f (S k))), f_int | apply f_int |].
intros t ht; change (s * f (S k) t <= f (S (S k)) t); replace (f (S (S k)) t) with (t * f (S k) t) by (unfold f; simpl; ring).
apply Rmult_le_compat_r; [apply f_nonneg; lra | lra].
Qed.
Lemma tail_next_limit s : 0 <= s -> s * (M1 - J (S k) s) <= M2 - J (S (S k)) s.
Proof.
intros s0; change (Rbar_le (Finite (s * (M1 - J (S k) s))) (Finite (M2 - J (S (S k)) s))).
apply (is_lim_le_loc (fun A => s * (J (S k) A - J (S k) s)) (fun A => J (S (S k)) A - J (S (S k)) s) p_infty).
- exists s; intros A hA; apply tail_next; lra.
- apply (is_lim_scal_l (fun A => J (S k) A - J (S k) s) s p_infty (Finite (M1 - J (S k) s))).
  apply (is_lim_minus' (J (S k)) (fun _ => J (S k) s)); [assumption | apply is_lim_const].
- apply (is_lim_minus' (J (S (S k))) (fun _ => J (S (S k)) s)); [assumption | apply is_lim_const].
Qed.
Lemma tail_compare s : 1 <= s -> s * (M1 - J (S k) s) <= (INR (S k) + exp 2 * s ^ 2) * (M - J k s).
Proof.
intros s1; apply Rle_trans with (1 := tail_next_limit s ltac:(lra)); rewrite tail_rec, Rmult_plus_distr_r; apply Rplus_le_compat_l.
pose proof (tail_step s s1) as t; replace (f (S k) s) with (exp 2 * s ^ 2 * (f k s * exp (-2) / s)).
  apply Rmult_le_compat_l; [|assumption]; apply Rmult_le_pos; [left; apply exp_pos | apply pow_le; lra].
replace (exp 2 * s ^ 2 * (f k s * exp (-2) / s)) with (exp 2 * exp (-2) * (s * f k s)) by (field; lra).
rewrite <- exp_plus; replace (2 + -2) with 0 by ring; rewrite exp_0; unfold f; simpl; ring.
Qed.
Lemma tail_large : exists2 s0, 1 <= s0 & forall s, s0 <= s -> (M1 - J (S k) s) / M1 < s ^ 2 * (M - J k s) / (INR (S k) * M).
Proof.
pose proof (M_pos k M h) as m0; pose proof (M_pos _ M1 h1) as m1; assert (P : 0 < INR (S k)) by (apply lt_0_INR; lia); pose proof (exp_pos 2) as e0.
set (B := INR (S k) * M * (INR (S k) + exp 2) / M1).
exists (Rmax 1 (B + 1)); [apply Rmax_l|]; intros s hs.
assert (s1 : 1 <= s) by (pose proof (Rmax_l 1 (B + 1)); lra); assert (sB : B < s) by (pose proof (Rmax_r 1 (B + 1)); lra).
pose proof (tail_compare s s1) as t; pose proof (lim_gt k M s h ltac:(lra)) as g.
assert (s2 : 1 <= s ^ 2) by (replace 1 with (1 ^ 2) by ring; apply pow_incr; lra).
assert (t2 : (INR (S k) + exp 2 * s ^ 2) * (M - J k s) <= (INR (S k) + exp 2) * s ^ 2 * (M - J k s)).
  apply Rmult_le_compat_r; [lra|]; rewrite Rmult_plus_distr_r; apply Rplus_le_compat_r; rewrite <- (Rmult_1_r (INR (S k))) at 1; apply Rmult_le_compat_l; lra.
set (T := M - J k s) in *; set (U := M1 - J (S k) s) in *; assert (T0 : 0 < T) by (unfold T; lra).
apply (Rmult_lt_reg_r (s * M1 * (INR (S k) * M))); [repeat apply Rmult_lt_0_compat; lra|].
replace (U / M1 * (s * M1 * (INR (S k) * M))) with (s * U * (INR (S k) * M)) by (field; lra).
replace (s ^ 2 * T / (INR (S k) * M) * (s * M1 * (INR (S k) * M))) with (s * M1 * (s ^ 2 * T)) by (field; lra).
apply Rle_lt_trans with ((INR (S k) + exp 2) * s ^ 2 * T * (INR (S k) * M)).
  apply Rmult_le_compat_r; [apply Rmult_le_pos; lra | lra].
replace ((INR (S k) + exp 2) * s ^ 2 * T * (INR (S k) * M)) with (B * M1 * (s ^ 2 * T)) by (unfold B; field; lra).
apply Rmult_lt_compat_r; [apply Rmult_lt_0_compat; lra|]; apply Rmult_lt_compat_r; assumption.
Qed.
End Tails.
Lemma above_real p : (0 < p)%nat -> exists2 q0, 0 < q0 < 1 & forall q x F, q0 <= q -> 0 < x -> chi2_probability p x q -> chi2_probability (p + 1) x F ->
  1 < F + x * (1 - q) / INR p.
Proof.
intros p0; destruct (J_lim (p - 1)) as [M hM _]; destruct (J_lim (S (p - 1))) as [M1 hM1 _]; destruct (J_lim (S (S (p - 1)))) as [M2 hM2 _].
destruct (tail_large (p - 1) M M1 M2 hM hM1 hM2) as [s0 s1 t].
destruct (prob_exists p (s0 ^ 2)) as [q0 hq]; assert (s2 : 1 <= s0 ^ 2) by (replace 1 with (1 ^ 2) by ring; apply pow_incr; lra).
pose proof (prob_gt0 _ _ _ hq ltac:(lra)) as q00; exists q0; [assumption|]; intros q x F le x0 hx hF.
assert (yx : s0 ^ 2 <= x).
  apply Rnot_lt_le; intros l; assert (q < q0); [|lra]; apply (prob_lt p x (s0 ^ 2)); [lra | assumption | assumption].
assert (sx : s0 <= sqrt x) by (rewrite <- (sqrt_pow2 s0) by lra; apply sqrt_le_1; lra).
specialize (t _ sx); rewrite pow2_sqrt in t by lra.
destruct hx as [M' hM' ->]; destruct hF as [M1' hM1' ->].
change (RInt (radial p) 0 (sqrt x)) with (J (p - 1) (sqrt x)) in *; change (RInt (radial (p + 1)) 0 (sqrt x)) with (J (p + 1 - 1) (sqrt x)) in *.
replace (p + 1 - 1)%nat with (S (p - 1)) in * by lia.
assert (e : M' = M) by (apply (lim_unique (J (p - 1))); assumption); subst M'.
assert (e : M1' = M1). { apply (lim_unique (J (S (p - 1)))); [|assumption]. replace (S (p - 1)) with (p + 1 - 1)%nat by lia; exact hM1'. }
subst M1'; pose proof (M_pos _ M hM) as m0; pose proof (M_pos _ M1 hM1) as m1; replace (S (p - 1)) with p in t at 2 by lia.
assert (P : 0 < INR p) by (apply lt_0_INR; lia).
set (a := J (p - 1) (sqrt x)) in *; set (b := J (S (p - 1)) (sqrt x)) in *.
replace ((M1 - b) / M1) with (1 - b / M1) in t by (field; lra).
replace (x * (M - a) / (INR p * M)) with (x * (1 - a / M) / INR p) in t by (field; lra); lra.
Qed.
