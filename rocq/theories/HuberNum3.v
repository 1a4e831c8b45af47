(* Facts about real numbers: the constants of Huber's estimators are continuous in q.  Nothing here models code. *)
From Coq Require Import Reals Lra Lia.
From Coquelicot Require Import Coquelicot.
From Verif Require Import Spec_chi2 HuberNum HuberNum2.
Local Open Scope R_scope.

Lemma J_lt k x y : 0 <= x < y -> J k x < J k y.
Proof.
intros h; rewrite (J_chasles k x y); enough (0 < RInt (f k) x y) by lra.
apply RInt_gt_0; [lra | intros; apply f_pos; lra | intros; apply f_cont].
Qed.
Lemma prob_lt d x y F G : 0 <= x < y -> chi2_probability d x F -> chi2_probability d y G -> F < G.
Proof.
intros h [M hM ->] [M' hM' ->]; rewrite (mass_unique _ _ _ hM' hM); unfold mass in hM.
change (J (d - 1) (sqrt x) / M < J (d - 1) (sqrt y) / M); pose proof (M_pos (d - 1) M hM).
apply Rmult_lt_compat_r; [apply Rinv_0_lt_compat; assumption|]; apply J_lt; split; [apply sqrt_pos | apply sqrt_lt_1; lra].
Qed.
Lemma prob_unique d x F G : chi2_probability d x F -> chi2_probability d x G -> F = G.
Proof. intros [M hM ->] [M' hM' ->]; rewrite (mass_unique _ _ _ hM' hM); reflexivity. Qed.
(* quantiles *)
Lemma quantile_cont d q x : 0 < x -> chi2_probability d x q -> forall eps, 0 < eps -> exists2 dl, 0 < dl &
  forall q' x', Rabs (q' - q) <= dl -> 0 < x' -> chi2_probability d x' q' -> Rabs (x' - x) <= eps.
Proof.
intros x0 hq eps e0; set (y := Rmax (x / 2) (x - eps)).
assert (y0 : 0 < y < x) by (unfold y; pose proof (Rmax_l (x / 2) (x - eps)); split; [lra | apply Rmax_lub_lt; lra]).
assert (y1 : x - eps <= y) by apply Rmax_r.
destruct (prob_exists d y) as [F hF]; destruct (prob_exists d (x + eps)) as [G hG].
assert (l1 : F < q) by (apply (prob_lt d y x); [lra | assumption | assumption]).
assert (l2 : q < G) by (apply (prob_lt d x (x + eps)); [lra | assumption | assumption]).
exists (Rmin (q - F) (G - q) / 2); [enough (0 < Rmin (q - F) (G - q)) by lra; apply Rmin_glb_lt; lra|].
intros q' x' h x1 hq'; pose proof (Rmin_l (q - F) (G - q)); pose proof (Rmin_r (q - F) (G - q)); apply Rabs_le_between in h; apply Rabs_le_between.
split; [apply Rnot_lt_le; intros l | apply Rnot_lt_le; intros l].
- assert (q' <= F) by (apply (prob_mono d x' y); [lra | assumption | assumption]); lra.
- assert (G <= q') by (apply (prob_mono d (x + eps) x'); [lra | assumption | assumption]); lra.
Qed.
(* probabilities *)
Lemma prob_cont d x F : 0 < x -> chi2_probability d x F -> forall eps, 0 < eps -> exists2 dl, 0 < dl &
  forall x' F', Rabs (x' - x) <= dl -> 0 < x' -> chi2_probability d x' F' -> Rabs (F' - F) <= eps.
Proof.
intros x0 [M hM ->] eps e0; pose proof (M_pos (d - 1) M hM) as m0.
assert (c : continuity_pt (fun y => J (d - 1) (sqrt y)) x).
  apply (continuity_pt_comp sqrt (J (d - 1))); [apply continuity_pt_sqrt; lra | apply J_continuity].
destruct (c (eps * M)) as [al [a0 h]]; [apply Rmult_lt_0_compat; assumption|].
exists (al / 2); [lra|]; intros x' F' hx x1 [M' hM' ->]; rewrite (mass_unique _ _ _ hM' hM).
change (Rabs (J (d - 1) (sqrt x') / M - J (d - 1) (sqrt x) / M) <= eps).
replace (J (d - 1) (sqrt x') / M - J (d - 1) (sqrt x) / M) with ((J (d - 1) (sqrt x') - J (d - 1) (sqrt x)) * / M) by (field; lra).
rewrite Rabs_mult, (Rabs_pos_eq (/ M)) by (left; apply Rinv_0_lt_compat; assumption).
apply (Rmult_le_reg_r M); [assumption|]; rewrite Rmult_assoc, Rinv_l, Rmult_1_r by lra.
destruct (Req_dec x' x) as [e|ne]; [rewrite e, Rminus_eq_0, Rabs_R0; apply Rmult_le_pos; lra|].
left; apply (h x'); split; [split; [exact I | intros e; apply ne; symmetry; exact e] |]; simpl; unfold R_dist; lra.
Qed.
(* both constants *)
Lemma constants_cont d d2 q x F c : 0 < q < 1 -> 0 < x -> 0 <= c <= 1 -> chi2_probability d x q -> chi2_probability d2 x F -> forall eps, 0 < eps ->
  exists2 dl, 0 < dl & forall q', Rabs (q' - q) <= dl -> 0 < q' < 1 /\ forall x' F', 0 < x' -> chi2_probability d x' q' -> chi2_probability d2 x' F' ->
    Rabs (x' - x) <= eps /\ Rabs ((F' + x' * (1 - q') * c) - (F + x * (1 - q) * c)) <= eps.
Proof.
intros hq x0 hc h1 h2 eps e0.
destruct (prob_cont d2 x F x0 h2 (eps / 3)) as [dl1 p1 k1]; [lra|].
assert (m0 : 0 < Rmin dl1 (eps / 3)) by (apply Rmin_glb_lt; lra).
destruct (quantile_cont d q x x0 h1 (Rmin dl1 (eps / 3)) m0) as [dl2 p2 k2].
set (g := eps / 3 / x); assert (g0 : 0 < g) by (unfold g; apply Rdiv_lt_0_compat; lra).
assert (gx : x * g = eps / 3) by (unfold g; field; lra).
set (r := Rmin (Rmin dl2 g) (Rmin (q / 2) ((1 - q) / 2))).
assert (r0 : 0 < r) by (unfold r; repeat apply Rmin_glb_lt; lra).
assert (r1 : r <= dl2) by (unfold r; eapply Rle_trans; [apply Rmin_l | apply Rmin_l]).
assert (r2 : r <= g) by (unfold r; eapply Rle_trans; [apply Rmin_l | apply Rmin_r]).
assert (r3 : r <= q / 2) by (unfold r; eapply Rle_trans; [apply Rmin_r | apply Rmin_l]).
assert (r4 : r <= (1 - q) / 2) by (unfold r; eapply Rle_trans; [apply Rmin_r | apply Rmin_r]).
exists r; [assumption|]; intros q' hr; pose proof (Rabs_le_between (q' - q) r) as [b _]; specialize (b hr).
split; [lra|]; intros x' F' x1 h3 h4; pose proof (k2 q' x' ltac:(lra) x1 h3) as dx.
pose proof (Rmin_l dl1 (eps / 3)); pose proof (Rmin_r dl1 (eps / 3)).
pose proof (k1 x' F' ltac:(lra) x1 h4) as dF; split; [lra|].
replace (F' + x' * (1 - q') * c - (F + x * (1 - q) * c)) with ((F' - F) + (((x' - x) * (1 - q')) + x * (q - q')) * c) by ring.
assert (t1 : Rabs ((x' - x) * (1 - q')) <= eps / 3).
  rewrite Rabs_mult, (Rabs_pos_eq (1 - q')) by lra; pose proof (Rabs_pos (x' - x)).
  apply Rle_trans with (Rabs (x' - x) * 1); [apply Rmult_le_compat_l; lra | lra].
assert (t2 : Rabs (x * (q - q')) <= eps / 3).
  rewrite Rabs_mult, (Rabs_pos_eq x), (Rabs_minus_sym q q') by lra; rewrite <- gx; apply Rmult_le_compat_l; lra.
assert (t3 : Rabs ((((x' - x) * (1 - q')) + x * (q - q')) * c) <= 2 * (eps / 3)).
  rewrite Rabs_mult, (Rabs_pos_eq c) by lra; pose proof (Rabs_triang ((x' - x) * (1 - q')) (x * (q - q'))) as t.
  pose proof (Rabs_pos (((x' - x) * (1 - q')) + x * (q - q'))) as t0.
  apply Rle_trans with (Rabs (((x' - x) * (1 - q')) + x * (q - q')) * 1); [apply Rmult_le_compat_l; lra | lra].
pose proof (Rabs_triang (F' - F) ((((x' - x) * (1 - q')) + x * (q - q')) * c)); lra.
Qed.
(* for levels near 1 the quantile times the probability is large *)
Lemma large_quantile d d2 C : 0 < C -> exists2 q, 0 < q < 1 & forall x F, 0 < x -> chi2_probability d x q -> chi2_probability d2 x F -> C < x * F.
Proof.
intros C0; destruct (prob_exists d2 1) as [c hc]; pose proof (prob_gt0 _ _ _ hc Rlt_0_1) as c0.
set (y := C / c + 1); assert (y0 : 0 < C / c) by (apply Rdiv_lt_0_compat; lra).
destruct (prob_exists d y) as [q hq]; pose proof (prob_gt0 _ _ _ hq ltac:(unfold y; lra)) as q0.
exists q; [assumption|]; intros x F x0 hx hF.
assert (le : y <= x).
  apply Rnot_lt_le; intros l; assert (q < q); [|lra]; apply (prob_lt d x y); [lra | assumption | assumption].
assert (le2 : c <= F) by (apply (prob_mono d2 1 x); [unfold y in le; lra | assumption | assumption]).
assert (C = C / c * c) by (field; lra); apply Rlt_le_trans with (y * c); [unfold y; lra|].
apply Rmult_le_compat; unfold y in *; lra.
Qed.
