(* Small quantiles of the chi-squared law. *)
From Coq Require Import Reals Lra Lia.
From Coquelicot Require Import Coquelicot.
From Verif Require Import Spec_chi2 HuberNum.
Local Open Scope R_scope.
Lemma prob_mono d x y F G : 0 <= x <= y -> chi2_probability d x F -> chi2_probability d y G -> F <= G.
Proof.
intros h [M hM ->] [M' hM' ->]; rewrite (mass_unique _ _ _ hM' hM); unfold mass in hM.
change (RInt (radial d) 0 (sqrt x)) with (J (d - 1) (sqrt x)); change (RInt (radial d) 0 (sqrt y)) with (J (d - 1) (sqrt y)).
pose proof (M_pos (d - 1) M hM); apply Rmult_le_compat_r; [apply Rlt_le, Rinv_0_lt_compat; assumption|].
apply J_incr; split; [apply sqrt_pos | apply sqrt_le_1; lra].
Qed.
(* the quantiles of small levels are small *)
Lemma small_quantile d (y : R) : 0 < y -> exists2 q, 0 < q < 1 & forall x, 0 < x -> chi2_probability d x q -> x < y.
Proof.
intros y0; destruct (prob_exists d y) as [F hF]; pose proof (prob_gt0 _ _ _ hF y0); exists (F / 2); [lra|].
intros x x0 hx; apply Rnot_le_lt; intros le; pose proof (prob_mono d y x F (F / 2) (conj (Rlt_le _ _ y0) le) hF hx); lra.
Qed.
