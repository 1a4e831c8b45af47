(* Numerical facts used by the counterexamples of Props_robust.v, in the notations of the standard library. *)
From Coq Require Import Reals Lra.
From Coquelicot Require Import Coquelicot.
Local Open Scope R_scope.
(* minus the Student cost (up to a factor) with a degrees of freedom and the samples 1 and 2, in dimension 1 *)
Definition g2 (k c a b s : R) : R := k - c * (b * ln (a + 1 / s) + b * ln (a + 4 / s) + 2 * ln s).
Lemma ln_cmp n m x y u v z w : 0 < x -> 0 < y -> 0 < z -> 0 < u -> 0 < v -> 0 < w ->
  (x * y) ^ n * z ^ m < (u * v) ^ n * w ^ m ->
  INR n * ln x + INR n * ln y + INR m * ln z < INR n * ln u + INR n * ln v + INR m * ln w.
Proof.
intros; rewrite <- !Rmult_plus_distr_l, <- !ln_mult, <- !ln_pow, <- !ln_mult; auto using Rmult_lt_0_compat, pow_lt.
apply ln_increasing; auto using Rmult_lt_0_compat, pow_lt.
Qed.
Lemma g2_real k : g2 k (/ 2) 2 3 2 < g2 k (/ 2) 2 3 (9 / 4).
Proof.
unfold g2; assert (H := ln_cmp 3 2 (22 / 9) (34 / 9) (5 / 2) 4 (9 / 4) 2).
replace (2 + 1 / 2) with (5 / 2) by field; replace (2 + 4 / 2) with 4 by field.
replace (2 + 1 / (9 / 4)) with (22 / 9) by field; replace (2 + 4 / (9 / 4)) with (34 / 9) by field.
simpl in H; lra.
Qed.
Lemma g2_complex k : g2 k 1 (/ 2) (3 / 2) 2 < g2 k 1 (/ 2) (3 / 2) (9 / 5).
Proof.
unfold g2; assert (H := ln_cmp 3 4 (19 / 18) (49 / 18) 1 (5 / 2) (9 / 5) 2).
replace (/ 2 + 1 / 2) with 1 by field; replace (/ 2 + 4 / 2) with (5 / 2) by field.
replace (/ 2 + 1 / (9 / 5)) with (19 / 18) by field; replace (/ 2 + 4 / (9 / 5)) with (49 / 18) by field.
simpl in H; lra.
Qed.
Lemma g2_real' k : is_derive (g2 k (/ 2) 2 3) 2 (/ 40).
Proof. unfold g2; auto_derive; [repeat split; lra | field]. Qed.
Lemma g2_complex' k : is_derive (g2 k 1 (/ 2) (3 / 2)) 2 (- / 40).
Proof. unfold g2; auto_derive; [repeat split; lra | field]. Qed.
