(* Moments of the chi-squared law (Spec_chi2.v).  Nothing here models code. *)
From Coq Require Import Reals Lra Lia.
From Coquelicot Require Import Coquelicot.
From Verif Require Import Spec_chi2.
Local Open Scope R_scope.
Definition f (k : nat) (s : R) : R := s ^ k * exp (- (s ^ 2 / 2)).
Lemma radialE d : (0 < d)%nat -> radial d = f (d - 1). Proof. reflexivity. Qed.
Lemma f_cont k s : continuous (f k) s.
Proof. apply (ex_derive_continuous (f k)); unfold f; auto_derive; exact I. Qed.
Lemma f_int k a b : ex_RInt (f k) a b.
Proof. apply (ex_RInt_continuous (f k)); intros; apply f_cont. Qed.
Lemma f_pos k s : 0 < s -> 0 < f k s.
Proof. intros; unfold f; apply Rmult_lt_0_compat; [apply pow_lt; assumption | apply exp_pos]. Qed.
Lemma f_nonneg k s : 0 <= s -> 0 <= f k s.
Proof. intros; unfold f; apply Rmult_le_pos; [apply pow_le; assumption | left; apply exp_pos]. Qed.
Definition J (k : nat) (x : R) : R := RInt (f k) 0 x.
Lemma J_chasles k x y : J k y = J k x + RInt (f k) x y.
Proof. unfold J; symmetry; apply (RInt_Chasles (f k)); apply f_int. Qed.
Lemma f_int_ge0 k x y : 0 <= x <= y -> 0 <= RInt (f k) x y.
Proof. intros h; apply RInt_ge_0; [lra | apply f_int | intros s hs; apply f_nonneg; lra]. Qed.
Lemma J_incr k x y : 0 <= x <= y -> J k x <= J k y.
Proof. intros h; rewrite (J_chasles k x y); pose proof (f_int_ge0 k x y h); lra. Qed.
Lemma J0 k : J k 0 = 0. Proof. unfold J; apply (RInt_point 0 (f k)). Qed.
Lemma J_pos k x : 0 < x -> 0 < J k x.
Proof. intros h; apply RInt_gt_0; [assumption | intros; apply f_pos; lra | intros; apply f_cont]. Qed.
(* integration by parts *)
Lemma J_rec k x : J (S (S k)) x = INR (S k) * J k x - f (S k) x.
Proof.
assert (D : forall s, is_derive (fun s => - f (S k) s) s (f (S (S k)) s - INR (S k) * f k s)).
  intros s; unfold f; auto_derive; [exact I|].
  change (match k with 0%nat => 1 | S _ => INR k + 1 end) with (INR (S k)).
  replace (- (s ^ 2 / 2)) with (- (s * (s * 1) * / 2)) by (simpl; unfold Rdiv; ring); simpl pow; field.
assert (E : is_RInt (fun s => f (S (S k)) s - INR (S k) * f k s) 0 x ((- f (S k) x) - (- f (S k) 0))).
  apply (is_RInt_derive (fun s => - f (S k) s)).
  - intros; apply D.
  - intros; apply (continuous_minus (f (S (S k))) (fun s => INR (S k) * f k s)); [apply f_cont|].
    apply (continuous_mult (fun _ => INR (S k)) (f k)); [apply continuous_const | apply f_cont].
assert (E2 : is_RInt (fun s => f (S (S k)) s - INR (S k) * f k s) 0 x (J (S (S k)) x - INR (S k) * J k x)).
  apply (is_RInt_minus (f (S (S k))) (fun s => INR (S k) * f k s)).
  - apply (RInt_correct (f (S (S k)))); apply f_int.
  - apply (is_RInt_scal (f k) 0 x (INR (S k))); apply (RInt_correct (f k)); apply f_int.
pose proof (is_RInt_unique _ _ _ _ E) as u1; pose proof (is_RInt_unique _ _ _ _ E2) as u2; rewrite u1 in u2.
assert (z : f (S k) 0 = 0) by (unfold f; simpl; ring).
rewrite z in u2; lra.
Qed.
Lemma J1 x : J 1 x = 1 - exp (- (x ^ 2 / 2)).
Proof.
assert (D : forall s, is_derive (fun s => - exp (- (s ^ 2 / 2))) s (f 1 s)).
  intros s; unfold f; auto_derive; [exact I|].
  replace (- (s ^ 2 / 2)) with (- (s * (s * 1) * / 2)) by (simpl; unfold Rdiv; ring); simpl pow; field.
assert (E : is_RInt (f 1) 0 x ((- exp (- (x ^ 2 / 2))) - (- exp (- (0 ^ 2 / 2))))).
  apply (is_RInt_derive (fun s => - exp (- (s ^ 2 / 2)))); intros; [apply D | apply f_cont].
unfold J; rewrite (is_RInt_unique _ _ _ _ E); replace (- (0 ^ 2 / 2)) with 0 by field; rewrite exp_0; lra.
Qed.
Lemma J_bounded k : exists B, forall x, 0 <= x -> J k x <= B.
Proof.
assert (H : (exists B, forall x, 0 <= x -> J k x <= B) /\ (exists B, forall x, 0 <= x -> J (S k) x <= B)).
2: exact (proj1 H).
induction k as [|k [[B hB] [B' hB']]].
- split.
  + exists (J 0 1 + 1); intros x h.
    assert (F : forall y, 1 <= y -> RInt (f 0) 1 y <= RInt (f 1) 1 y).
      intros y hy; apply RInt_le; [assumption | apply f_int | apply f_int |].
      intros s hs; unfold f; simpl; pose proof (exp_pos (- (s * (s * 1) / 2))); nra.
    destruct (Rle_dec x 1) as [l|n].
      pose proof (J_incr 0 x 1); lra.
    assert (l : 1 <= x) by lra; pose proof (J_chasles 0 1 x); pose proof (J_chasles 1 1 x); pose proof (F x l).
    pose proof (J_pos 1 1); pose proof (J1 x); pose proof (exp_pos (- (x ^ 2 / 2))); lra.
  + exists 1; intros x _; rewrite J1; pose proof (exp_pos (- (x ^ 2 / 2))); lra.
- split; [exists B'; assumption|].
  exists (INR (S k) * B); intros x h; rewrite J_rec; pose proof (f_nonneg (S k) x h).
  pose proof (Rmult_le_compat_l (INR (S k)) _ _ (pos_INR _) (hB x h)); lra.
Qed.
(* a nondecreasing bounded function has a limit *)
Lemma mono_lim (F : R -> R) B : (forall x y, 0 <= x <= y -> F x <= F y) -> (forall x, 0 <= x -> F x <= B) ->
  exists2 L : R, is_lim F p_infty L & forall x, 0 <= x -> F x <= L.
Proof.
intros mo bd.
destruct (completeness (fun y => exists2 x, 0 <= x & y = F x)) as [L [ub lub]].
  exists B; intros y [x h ->]; apply bd; assumption.
  exists (F 0); exists 0; [lra | reflexivity].
exists L.
2: intros x h; apply ub; exists x; [assumption | reflexivity].
apply is_lim_spec; intros eps.
assert (ex : exists2 x, 0 <= x & L - eps < F x).
  destruct (Classical_Prop.classic (exists2 x, 0 <= x & L - eps < F x)) as [y|n]; [assumption|].
  assert (L <= L - eps); [|pose proof (cond_pos eps); lra].
  apply lub; intros y [x h ->]; apply Rnot_lt_le; intros c; apply n; exists x; assumption.
destruct ex as [x0 h0 lt]; exists x0; intros x h; apply Rabs_def1.
- assert (F x <= L) by (apply ub; exists x; [lra | reflexivity]); pose proof (cond_pos eps); lra.
- pose proof (mo x0 x); lra.
Qed.
Lemma J_lim k : exists2 M : R, is_lim (J k) p_infty M & forall x, 0 <= x -> J k x <= M.
Proof. destruct (J_bounded k) as [B hB]; apply (mono_lim (J k) B); [apply J_incr | assumption]. Qed.
Lemma lim_unique (F : R -> R) (a b : R) : is_lim F p_infty a -> is_lim F p_infty b -> a = b.
Proof. intros ha hb; pose proof (is_lim_unique _ _ _ ha); pose proof (is_lim_unique _ _ _ hb); congruence. Qed.
Lemma lim_ge k (M x : R) : is_lim (J k) p_infty M -> 0 <= x -> J k x <= M.
Proof. intros h hx; destruct (J_lim k) as [M' h' b]; rewrite (lim_unique _ _ _ h h'); apply b; assumption. Qed.
Lemma lim_gt k (M x : R) : is_lim (J k) p_infty M -> 0 <= x -> J k x < M.
Proof.
intros h hx; pose proof (lim_ge k M (x + 1) h); pose proof (J_chasles k x (x + 1)).
assert (0 < RInt (f k) x (x + 1)) by (apply RInt_gt_0; [lra | intros; apply f_pos; lra | intros; apply f_cont]); lra.
Qed.
Lemma M_pos k (M : R) : is_lim (J k) p_infty M -> 0 < M.
Proof. intros h; pose proof (lim_gt k M 0 h); rewrite J0 in H; apply H; lra. Qed.
(* the boundary term vanishes *)
Lemma f_lim k : is_lim (f (S k)) p_infty 0.
Proof.
destruct (J_lim (S k)) as [B hB bB]; pose proof (M_pos _ _ hB) as Bp.
assert (bd : forall x, 0 < x -> f (S k) x <= INR (S (S k)) * B * / x).
  intros x hx; pose proof (J_rec (S k) x).
  assert (p0 : 0 <= J (S (S (S k))) x) by (left; apply J_pos; assumption).
  assert (e : f (S (S k)) x = x * f (S k) x) by (unfold f; simpl; ring).
  pose proof (Rmult_le_compat_l (INR (S (S k))) _ _ (pos_INR _) (bB x ltac:(lra))) as mm.
  rewrite e in H.
  apply (Rmult_le_reg_l x); [assumption|]; replace (x * (INR (S (S k)) * B * / x)) with (INR (S (S k)) * B) by (field; lra); lra.
apply (is_lim_le_le_loc (fun _ => 0) (fun x => INR (S (S k)) * B * / x)).
- exists 0; intros x hx; split; [apply f_nonneg; lra | apply bd; assumption].
- apply is_lim_const.
- replace (Finite 0) with (Rbar_mult (INR (S (S k)) * B) (Rbar_inv p_infty)) by (simpl; apply f_equal; ring).
  apply (is_lim_scal_l (fun x => / x)); apply (is_lim_inv (fun x => x)); [apply is_lim_id | discriminate].
Qed.
Lemma M_rec k (M M2 : R) : is_lim (J k) p_infty M -> is_lim (J (S (S k))) p_infty M2 -> M2 = INR (S k) * M.
Proof.
intros h h2; apply (lim_unique (J (S (S k)))); [assumption|].
apply (is_lim_ext (fun x => INR (S k) * J k x - f (S k) x)); [intros; symmetry; apply J_rec|].
replace (Finite (INR (S k) * M)) with (Rbar_minus (INR (S k) * M) 0) by (simpl; apply f_equal; ring).
apply (is_lim_minus (fun x => INR (S k) * J k x) (f (S k)) p_infty (INR (S k) * M) 0).
- apply (is_lim_scal_l (J k) (INR (S k)) p_infty M); assumption.
- apply f_lim.
- reflexivity.
Qed.
(* the law with one more degree of freedom is stochastically larger *)
Lemma M_mlr k (M M1 y : R) : is_lim (J k) p_infty M -> is_lim (J (S k)) p_infty M1 -> 0 < y -> J (S k) y / M1 < J k y / M.
Proof.
intros h h1 hy; pose proof (M_pos _ _ h) as p; pose proof (M_pos _ _ h1) as p1.
assert (fS : forall s, f (S k) s = s * f k s) by (intros; unfold f; simpl; ring).
assert (scal : forall a b, is_RInt (fun s => y * f k s) a b (y * RInt (f k) a b)).
  intros; apply (is_RInt_scal (f k) a b y); apply (RInt_correct (f k)); apply f_int.
assert (a1 : J (S k) y < y * J k y).
  unfold J at 2; rewrite <- (is_RInt_unique _ _ _ _ (scal 0 y)); unfold J; apply RInt_lt; [assumption | | |].
  - intros s hs; apply (continuous_mult (fun _ => y) (f k)); [apply continuous_const | apply f_cont].
  - intros; apply f_cont.
  - intros s hs; rewrite fS; apply Rmult_lt_compat_r; [apply f_pos|]; lra.
assert (a2 : y * (M - J k y) <= M1 - J (S k) y).
  assert (L : is_lim (fun x => (J (S k) x - J (S k) y) - y * (J k x - J k y)) p_infty (M1 - J (S k) y - y * (M - J k y))).
    apply (is_lim_minus' (fun x => J (S k) x - J (S k) y) (fun x => y * (J k x - J k y))).
    - apply (is_lim_minus' (J (S k)) (fun _ => J (S k) y)); [assumption | apply is_lim_const].
    - apply (is_lim_scal_l (fun x => J k x - J k y) y p_infty (M - J k y)).
      apply (is_lim_minus' (J k) (fun _ => J k y)); [assumption | apply is_lim_const].
  assert (Q : Rbar_le 0 (M1 - J (S k) y - y * (M - J k y))); [|simpl in Q; lra].
  refine (is_lim_le_loc _ _ _ _ _ _ (is_lim_const 0 p_infty) L).
  exists y; intros x hx; rewrite (J_chasles (S k) y x), (J_chasles k y x).
  assert (y * RInt (f k) y x <= RInt (f (S k)) y x); [|lra].
  rewrite <- (is_RInt_unique _ _ _ _ (scal y x)); apply RInt_le; [lra | eexists; apply scal | apply f_int |].
  intros s hs; rewrite fS; apply Rmult_le_compat_r; [apply f_nonneg|]; lra.
pose proof (J_pos k y hy) as j; pose proof (J_pos (S k) y hy) as j1; pose proof (lim_gt k M y h ltac:(lra)) as l.
assert (c : J (S k) y * M < J k y * M1).
  assert (J (S k) y * (M - J k y) < J k y * (y * (M - J k y))) by (replace (J k y * (y * (M - J k y))) with ((y * J k y) * (M - J k y)) by ring;
    apply Rmult_lt_compat_r; lra).
  assert (J k y * (y * (M - J k y)) <= J k y * (M1 - J (S k) y)) by (apply Rmult_le_compat_l; lra); lra.
apply (Rmult_lt_reg_r (M * M1)); [apply Rmult_lt_0_compat; assumption|].
replace (J (S k) y / M1 * (M * M1)) with (J (S k) y * M) by (field; lra).
replace (J k y / M * (M * M1)) with (J k y * M1) by (field; lra); assumption.
Qed.

(* truncated mean *)
Lemma trunc k (M y b : R) (h : R -> R) : is_lim (J k) p_infty M -> 0 <= y -> (forall t, 0 <= t -> h t = b * Rmin t (y ^ 2)) ->
  is_lim (fun A => RInt (fun s => h (s ^ 2) * f k s) 0 A) p_infty (b * (J (S (S k)) y + y ^ 2 * (M - J k y))).
Proof.
intros hM hy hh.
assert (small : is_RInt (fun s => h (s ^ 2) * f k s) 0 y (b * J (S (S k)) y)).
  apply (is_RInt_ext (fun s => b * f (S (S k)) s)).
  - intros s hs; rewrite Rmin_left, Rmax_right in hs by lra; rewrite hh by (apply pow2_ge_0); rewrite Rmin_left.
    unfold f; simpl; ring. apply pow_incr; lra.
  - apply (is_RInt_scal (f (S (S k))) 0 y b); apply (RInt_correct (f (S (S k)))); apply f_int.
assert (large : forall A, y < A -> is_RInt (fun s => h (s ^ 2) * f k s) y A (b * (y ^ 2 * (J k A - J k y)))).
  intros A hA; apply (is_RInt_ext (fun s => b * (y ^ 2 * f k s))).
  - intros s hs; rewrite Rmin_left, Rmax_right in hs by lra; rewrite hh by (apply pow2_ge_0); rewrite Rmin_right.
    change (b * (y ^ 2 * f k s) = b * y ^ 2 * f k s); ring. apply pow_incr; lra.
  - assert (e : J k A - J k y = RInt (f k) y A) by (rewrite (J_chasles k y A); lra).
    apply (is_RInt_scal (fun s => y ^ 2 * f k s) y A b); rewrite e.
    apply (is_RInt_scal (f k) y A (y ^ 2)); apply (RInt_correct (f k)); apply f_int.
apply (is_lim_ext_loc (fun A => b * (J (S (S k)) y + y ^ 2 * (J k A - J k y)))).
- exists y; intros A hA; symmetry; apply is_RInt_unique.
  replace (b * (J (S (S k)) y + y ^ 2 * (J k A - J k y))) with (plus (b * J (S (S k)) y) (b * (y ^ 2 * (J k A - J k y)))) by (unfold plus; simpl; ring).
  exact (is_RInt_Chasles (V := R_NormedModule) _ 0 y A _ _ small (large A hA)).
- apply (is_lim_scal_l (fun A => J (S (S k)) y + y ^ 2 * (J k A - J k y)) b p_infty (J (S (S k)) y + y ^ 2 * (M - J k y))).
  apply (is_lim_plus' (fun _ => J (S (S k)) y) (fun A => y ^ 2 * (J k A - J k y))); [apply is_lim_const|].
  apply (is_lim_scal_l (fun A => J k A - J k y) (y ^ 2) p_infty (M - J k y)).
  apply (is_lim_minus' (J k) (fun _ => J k y)); [assumption | apply is_lim_const].
Qed.
Lemma trunc_mono k y z : 0 <= y <= z -> forall M : R, is_lim (J k) p_infty M ->
  J (S (S k)) y + y ^ 2 * (M - J k y) <= J (S (S k)) z + z ^ 2 * (M - J k z).
Proof.
intros h M hM; rewrite (J_chasles (S (S k)) y z).
assert (a : y ^ 2 * RInt (f k) y z <= RInt (f (S (S k))) y z).
  assert (sc : is_RInt (fun s => y ^ 2 * f k s) y z (y ^ 2 * RInt (f k) y z)).
    apply (is_RInt_scal (f k) y z (y ^ 2)); apply (RInt_correct (f k)); apply f_int.
  rewrite <- (is_RInt_unique _ _ _ _ sc); apply RInt_le; [lra | eexists; apply sc | apply f_int |].
  intros s hs; replace (f (S (S k)) s) with (s ^ 2 * f k s) by (unfold f; simpl; ring).
  apply Rmult_le_compat_r; [apply f_nonneg; lra | apply pow_incr; lra].
pose proof (lim_ge k M z hM ltac:(lra)); rewrite (J_chasles k y z) in *; set (r := RInt (f k) y z) in *.
assert (b : y ^ 2 * (M - (J k y + r)) <= z ^ 2 * (M - (J k y + r))) by (apply Rmult_le_compat_r; [lra | apply pow_incr; lra]).
replace (y ^ 2 * (M - J k y)) with (y ^ 2 * (M - (J k y + r)) + y ^ 2 * r) by ring; lra.
Qed.
(* the quantiles exist *)
Lemma J_continuity k : continuity (J k).
Proof.
intros x; apply continuity_pt_filterlim, (ex_derive_continuous (J k)); exists (f k x).
apply (is_derive_RInt (f k) (J k) 0 x); [exists (mkposreal 1 Rlt_0_1); intros y _; apply (RInt_correct (f k)); apply f_int | apply f_cont].
Qed.
Lemma quantile k (M q : R) : is_lim (J k) p_infty M -> 0 < q < 1 -> exists2 x, 0 < x & J k (sqrt x) / M = q.
Proof.
intros h hq; pose proof (M_pos _ _ h) as p.
assert (exA : exists2 A, 0 < A & q * M < J k A).
  pose proof h as h'; apply is_lim_spec in h'; assert (e0 : 0 < (1 - q) * M) by (apply Rmult_lt_0_compat; lra).
  destruct (h' (mkposreal _ e0)) as [B hB]; exists (Rmax B 0 + 1); [pose proof (Rmax_r B 0); lra|].
  pose proof (hB (Rmax B 0 + 1)) as c; simpl in c; pose proof (Rmax_l B 0); assert (B < Rmax B 0 + 1) by lra; specialize (c H0).
  apply Rabs_def2 in c; lra.
destruct exA as [A hA hl].
destruct (IVT_gen (J k) 0 A (q * M) (J_continuity k)) as [y [hy e]].
  rewrite J0, Rmin_left, Rmax_right; [split; [|lra] | |]; try (left; apply J_pos; lra); apply Rmult_le_pos; lra.
rewrite Rmin_left, Rmax_right in hy by lra.
assert (yp : 0 < y).
  destruct (Rle_lt_or_eq_dec 0 y (proj1 hy)) as [l|z]; [assumption|]; exfalso; rewrite <- z, J0 in e.
  assert (0 < q * M) by (apply Rmult_lt_0_compat; lra); lra.
exists (y ^ 2); [apply pow_lt; assumption|]; rewrite sqrt_pow2 by lra; rewrite e; field; lra.
Qed.
Lemma mass_unique d M M' : mass d M -> mass d M' -> M = M'. Proof. apply lim_unique. Qed.
Lemma expectation_unique d h e e' : chi2_expectation d h e -> chi2_expectation d h e' -> e = e'.
Proof.
intros [M [m [a [b ->]]]] [M' [m' [a' [b' ->]]]].
rewrite (mass_unique _ _ _ a a'), (lim_unique _ _ _ b b'); reflexivity.
Qed.
Lemma S_pred' d : (0 < d)%nat -> S (d - 1) = d. Proof. lia. Qed.
(* E min(|z|^2, x) = d P(chi2_(d+2) <= x) + x P(chi2_d > x) *)
Lemma truncated_mean d x q F (b : R) (h : R -> R) : (0 < d)%nat -> 0 < x -> chi2_probability d x q -> chi2_probability (d + 2) x F ->
  (forall t, 0 <= t -> h t = b * Rmin t x) -> chi2_expectation d h (b * (INR d * F + x * (1 - q))).
Proof.
intros d0 x0 [M hM ->] [M2 hM2 ->] hh; unfold mass in hM, hM2; rewrite radialE in * by lia.
assert (e2 : (d + 2 - 1 = S (S (d - 1)))%nat) by lia; rewrite e2 in *.
pose proof (M_rec _ _ _ hM hM2) as r; rewrite (S_pred' d d0) in r; pose proof (M_pos _ _ hM); assert (0 < INR d) by (apply lt_0_INR; assumption).
exists M, (b * (J (S (S (d - 1))) (sqrt x) + sqrt x ^ 2 * (M - J (d - 1) (sqrt x)))); rewrite radialE by assumption.
assert (sx : sqrt x ^ 2 = x) by (apply pow2_sqrt; lra).
split; [exact hM | split].
- apply trunc; [exact hM | apply sqrt_pos | rewrite sx; assumption].
- rewrite sx; fold (J (d - 1) (sqrt x)) (J (S (S (d - 1))) (sqrt x)); rewrite r; field; split; apply Rgt_not_eq; assumption.
Qed.
Lemma prob_exists d x : exists F, chi2_probability d x F.
Proof. destruct (J_lim (d - 1)) as [M h _]; eexists; exists M; [exact h | reflexivity]. Qed.
Lemma prob_ge0 d x F : chi2_probability d x F -> 0 <= x -> 0 <= F <= 1.
Proof.
intros [M h ->] x0; unfold mass in h; change (RInt (radial d) 0 (sqrt x)) with (J (d - 1) (sqrt x)).
pose proof (M_pos (d - 1) M h); pose proof (lim_ge (d - 1) M (sqrt x) h (sqrt_pos x)).
assert (0 <= J (d - 1) (sqrt x)) by (rewrite <- (J0 (d - 1)); apply J_incr; split; [lra | apply sqrt_pos]).
split; [apply Rdiv_le_0_compat; assumption|]; apply (Rmult_le_reg_r M); [assumption|].
unfold Rdiv; rewrite Rmult_assoc, Rinv_l by lra; lra.
Qed.
Lemma prob_gt0 d x F : chi2_probability d x F -> 0 < x -> 0 < F < 1.
Proof.
intros [M h ->] x0; unfold mass in h; change (RInt (radial d) 0 (sqrt x)) with (J (d - 1) (sqrt x)).
pose proof (M_pos (d - 1) M h); pose proof (lim_gt (d - 1) M (sqrt x) h (sqrt_pos x)).
pose proof (J_pos (d - 1) (sqrt x) (sqrt_lt_R0 _ x0)).
split; [apply Rdiv_lt_0_compat; assumption|]; apply (Rmult_lt_reg_r M); [assumption|].
unfold Rdiv; rewrite Rmult_assoc, Rinv_l by lra; lra.
Qed.
(* P(chi2_(d+2) <= x) < P(chi2_(d+1) <= x) *)
Lemma prob_decr d x F1 F2 : (0 < d)%nat -> 0 < x -> chi2_probability d x F1 -> chi2_probability (d + 1) x F2 -> F2 < F1.
Proof.
intros d0 x0 [M h ->] [M1 h1 ->]; unfold mass in *; rewrite !radialE in * by lia.
assert (e : (d + 1 - 1 = S (d - 1))%nat) by lia; rewrite e in *.
apply (M_mlr (d - 1) M M1 (sqrt x) h h1); apply sqrt_lt_R0; assumption.
Qed.
Lemma truncated_mono d x y q q' F F' : (0 < d)%nat -> 0 < x <= y -> chi2_probability d x q -> chi2_probability (d + 2) x F ->
  chi2_probability d y q' -> chi2_probability (d + 2) y F' -> INR d * F + x * (1 - q) <= INR d * F' + y * (1 - q').
Proof.
intros d0 h [M hM ->] [M2 hM2 ->] [M' hM' ->] [M2' hM2' ->]; rewrite <- (mass_unique _ _ _ hM hM'), <- (mass_unique _ _ _ hM2 hM2').
unfold mass in hM, hM2; rewrite !radialE in * by lia.
assert (e2 : (d + 2 - 1 = S (S (d - 1)))%nat) by lia; rewrite e2 in *.
pose proof (M_rec _ _ _ hM hM2) as r; rewrite (S_pred' d d0) in r; pose proof (M_pos _ _ hM) as Mp; assert (dp : 0 < INR d) by (apply lt_0_INR; assumption).
assert (sx : sqrt x ^ 2 = x) by (apply pow2_sqrt; lra); assert (sy : sqrt y ^ 2 = y) by (apply pow2_sqrt; lra).
assert (ss : 0 <= sqrt x <= sqrt y) by (split; [apply sqrt_pos | apply sqrt_le_1_alt; lra]).
pose proof (trunc_mono (d - 1) _ _ ss M hM) as t; rewrite sx, sy in t.
fold (J (d - 1) (sqrt x)) (J (S (S (d - 1))) (sqrt x)) (J (d - 1) (sqrt y)) (J (S (S (d - 1))) (sqrt y)); rewrite r.
apply (Rmult_le_reg_r M); [assumption|].
replace ((INR d * (J (S (S (d - 1))) (sqrt x) / (INR d * M)) + x * (1 - J (d - 1) (sqrt x) / M)) * M)
  with (J (S (S (d - 1))) (sqrt x) + x * (M - J (d - 1) (sqrt x))) by (field; split; apply Rgt_not_eq; assumption).
replace ((INR d * (J (S (S (d - 1))) (sqrt y) / (INR d * M)) + y * (1 - J (d - 1) (sqrt y) / M)) * M)
  with (J (S (S (d - 1))) (sqrt y) + y * (M - J (d - 1) (sqrt y))) by (field; split; apply Rgt_not_eq; assumption).
assumption.
Qed.
Lemma huber_complex p x q F (h : R -> R) : (0 < p)%nat -> 0 < x -> 0 < q < 1 -> chi2_probability (2 * p) x q -> chi2_probability (2 * p + 2) x F ->
  (forall t, 0 <= t -> h t = / (F + x / 2 * (1 - q) / INR p) * Rmin (t / 2) (x / 2)) -> chi2_expectation (2 * p) h (INR p).
Proof.
intros p0 x0 hq a b hh; pose proof (prob_gt0 _ _ _ b x0) as F0; assert (ip : 0 < INR p) by (apply lt_0_INR; assumption).
assert (B : 0 < F + x / 2 * (1 - q) / INR p).
  assert (0 < x / 2 * (1 - q) / INR p) by (apply Rdiv_lt_0_compat; [apply Rmult_lt_0_compat|]; lra); lra.
set (beta := F + x / 2 * (1 - q) / INR p) in *.
replace (INR p) with (/ beta * / 2 * (INR (2 * p) * F + x * (1 - q))).
- apply truncated_mean; [lia | assumption | assumption | assumption |].
  intros t t0; rewrite hh by assumption; rewrite Rmult_assoc; f_equal; unfold Rmin; destruct (Rle_dec (t / 2) (x / 2)), (Rle_dec t x); lra.
- rewrite mult_INR; change (INR 2) with 2; unfold beta; field; split; [apply Rgt_not_eq; assumption|].
  apply Rgt_not_eq; replace (F * (2 * INR p) + x * (1 - q)) with (2 * INR p * beta) by (unfold beta; field; lra).
  apply Rmult_lt_0_compat; lra.
Qed.
Lemma huber_real p x q F (h : R -> R) : (0 < p)%nat -> 0 < x -> 0 < q < 1 -> chi2_probability p x q -> chi2_probability (p + 1) x F ->
  (forall t, 0 <= t -> h t = / (F + x * (1 - q) / INR p) * Rmin t (x / 2)) -> exists2 e, chi2_expectation p h e & e < INR p.
Proof.
intros p0 x0 hq a b hh; pose proof (prob_gt0 _ _ _ b x0) as F0; assert (ip : 0 < INR p) by (apply lt_0_INR; assumption).
assert (B : 0 < F + x * (1 - q) / INR p).
  assert (0 < x * (1 - q) / INR p) by (apply Rdiv_lt_0_compat; [apply Rmult_lt_0_compat|]; lra); lra.
set (beta := F + x * (1 - q) / INR p) in *.
destruct (prob_exists p (x / 2)) as [q' a']; destruct (prob_exists (p + 2) (x / 2)) as [F' b']; destruct (prob_exists (p + 2) x) as [F2 b2].
exists (/ beta * (INR p * F' + x / 2 * (1 - q'))).
- apply truncated_mean; [assumption | lra | assumption | assumption | assumption].
- pose proof (truncated_mono p (x / 2) x q' q F' F2 p0 ltac:(lra) a' b' a b2) as t.
  assert (e : (p + 2 = (p + 1) + 1)%nat) by lia; rewrite e in b2; pose proof (prob_decr (p + 1) x F F2 ltac:(lia) x0 b b2) as d.
  assert (s : INR p * F' + x / 2 * (1 - q') < beta * INR p).
    apply (Rle_lt_trans _ _ _ t); replace (beta * INR p) with (INR p * F + x * (1 - q)) by (unfold beta; field; lra).
    apply Rplus_lt_compat_r, Rmult_lt_compat_l; assumption.
  apply (Rmult_lt_reg_l beta); [assumption|]; rewrite <- Rmult_assoc, Rinv_r by lra; lra.
Qed.
Lemma quantile_exists d q : 0 < q < 1 -> exists2 x, 0 < x & chi2_probability d x q.
Proof.
intros hq; destruct (J_lim (d - 1)) as [M h _]; destruct (quantile (d - 1) M q h hq) as [x x0 e]; exists x; [assumption|].
exists M; [exact h | symmetry; exact e].
Qed.
