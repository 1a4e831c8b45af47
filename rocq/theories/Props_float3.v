(* Conversions of data (C111) and normalisation of shape matrices (C112) in binary64. *)
From Coq Require Import Reals ZArith Lra Lia Psatz.
From Flocq Require Import Core IEEE754.BinarySingleNaN IEEE754.Binary IEEE754.Bits Relative.
From Verif Require Import Model_float Props_float Model_float2 Props_float2.
Local Open Scope R_scope.
#[local] Instance prec53'' : Prec_gt_0 53 := eq_refl.

Definition f_inf : binary64 := B754_infinity 53 1024 false.
Lemma tocomplex_val a b : fin a = true -> fin b = true -> fin (fst (array_tocomplex64 a b)) = true /\ fin (snd (array_tocomplex64 a b)) = true /\
  val (fst (array_tocomplex64 a b)) = val a /\ val (snd (array_tocomplex64 a b)) = val b.
Proof.
intros Fa Fb; unfold array_tocomplex64, cadd64, cmul64; cbn [fst snd].
assert (Z0 : val f_zero = 0) by reflexivity; assert (V : forall x, rnd (val x) = val x) by (intros x; apply rnd_fmt, fmt_val).
destruct (mul_0 f_zero b eq_refl Fb (or_introl eq_refl)) as (F1 & V1); destruct (mul_0 f_one f_zero eq_refl eq_refl (or_intror eq_refl)) as (F2 & V2).
destruct (mul_0 f_zero f_zero eq_refl eq_refl (or_introl eq_refl)) as (F3 & V3).
destruct (mul_ok f_one b eq_refl Fb) as (F4 & V4); [rewrite val_one, Rmult_1_l, V; apply val_lt|]; rewrite val_one, Rmult_1_l, V in V4.
destruct (sub_ok _ _ F1 F2) as (F5 & V5); [rewrite V1, V2, Rminus_0_r, rnd0; exact lt0|]; rewrite V1, V2, Rminus_0_r, rnd0 in V5.
destruct (add_ok _ _ F3 F4) as (F6 & V6); [rewrite V3, V4, Rplus_0_l, V; apply val_lt|]; rewrite V3, V4, Rplus_0_l, V in V6.
destruct (add_ok _ _ Fa F5) as (F7 & V7); [rewrite V5, Rplus_0_r, V; apply val_lt|]; rewrite V5, Rplus_0_r, V in V7.
destruct (add_ok f_zero _ eq_refl F6) as (F8 & V8); [rewrite Z0, V6, Rplus_0_l, V; apply val_lt|]; rewrite Z0, V6, Rplus_0_l, V in V8; auto.
Qed.
(* Finite data survives both conversions exactly *)
Theorem C111_finite_partial :
  (forall z, fin (fst z) = true -> fin (snd z) = true -> let w := (fun r => array_tocomplex64 (fst r) (snd r)) (array_toreal64 z) in
     fin (fst w) = true /\ fin (snd w) = true /\ val (fst w) = val (fst z) /\ val (snd w) = val (snd z)) /\
  (forall a b, fin a = true -> fin b = true -> let r := array_toreal64 (array_tocomplex64 a b) in val (fst r) = val a /\ val (snd r) = val b).
Proof.
split; [intros z Fa Fb; exact (tocomplex_val (fst z) (snd z) Fa Fb) | intros a b Fa Fb; destruct (tocomplex_val a b Fa Fb) as (_ & _ & H); exact H].
Qed.
(* An infinite imaginary part destroys the real part of the entry, which is finite *)
Theorem C111_infinite_refuted : forall a, is_nan 53 1024 (fst (array_tocomplex64 a f_inf)) = true.
Proof. intros [[|]|[|]|s pl H|[|] m e H]; vm_compute; reflexivity. Qed.
(* An infinite real part is kept *)
Theorem C111_infinite_real_partial b s : fin b = true -> fst (array_tocomplex64 (B754_infinity 53 1024 s) b) = B754_infinity 53 1024 s.
Proof.
intros Fb; destruct (mul_0 f_zero b eq_refl Fb (or_introl eq_refl)) as (F1 & V1); destruct (mul_0 f_one f_zero eq_refl eq_refl (or_intror eq_refl)) as (F2 & V2).
destruct (sub_ok _ _ F1 F2) as (F5 & _); [rewrite V1, V2, Rminus_0_r, rnd0; exact lt0|].
unfold array_tocomplex64, cadd64, cmul64; cbn [fst snd]; destruct (b64_minus mode_NE _ _) as [s'| | |s' m e H]; try discriminate F5; destruct s; reflexivity.
Qed.

(* ------------------------------------------------------------------ C112 *)
Lemma div_ok x y : fin x = true -> val y <> 0 -> Rabs (rnd (val x / val y)) < bpow radix2 1024 ->
  fin (b64_div mode_NE x y) = true /\ val (b64_div mode_NE x y) = rnd (val x / val y).
Proof.
intros Fx Hy H; generalize (Bdiv_correct 53 1024 (eq_refl _) (eq_refl _) binop_nan_pl64 mode_NE x y Hy).
change (round radix2 _ _ (val x / val y)) with (rnd (val x / val y)).
rewrite Rlt_bool_true by exact H; intros (E & F & _); unfold b64_div; split; [rewrite F; exact Fx | exact E].
Qed.
Lemma rnd1 : rnd 1 = 1. Proof. apply rnd_fmt; exact (fmt_int 1 ltac:(lia)). Qed.
Lemma one_lt : 1 < bpow radix2 1024. Proof. change 1 with (bpow radix2 0); apply bpow_lt; lia. Qed.
(* Real shape matrices normalised by their first element have a first element equal to one *)
Theorem C112_real_element x : fin x = true -> val x <> 0 -> fin (normalise64 x x) = true /\ val (normalise64 x x) = 1.
Proof.
intros F N; assert (E : val x / val x = 1) by (field; exact N).
destruct (div_ok x x F N) as (A & B); [rewrite E, rnd1, Rabs_R1; exact one_lt|].
rewrite E, rnd1 in B; auto.
Qed.
(* Complex ones do not: 49 is divided by multiplying it by 1/49 *)
Definition f_49 : binary64 := f_of_Z 49.
Theorem C112_complex_element_refuted : fin f_49 = true /\ val f_49 = 49 /\ val (fst (cnormalise64 (f_49, f_zero) (f_49, f_zero))) < 1.
Proof.
split; [reflexivity|]; split; [unfold B2R, F2R; simpl; lra|].
set (w := fst _); assert (E : B2FF 53 1024 w = F754_finite false 9007199254740991 (-53)) by (vm_compute; reflexivity).
rewrite <- FF2R_B2FF, E; unfold FF2R, F2R; cbn [Fnum Fexp cond_Zopp].
change (bpow radix2 (-53)) with (/ IZR (Zpower_pos 2 53)); simpl; lra.
Qed.
Lemma mul_fin x y : fin x = true -> fin y = true -> fin (b64_mult mode_NE x y) = true -> val (b64_mult mode_NE x y) = rnd (val x * val y) /\ Rabs (rnd (val x * val y)) < bpow radix2 1024.
Proof.
intros Fx Fy F; destruct (Rlt_or_le (Rabs (rnd (val x * val y))) (bpow radix2 1024)) as [H|H].
  split; [exact (proj2 (mul_ok x y Fx Fy H)) | exact H].
exfalso; generalize (Bmult_correct 53 1024 (eq_refl _) (eq_refl _) binop_nan_pl64 mode_NE x y).
change (round radix2 _ _ (val x * val y)) with (rnd (val x * val y)); rewrite Rlt_bool_false by exact H; intros E.
rewrite <- is_finite_B2FF in F; unfold b64_mult in F; rewrite E in F; discriminate F.
Qed.
(* quotient of an entry by a real number *)
Section Quotient.
Variables (c z : binary64).
Hypotheses (Fc : fin c = true) (Fz : fin z = true) (z0 : val z = 0) (c0 : bpow radix2 (-1023) <= Rabs (val c)).
Let cn : val c <> 0.
Proof. intros E; revert c0; rewrite E, Rabs_R0; apply Rlt_not_le, bpow_gt_0. Qed.
Let rat := b64_div mode_NE z c.
Let scl := b64_div mode_NE f_one (b64_plus mode_NE c (b64_mult mode_NE z rat)).
Lemma rat_ok : fin rat = true /\ val rat = 0.
Proof.
assert (E : val z / val c = 0) by (rewrite z0; unfold Rdiv; ring).
destruct (div_ok z c Fz cn) as (A & B); [rewrite E, rnd0; exact lt0|]; rewrite E, rnd0 in B; auto.
Qed.
Lemma scl_ok : fin scl = true /\ val scl = rnd (/ val c).
Proof.
destruct rat_ok as (F1 & V1); destruct (mul_0 z rat Fz F1 (or_introl z0)) as (F2 & V2).
assert (V : rnd (val c) = val c) by (apply rnd_fmt, fmt_val).
destruct (add_ok c _ Fc F2) as (F3 & V3); [rewrite V2, Rplus_0_r, V; apply val_lt|]; rewrite V2, Rplus_0_r, V in V3.
assert (E : val f_one / val (b64_plus mode_NE c (b64_mult mode_NE z rat)) = / val c) by (rewrite V3, val_one; field; exact cn).
unfold scl; rewrite <- E; apply div_ok; [reflexivity | rewrite V3; exact cn | rewrite E].
apply Rle_lt_trans with (bpow radix2 1023); [|apply bpow_lt; lia].
apply abs_round_le_generic; auto with typeclass_instances; [apply generic_format_bpow; unfold FLT_exp; lia|].
rewrite Rabs_inv; change 1023%Z with (- - 1023)%Z; rewrite (bpow_opp radix2 (-1023)); apply Rinv_le; [apply bpow_gt_0 | exact c0].
Qed.
Lemma quotient_val a b : fin a = true -> fin b = true ->
  let w := cnormalise64 (c, z) (a, b) in
  (fin (fst w) = true -> val (fst w) = rnd (val a * rnd (/ val c)) /\ Rabs (rnd (val a * rnd (/ val c))) < bpow radix2 1024) /\
  (Rabs (rnd (val a * rnd (/ val c))) < bpow radix2 1024 -> fin (fst w) = true) /\
  (fin (snd w) = true -> val (snd w) = rnd (val b * rnd (/ val c)) /\ Rabs (rnd (val b * rnd (/ val c))) < bpow radix2 1024) /\
  (Rabs (rnd (val b * rnd (/ val c))) < bpow radix2 1024 -> fin (snd w) = true).
Proof.
intros Fa Fb; unfold cnormalise64, cdiv64; cbn [fst snd]; fold rat; fold scl.
destruct rat_ok as (F1 & V1); destruct scl_ok as (F2 & V2); assert (V : forall x, rnd (val x) = val x) by (intros x; apply rnd_fmt, fmt_val).
destruct (mul_0 b rat Fb F1 (or_intror V1)) as (F3 & V3); destruct (mul_0 a rat Fa F1 (or_intror V1)) as (F4 & V4).
destruct (add_ok a _ Fa F3) as (F5 & V5); [rewrite V3, Rplus_0_r, V; apply val_lt|]; rewrite V3, Rplus_0_r, V in V5.
destruct (sub_ok b _ Fb F4) as (F6 & V6); [rewrite V4, Rminus_0_r, V; apply val_lt|]; rewrite V4, Rminus_0_r, V in V6.
rewrite <- V2, <- V5, <- V6; repeat split; try (apply mul_fin; assumption); intros H; refine (proj1 (mul_ok _ _ _ F2 H)); assumption.
Qed.
(* The normalisations keep Hermitian matrices exactly Hermitian *)
Theorem C112_hermitian_partial (x y : binary64 * binary64) : fin (fst x) = true -> fin (snd x) = true -> fin (fst y) = true -> fin (snd y) = true ->
  val (fst y) = val (fst x) -> val (snd y) = - val (snd x) ->
  let w := cnormalise64 (c, z) x in let v := cnormalise64 (c, z) y in fin (fst w) = true -> fin (snd w) = true ->
  fin (fst v) = true /\ fin (snd v) = true /\ val (fst v) = val (fst w) /\ val (snd v) = - val (snd w).
Proof.
destruct x as [a b], y as [a' b']; intros Fa Fb Fa' Fb' E1 E2 w v F1 F2; cbn [fst snd] in Fa, Fb, Fa', Fb', E1, E2.
destruct (quotient_val a b Fa Fb) as (A & _ & B & _); destruct (quotient_val a' b' Fa' Fb') as (A1 & A2 & B1 & B2).
destruct (A F1) as (V1 & L1); destruct (B F2) as (V2 & L2); rewrite E1 in A1, A2; rewrite E2, Ropp_mult_distr_l_reverse, rnd_opp, Rabs_Ropp in B1, B2.
destruct (A1 (A2 L1)) as (V3 & _); destruct (B1 (B2 L2)) as (V4 & _); split; [exact (A2 L1)|]; split; [exact (B2 L2)|].
split; [exact (eq_trans V3 (eq_sym V1)) | exact (eq_trans V4 (f_equal Ropp (eq_sym V2)))].
Qed.
(* and the first element of a complex shape matrix is one up to the last bit *)
Theorem C112_complex_element_partial : bpow radix2 (-1021) <= Rabs (val c) <= bpow radix2 1021 ->
  let w := cnormalise64 (c, z) (c, z) in fin (fst w) = true /\ Rabs (val (fst w) - 1) <= bpow radix2 (-52) /\ val (snd w) = 0.
Proof.
intros (C1 & C2) w; destruct (quotient_val c z Fc Fz) as (A & A' & B & B'); fold w in A, A', B, B'.
assert (P : 0 < Rabs (val c)) by (apply Rabs_pos_lt; exact cn).
assert (E : Rabs (rnd (/ val c) - / val c) <= bpow radix2 (-53) * Rabs (/ val c)).
  assert (X := relative_error_N_FLT radix2 (-1074) 53 eq_refl (fun x => negb (Z.even x)) (/ val c)).
  eapply Rle_trans; [apply X|].
    rewrite Rabs_inv; apply Rle_trans with (bpow radix2 (-1021)); [apply bpow_le; lia|].
    change (-1021)%Z with (- (1021))%Z; rewrite bpow_opp; apply Rinv_le; assumption.
  apply Rmult_le_compat_r; [apply Rabs_pos|]; replace (/ 2) with (bpow radix2 (-1)) by reflexivity; rewrite <- bpow_plus; apply bpow_le; lia.
set (t := val c * rnd (/ val c)); assert (T : Rabs (t - 1) <= bpow radix2 (-53)).
  replace (t - 1) with (val c * (rnd (/ val c) - / val c)) by (unfold t; field; exact cn).
  rewrite Rabs_mult; rewrite Rabs_inv in E; apply Rmult_le_compat_l with (1 := Rlt_le _ _ P) in E.
  eapply Rle_trans; [exact E|]; right; field; lra.
assert (u : 0 < bpow radix2 (-52)) by apply bpow_gt_0.
assert (U : bpow radix2 (-52) = 2 * bpow radix2 (-53)) by exact (bpow_plus radix2 1 (-53)).
assert (S : bpow radix2 (-52) <= 1) by (change 1 with (bpow radix2 0); apply bpow_le; lia).
assert (K : forall m, (Z.abs m <= 2 ^ 53)%Z -> fmt (IZR m * bpow radix2 (-52))).
  intros m Hm; destruct (Z.eq_dec (Z.abs m) (2 ^ 53)) as [Q|Q].
    assert (D : m = (2 ^ 53)%Z \/ m = (- 2 ^ 53)%Z) by lia.
    assert (P2 : fmt (bpow radix2 1)) by (apply generic_format_bpow; unfold FLT_exp; lia).
    destruct D as [-> | ->]; [|rewrite opp_IZR, Ropp_mult_distr_l_reverse; apply generic_format_opp]; rewrite pow_bpow, <- bpow_plus by lia; exact P2.
  apply generic_format_FLT; exists (Float radix2 m (-52)); simpl; [reflexivity | lia | lia].
assert (M : IZR (2 ^ 52) * bpow radix2 (-52) = 1) by (rewrite pow_bpow, <- bpow_plus by lia; reflexivity).
assert (R : 1 - bpow radix2 (-52) <= rnd t <= 1 + bpow radix2 (-52)).
  assert (T' := T); apply Rabs_le_inv in T'; split.
    apply round_ge_generic; auto with typeclass_instances; [|lra].
    replace (1 - bpow radix2 (-52)) with (IZR (2 ^ 52 - 1) * bpow radix2 (-52)) by (rewrite minus_IZR, Rmult_minus_distr_r, M; ring); apply K; lia.
  apply round_le_generic; auto with typeclass_instances; [|lra].
  replace (1 + bpow radix2 (-52)) with (IZR (2 ^ 52 + 1) * bpow radix2 (-52)) by (rewrite plus_IZR, Rmult_plus_distr_r, M; ring); apply K; lia.
assert (L : Rabs (rnd t) < bpow radix2 1024).
  apply Rle_lt_trans with 2; [apply Rabs_le; lra|]; change 2 with (bpow radix2 1); apply bpow_lt; lia.
assert (F := A' L); destruct (A F) as (V & _); split; [exact F|]; split; [assert (V' : val (fst w) = rnd t) by exact V; rewrite V'; apply Rabs_le; lra|].
rewrite z0, Rmult_0_l, rnd0 in B, B'; exact (proj1 (B (B' lt0))).
Qed.
End Quotient.
Example C112_hypotheses : fin f_49 = true /\ fin f_zero = true /\ val f_zero = 0 /\ bpow radix2 (-1023) <= Rabs (val f_49) /\ bpow radix2 (-1021) <= Rabs (val f_49) <= bpow radix2 1021 /\
  fin (fst (cnormalise64 (f_49, f_zero) (f_tenth, f_tenth))) = true /\ fin (snd (cnormalise64 (f_49, f_zero) (f_tenth, f_tenth))) = true.
Proof.
assert (V : val f_49 = 49) by (unfold B2R, F2R; simpl; lra); rewrite V, Rabs_pos_eq by lra.
assert (A : bpow radix2 (-1021) <= 1) by (change 1 with (bpow radix2 0); apply bpow_le; lia).
assert (B : bpow radix2 (-1023) <= 1) by (change 1 with (bpow radix2 0); apply bpow_le; lia).
assert (C : bpow radix2 6 <= bpow radix2 1021) by (apply bpow_le; lia); change (bpow radix2 6) with 64 in C.
repeat split; try lra; vm_compute; reflexivity.
Qed.
Example C111_hypotheses : fin f_tenth = true /\ fin (b64_opp f_tenth) = true. Proof. split; reflexivity. Qed.

Print Assumptions C111_finite_partial.
Print Assumptions C111_infinite_refuted.
Print Assumptions C111_infinite_real_partial.
Print Assumptions C111_hypotheses.
Print Assumptions C112_real_element.
Print Assumptions C112_complex_element_refuted.
Print Assumptions C112_complex_element_partial.
Print Assumptions C112_hermitian_partial.
Print Assumptions C112_hypotheses.
