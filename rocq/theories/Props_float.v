(* C06: the covariance round trip in binary64. *)
From Coq Require Import Reals ZArith Lra Lia Psatz.
From Flocq Require Import Core IEEE754.BinarySingleNaN IEEE754.Binary IEEE754.Bits.
From Verif Require Import Model_float.
Local Open Scope R_scope.

Notation val := (B2R 53 1024).
Notation fin := (is_finite 53 1024).
Notation fmt := (generic_format radix2 (FLT_exp (-1074) 53)).
Notation rnd := (round radix2 (FLT_exp (-1074) 53) ZnearestE).

#[local] Instance prec53 : Prec_gt_0 53 := eq_refl.
Lemma val_half : val f_half = / 2. Proof. unfold B2R, F2R; simpl. lra. Qed.
Lemma val_two : val f_two = 2. Proof. unfold B2R, F2R; simpl. lra. Qed.
Lemma fmt_val x : fmt (val x). Proof. exact (generic_format_B2R 53 1024 x). Qed.
Lemma rnd_fmt x : fmt x -> rnd x = x. Proof. apply round_generic; auto with typeclass_instances. Qed.
Lemma fmt_double x : fmt x -> fmt (2 * x).
Proof.
intros H; apply FLT_format_generic in H; [|reflexivity].
destruct H as [[m e] E Hm He]; apply generic_format_FLT.
exists (Float radix2 m (e + 1)); simpl in *; [|exact Hm|lia].
rewrite E; unfold F2R, Fnum, Fexp; rewrite bpow_plus; change (bpow radix2 1) with 2; ring.
Qed.
Lemma val_lt x : Rabs (val x) < bpow radix2 1024. Proof. apply abs_B2R_lt_emax. Qed.
Lemma rnd_lt x y : Rabs y <= Rabs (val x) -> Rabs (rnd y) < bpow radix2 1024.
Proof.
intros H; apply Rle_lt_trans with (2 := val_lt x).
apply abs_round_le_generic; auto with typeclass_instances.
apply generic_format_abs, fmt_val.
Qed.
Lemma mul_ok x y : fin x = true -> fin y = true -> Rabs (rnd (val x * val y)) < bpow radix2 1024 ->
  fin (b64_mult mode_NE x y) = true /\ val (b64_mult mode_NE x y) = rnd (val x * val y).
Proof.
intros Fx Fy H; generalize (Bmult_correct 53 1024 (eq_refl _) (eq_refl _) binop_nan_pl64 mode_NE x y).
change (round radix2 _ _ (val x * val y)) with (rnd (val x * val y)).
rewrite Rlt_bool_true by exact H; intros (E & F & _).
unfold b64_mult; split; [rewrite F, Fx, Fy; reflexivity | exact E].
Qed.

Lemma add_ok x y : fin x = true -> fin y = true -> Rabs (rnd (val x + val y)) < bpow radix2 1024 ->
  fin (b64_plus mode_NE x y) = true /\ val (b64_plus mode_NE x y) = rnd (val x + val y).
Proof.
intros Fx Fy H; generalize (Bplus_correct 53 1024 (eq_refl _) (eq_refl _) binop_nan_pl64 mode_NE x y Fx Fy).
change (round radix2 _ _ (val x + val y)) with (rnd (val x + val y)).
rewrite Rlt_bool_true by exact H; intros (E & F & _); unfold b64_plus; split; assumption.
Qed.
Lemma sub_ok x y : fin x = true -> fin y = true -> Rabs (rnd (val x - val y)) < bpow radix2 1024 ->
  fin (b64_minus mode_NE x y) = true /\ val (b64_minus mode_NE x y) = rnd (val x - val y).
Proof.
intros Fx Fy H; generalize (Bminus_correct 53 1024 (eq_refl _) (eq_refl _) binop_nan_pl64 mode_NE x y Fx Fy).
change (round radix2 _ _ (val x - val y)) with (rnd (val x - val y)).
rewrite Rlt_bool_true by exact H; intros (E & F & _); unfold b64_minus; split; assumption.
Qed.
Lemma rnd0 : rnd 0 = 0. Proof. apply round_0; auto with typeclass_instances. Qed.
Lemma lt0 : Rabs 0 < bpow radix2 1024. Proof. rewrite Rabs_R0; apply bpow_gt_0. Qed.
Lemma mul_0 x y : fin x = true -> fin y = true -> val x = 0 \/ val y = 0 ->
  fin (b64_mult mode_NE x y) = true /\ val (b64_mult mode_NE x y) = 0.
Proof.
intros Fx Fy H; assert (E : val x * val y = 0) by (destruct H as [-> | ->]; ring).
destruct (mul_ok x y Fx Fy) as (A & B); [rewrite E, rnd0; exact lt0|].
rewrite E, rnd0 in B; auto.
Qed.
Lemma half_ok x : fin x = true -> fin (b64_mult mode_NE f_half x) = true /\ val (b64_mult mode_NE f_half x) = rnd (val x / 2).
Proof.
intros Fx; replace (val x / 2) with (val f_half * val x) by (rewrite val_half; unfold Rdiv; ring).
apply mul_ok; auto; apply rnd_lt with x; rewrite val_half, Rabs_mult, (Rabs_pos_eq (/ 2)) by lra.
generalize (Rabs_pos (val x)); lra.
Qed.
(* half of the largest finite number is representable *)
Lemma double_lt x : Rabs (2 * rnd (val x / 2)) < bpow radix2 1024.
Proof.
assert (B : Rabs (val x) <= bpow radix2 1024 - bpow radix2 971) by exact (abs_B2R_le_emax_minus_prec 53 1024 eq_refl x).
assert (E : (bpow radix2 1024 - bpow radix2 971) / 2 = F2R (Float radix2 (2 ^ 53 - 1) 970)).
  unfold F2R, Fnum, Fexp; change 1024%Z with (54 + 970)%Z; change 971%Z with (1 + 970)%Z; rewrite !bpow_plus.
  replace (IZR (2 ^ 53 - 1)) with ((bpow radix2 54 - bpow radix2 1) / 2); [field|].
  rewrite <- !IZR_Zpower by lia; simpl; lra.
assert (H : Rabs (rnd (val x / 2)) <= (bpow radix2 1024 - bpow radix2 971) / 2).
  apply abs_round_le_generic; auto with typeclass_instances.
    rewrite E; apply generic_format_FLT; exists (Float radix2 (2 ^ 53 - 1) 970); auto; simpl; lia.
  unfold Rdiv; rewrite Rabs_mult, (Rabs_pos_eq (/ 2)) by lra; lra.
rewrite Rabs_mult, (Rabs_pos_eq 2) by lra; generalize (bpow_gt_0 radix2 971); lra.
Qed.
Lemma two_half_ok x (h := b64_mult mode_NE f_half x) : fin x = true ->
  fin (b64_mult mode_NE f_two h) = true /\ val (b64_mult mode_NE f_two h) = 2 * rnd (val x / 2).
Proof.
intros Fx; destruct (half_ok x Fx) as (F & E); fold h in F, E.
assert (R : rnd (val f_two * val h) = 2 * rnd (val x / 2)).
  rewrite val_two, rnd_fmt, E by apply fmt_double, fmt_val; reflexivity.
rewrite <- R; apply mul_ok; auto; rewrite R; apply double_lt.
Qed.
(* what the round trip returns *)
Lemma round_trip_val re im : fin re = true -> fin im = true ->
  fin (fst (round_trip64 re im)) = true /\ fin (snd (round_trip64 re im)) = true /\
  val (fst (round_trip64 re im)) = 2 * rnd (val re / 2) /\ val (snd (round_trip64 re im)) = 2 * rnd (val im / 2).
Proof.
intros Fr Fi; unfold round_trip64, to_real64, to_complex64, cadd64, cmul64; cbv [fst snd].
set (p := b64_mult mode_NE f_half re); set (q := b64_mult mode_NE f_half im).
destruct (half_ok im Fi) as (Fq & Eq); fold q in Fq, Eq.
destruct (two_half_ok re Fr) as (F2p & E2p); fold p in F2p, E2p.
destruct (two_half_ok im Fi) as (F2q & E2q); fold q in F2q, E2q.
destruct (mul_0 f_zero q eq_refl Fq (or_introl eq_refl)) as (F0q & E0q).
destruct (mul_0 f_two f_zero eq_refl eq_refl (or_intror eq_refl)) as (F20 & E20).
destruct (mul_0 f_zero f_zero eq_refl eq_refl (or_introl eq_refl)) as (F00 & E00).
destruct (sub_ok _ _ F0q F20) as (Fs & Es).
  rewrite E0q, E20, Rminus_0_r, rnd0; exact lt0.
rewrite E0q, E20, Rminus_0_r, rnd0 in Es.
assert (N : forall x, fin x = true -> rnd (2 * rnd (val x / 2)) = 2 * rnd (val x / 2)).
  intros x _; apply rnd_fmt, fmt_double, generic_format_round; auto with typeclass_instances.
destruct (add_ok _ _ F00 F2q) as (Fa & Ea).
  rewrite E00, E2q, Rplus_0_l, N by assumption; apply double_lt.
rewrite E00, E2q, Rplus_0_l, N in Ea by assumption.
destruct (add_ok _ _ F2p Fs) as (Fb & Eb).
  rewrite Es, E2p, Rplus_0_r, N by assumption; apply double_lt.
rewrite Es, E2p, Rplus_0_r, N in Eb by assumption.
assert (Z0 : val f_zero = 0) by reflexivity.
destruct (add_ok f_zero _ eq_refl Fa) as (Fc & Ec).
  rewrite Z0, Ea, Rplus_0_l, N by assumption; apply double_lt.
rewrite Z0, Ea, Rplus_0_l, N in Ec by assumption.
auto.
Qed.
(* exact halves *)
Definition halvable (x : binary64) := fmt (val x / 2).
(* The round trip gives back the entry (as a number) exactly when both parts can be halved. *)
Theorem C06_round_trip_iff re im : fin re = true -> fin im = true ->
  fin (fst (round_trip64 re im)) = true /\ fin (snd (round_trip64 re im)) = true /\
  (val (fst (round_trip64 re im)) = val re <-> halvable re) /\ (val (snd (round_trip64 re im)) = val im <-> halvable im).
Proof.
intros Fr Fi; destruct (round_trip_val re im Fr Fi) as (F1 & F2 & -> & ->).
assert (A : forall x, 2 * rnd (val x / 2) = val x <-> halvable x).
  intros x; unfold halvable; split; intros H; [|rewrite (rnd_fmt _ H); field].
  replace (val x / 2) with (rnd (val x / 2)) by lra; apply generic_format_round; auto with typeclass_instances.
auto.
Qed.
(* zero and every number of magnitude at least 2^-1021 *)
Lemma normal_halvable x : val x = 0 \/ bpow radix2 (-1021) <= Rabs (val x) -> halvable x.
Proof.
unfold halvable; intros [-> | H]; [unfold Rdiv; rewrite Rmult_0_l; apply generic_format_0|].
assert (X := generic_format_FLX_FLT radix2 (-1074) 53 _ (fmt_val x)).
apply generic_format_FLT_FLX; auto with typeclass_instances.
  change (-1074 + 53 - 1)%Z with (-1021 + -1)%Z; rewrite bpow_plus; unfold Rdiv.
  rewrite Rabs_mult, (Rabs_pos_eq (/ 2)) by lra; change (bpow radix2 (-1)) with (/ 2); lra.
apply FLX_format_generic in X; [|reflexivity].
destruct X as [[m e] E Hm]; apply generic_format_FLX; exists (Float radix2 m (e - 1)); simpl in *; [|exact Hm].
rewrite E; unfold F2R, Fnum, Fexp, Zminus; rewrite bpow_plus; change (bpow radix2 (- (1))) with (/ 2); field.
Qed.
(* halvable numbers are the even multiples of the smallest positive number *)
Lemma halvable_iff x : halvable x <-> exists m : Z, val x = IZR (2 * m) * bpow radix2 (-1074).
Proof.
split.
  intros H; apply FLT_format_generic in H; [|reflexivity].
  destruct H as [[m e] E _ He]; simpl in He; exists (m * 2 ^ (e + 1074))%Z.
  rewrite !mult_IZR; change 2%Z with (radix_val radix2) at 2; rewrite IZR_Zpower by lia.
  unfold F2R, Fnum, Fexp in E.
  replace (bpow radix2 e) with (bpow radix2 (e + 1074) * bpow radix2 (-1074)) in E by (rewrite <- bpow_plus; f_equal; lia).
  replace (val x) with (2 * (val x / 2)) by field; rewrite E; ring.
intros [m E]; destruct (Rle_or_lt (bpow radix2 (-1021)) (Rabs (val x))) as [H | H]; [apply normal_halvable; auto|].
unfold halvable; apply generic_format_FLT; exists (Float radix2 m (-1074)); simpl; [|apply lt_IZR|lia].
  rewrite E, mult_IZR; unfold F2R, Fnum, Fexp; field.
assert (P := bpow_gt_0 radix2 (-1074)).
apply Rmult_lt_reg_r with (1 := P).
rewrite E, mult_IZR, !Rabs_mult, (Rabs_pos_eq 2), (Rabs_pos_eq (bpow _ _)) in H by lra.
change (-1021)%Z with (53 + -1074)%Z in H; rewrite bpow_plus, <- (IZR_Zpower radix2 53) in H by lia.
change (Zpower radix2 53) with 9007199254740992%Z in H; rewrite abs_IZR.
generalize (Rmult_le_pos _ _ (Rabs_pos (IZR m)) (Rlt_le _ _ P)); lra.
Qed.
Theorem C06_exact_iff_even_multiple re im : fin re = true -> fin im = true ->
  (val (fst (round_trip64 re im)) = val re /\ val (snd (round_trip64 re im)) = val im <->
   (exists m, val re = IZR (2 * m) * bpow radix2 (-1074)) /\ (exists m, val im = IZR (2 * m) * bpow radix2 (-1074))).
Proof.
intros Fr Fi; destruct (C06_round_trip_iff re im Fr Fi) as (_ & _ & -> & ->); rewrite !halvable_iff; tauto.
Qed.
(* No part is lost or made infinite when it is zero or not below 2^-1021; a nonzero part comes back as the very same float. *)
Theorem C06_normal_round_trip_partial re im : fin re = true -> fin im = true ->
  val re = 0 \/ bpow radix2 (-1021) <= Rabs (val re) -> val im = 0 \/ bpow radix2 (-1021) <= Rabs (val im) ->
  (val (fst (round_trip64 re im)) = val re /\ (val re <> 0 -> fst (round_trip64 re im) = re)) /\
  (val (snd (round_trip64 re im)) = val im /\ (val im <> 0 -> snd (round_trip64 re im) = im)).
Proof.
intros Fr Fi Hr Hi; destruct (C06_round_trip_iff re im Fr Fi) as (F1 & F2 & E1 & E2).
assert (E1' := proj2 E1 (normal_halvable _ Hr)); assert (E2' := proj2 E2 (normal_halvable _ Hi)).
assert (S : forall x, fin x = true -> val x <> 0 -> is_finite_strict 53 1024 x = true).
  intros [s|s|s pl H|s m e H] Fx Nx; try reflexivity; try discriminate; elim Nx; reflexivity.
split; (split; [assumption|intros N]);
  (apply B2R_inj; [apply S; [assumption|congruence]|apply S; assumption|assumption]).
Qed.
(* the error is never more than one unit of the smallest positive number *)
Theorem C06_error_bound re im : fin re = true -> fin im = true ->
  Rabs (val (fst (round_trip64 re im)) - val re) <= bpow radix2 (-1074) /\
  Rabs (val (snd (round_trip64 re im)) - val im) <= bpow radix2 (-1074).
Proof.
assert (A : forall x, Rabs (2 * rnd (val x / 2) - val x) <= bpow radix2 (-1074)).
  intros x; destruct (Rle_or_lt (bpow radix2 (-1021)) (Rabs (val x))) as [H | H].
    rewrite (rnd_fmt _ (normal_halvable _ (or_intror H))).
    replace (2 * (val x / 2) - val x) with 0 by field; rewrite Rabs_R0; apply Rlt_le, bpow_gt_0.
  replace (2 * rnd (val x / 2) - val x) with (2 * (rnd (val x / 2) - val x / 2)) by field.
  rewrite Rabs_mult, (Rabs_pos_eq 2) by lra.
  assert (U : ulp radix2 (FLT_exp (-1074) 53) (val x / 2) = bpow radix2 (-1074)).
    apply ulp_FLT_small; auto with typeclass_instances.
    unfold Rdiv; rewrite Rabs_mult, (Rabs_pos_eq (/ 2)) by lra; change (-1074 + 53)%Z with (-1021)%Z.
    generalize (Rabs_pos (val x)); lra.
  generalize (error_le_half_ulp radix2 (FLT_exp (-1074) 53) (fun n => negb (Z.even n)) (val x / 2)); rewrite U; lra.
intros Fr Fi; destruct (round_trip_val re im Fr Fi) as (_ & _ & -> & ->); auto.
Qed.
(* the smallest positive number is lost *)
Definition f_min : binary64 := b64_of_bits 1.
Theorem C06_subnormal_lost_refuted : fin f_min = true /\ round_trip64 f_min f_zero = (f_zero, f_zero) /\ f_min <> f_zero.
Proof. split; [reflexivity|split; [vm_compute; reflexivity|discriminate]]. Qed.
(* examples: 0.1 + 1e300 i comes back; so does the largest finite number; -0. comes back as +0. in the imaginary part *)
Definition f_tenth : binary64 := b64_of_bits 0x3FB999999999999A.
Definition f_max : binary64 := b64_of_bits 0x7FEFFFFFFFFFFFFF.
Definition bits2 (z : binary64 * binary64) := (bits_of_b64 (fst z), bits_of_b64 (snd z)).
Example C06_example : bits2 (round_trip64 f_tenth f_max) = bits2 (f_tenth, f_max). Proof. vm_compute; reflexivity. Qed.
Example C06_example_hyp : fin f_tenth = true /\ fin f_max = true /\ bpow radix2 (-1021) <= Rabs (val f_tenth).
Proof.
split; [reflexivity|split; [reflexivity|]].
rewrite Rabs_pos_eq by (unfold B2R; simpl; apply F2R_ge_0; simpl; lia).
apply Rle_trans with (bpow radix2 (-4)); [apply bpow_le; lia|].
unfold B2R, F2R; simpl; lra.
Qed.
Example C06_example_negative_zero : bits2 (round_trip64 f_max (b64_opp f_zero)) = bits2 (f_max, f_zero). Proof. vm_compute; reflexivity. Qed.

Print Assumptions C06_round_trip_iff.
Print Assumptions C06_exact_iff_even_multiple.
Print Assumptions C06_normal_round_trip_partial.
Print Assumptions C06_error_bound.
Print Assumptions C06_subnormal_lost_refuted.
