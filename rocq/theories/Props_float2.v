(* C110: sizes and Hermitian matrices in binary64. *)
From Coq Require Import Reals ZArith Lra Lia Psatz.
From Flocq Require Import Core IEEE754.BinarySingleNaN IEEE754.Binary IEEE754.Bits Relative.
From Verif Require Import Model_float Props_float Model_float2.
Local Open Scope R_scope.

#[local] Instance prec53' : Prec_gt_0 53 := eq_refl.
(* integers in binary64 *)
Lemma fmt_int n : (Z.abs n <= 2 ^ 53)%Z -> fmt (IZR n).
Proof.
intros H; destruct (Z.eq_dec (Z.abs n) (2 ^ 53)) as [E|E].
  assert (D : n = (2 ^ 53)%Z \/ n = (- 2 ^ 53)%Z) by lia.
  assert (P : fmt (IZR (2 ^ 53))).
    change (IZR (2 ^ 53)) with (IZR (Zpower radix2 53)); rewrite IZR_Zpower by lia.
    apply generic_format_bpow; unfold FLT_exp; lia.
  destruct D as [-> | ->]; auto; rewrite opp_IZR; apply generic_format_opp; exact P.
apply generic_format_FLT; exists (Float radix2 n 0); simpl; try lia; unfold F2R; simpl; ring.
Qed.
Lemma pow_bpow e : (0 <= e)%Z -> IZR (2 ^ e) = bpow radix2 e.
Proof. intros H; rewrite <- IZR_Zpower by exact H; reflexivity. Qed.
Lemma rnd_near k e s : (1 <= e <= 53)%Z -> (2 ^ (e - 1) <= k < 2 ^ e)%Z -> IZR (2 ^ (e - 1)) <= s < IZR (2 ^ e) ->
  Rabs (s - IZR k) < bpow radix2 (e - 54) -> rnd s = IZR k.
Proof.
intros He Hk Hs H; rewrite !pow_bpow in Hs by lia.
assert (B1 := bpow_gt_0 radix2 (e - 1)).
assert (M : mag radix2 s = e :> Z) by (apply mag_unique; rewrite Rabs_pos_eq by lra; exact Hs).
assert (C : cexp radix2 (FLT_exp (-1074) 53) s = (e - 53)%Z) by (unfold cexp; rewrite M; unfold FLT_exp; lia).
unfold round, scaled_mantissa; rewrite C.
assert (N : ZnearestE (s * bpow radix2 (- (e - 53))) = (k * 2 ^ (53 - e))%Z).
  apply Znearest_imp; rewrite mult_IZR, pow_bpow by lia; replace (- (e - 53))%Z with (53 - e)%Z by ring.
  rewrite <- Rmult_minus_distr_r, Rabs_mult, (Rabs_pos_eq (bpow _ _)) by apply bpow_ge_0.
  apply Rlt_le_trans with (bpow radix2 (e - 54) * bpow radix2 (53 - e)).
    apply Rmult_lt_compat_r; [apply bpow_gt_0 | exact H].
  rewrite <- bpow_plus; replace (e - 54 + (53 - e))%Z with (-1)%Z by ring; change (bpow radix2 (-1)) with (/ 2); lra.
rewrite N; unfold F2R, Fnum, Fexp; rewrite mult_IZR, pow_bpow, Rmult_assoc, <- bpow_plus by lia.
replace (53 - e + (e - 53))%Z with 0%Z by ring; change (bpow radix2 0) with 1; ring.
Qed.
Lemma rel_err x : 1 <= x -> Rabs (rnd x - x) <= bpow radix2 (-53) * x.
Proof.
intros H; assert (X := relative_error_N_FLT radix2 (-1074) 53 eq_refl (fun x => negb (Z.even x)) x).
rewrite (Rabs_pos_eq x) in X by lra; eapply Rle_trans; [apply X|].
  apply Rle_trans with (bpow radix2 0); [apply bpow_le; lia | simpl; lra].
apply Rmult_le_compat_r; [lra|].
replace (/ 2) with (bpow radix2 (-1)) by reflexivity; rewrite <- bpow_plus; apply bpow_le; lia.
Qed.
Lemma sqrt_gap (k P u s : R) : 1 <= k -> P / 2 <= k -> k <= P - 1 -> 0 < u -> P * u <= 1 -> 0 <= s -> Rabs (s * s - k * k) <= u * (k * k) -> Rabs (s - k) < P * u / 2.
Proof.
intros k1 k2 k3 u0 Pu s0 H; apply Rnot_le_lt; intros C.
assert (P2 : 2 <= P) by lra.
assert (K : P - 1 <= k * (P - k)) by nra.
assert (h0 : 0 < P * u / 2) by nra.
destruct (Rle_or_lt 0 (s - k)) as [D|D].
  rewrite Rabs_pos_eq in C by exact D.
  assert (E : s * s - k * k <= u * (k * k)) by (eapply Rle_trans; [apply Rle_abs | exact H]).
  assert (F : s * s - k * k = (s - k) * (s - k + 2 * k)) by ring.
  assert (G : P * u / 2 * (2 * k) <= (s - k) * (s - k + 2 * k)) by (apply Rmult_le_compat; lra).
  nra.
rewrite Rabs_left in C by exact D.
assert (E : k * k - s * s <= u * (k * k)) by (rewrite <- (Rabs_Ropp (s * s - k * k)) in H; replace (- (s * s - k * k)) with (k * k - s * s) in H by ring; eapply Rle_trans; [apply Rle_abs | exact H]).
set (t := k - s); assert (T : k * k - s * s = t * (2 * k - t)) by (unfold t; ring).
assert (T1 : P * u / 2 <= t) by (unfold t; lra).
assert (T2 : t <= k) by (unfold t; lra).
assert (G : P * u / 2 * (2 * k - P * u / 2) <= t * (2 * k - t)).
  assert (0 <= (t - P * u / 2) * (2 * k - t - P * u / 2)) by (apply Rmult_le_pos; lra); nra.
rewrite T in E; assert (Q : P * u * k - P * u * (P * u) / 4 <= u * (k * k)) by nra.
assert (W : P * k - P * (P * u) / 4 <= k * k) by (apply Rmult_le_reg_l with u; nra).
nra.
Qed.
Lemma sqrt_square64 k : (0 <= k < 2 ^ 32)%Z -> rnd (sqrt (rnd (IZR (k * k)))) = IZR k.
Proof.
intros Hk; destruct (Z.eq_dec k 0) as [->|K0].
  simpl; rewrite rnd0, sqrt_0, rnd0; reflexivity.
set (e := (Z.log2 k + 1)%Z).
assert (L := Z.log2_spec k ltac:(lia)); assert (L0 := Z.log2_nonneg k).
assert (L1 : (Z.log2 k < 32)%Z) by (apply Z.log2_lt_pow2; lia).
assert (He : (2 ^ (e - 1) <= k < 2 ^ e)%Z) by (unfold e; replace (Z.log2 k + 1 - 1)%Z with (Z.log2 k) by ring; exact L).
assert (ex : rnd (IZR (k * k)) = IZR (k * k) -> rnd (sqrt (rnd (IZR (k * k)))) = IZR k).
  intros E; rewrite E, mult_IZR, sqrt_square by (apply IZR_le; lia); apply rnd_fmt, fmt_int; lia.
destruct (Z.eq_dec k (2 ^ (e - 1))) as [E|E].
  apply ex, rnd_fmt; rewrite E, <- Z.pow_add_r, pow_bpow by lia; apply generic_format_bpow; unfold FLT_exp; lia.
set (y := rnd (IZR (k * k))); set (s := sqrt y).
assert (k1 : 1 <= IZR k) by (apply IZR_le; lia).
assert (kk : 1 <= IZR k * IZR k) by nra.
assert (R := rel_err (IZR (k * k))); rewrite mult_IZR in R; specialize (R kk).
assert (U : bpow radix2 (-53) = / IZR (2 ^ 53)) by (rewrite pow_bpow by lia; apply (bpow_opp radix2 53)).
assert (y0 : 0 <= y) by (apply round_ge_generic; auto with typeclass_instances; [apply generic_format_0 | rewrite mult_IZR; nra]).
assert (ss : s * s = y) by (apply sqrt_sqrt; exact y0).
assert (P1 : IZR (2 ^ e) = 2 * IZR (2 ^ (e - 1))).
  replace (2 ^ e)%Z with (2 * 2 ^ (e - 1))%Z by (rewrite <- Z.pow_succ_r by lia; f_equal; lia); apply mult_IZR.
assert (k2 : IZR (2 ^ (e - 1)) + 1 <= IZR k) by (rewrite <- plus_IZR; apply IZR_le; lia).
assert (k3 : IZR k <= IZR (2 ^ e) - 1) by (rewrite <- minus_IZR; apply IZR_le; lia).
assert (PU : IZR (2 ^ e) * bpow radix2 (-53) = bpow radix2 (e - 53)) by (rewrite pow_bpow, <- bpow_plus by lia; f_equal; lia).
assert (D : Rabs (s - IZR k) < IZR (2 ^ e) * bpow radix2 (-53) / 2).
{ apply sqrt_gap; try lra.
  - rewrite PU; change 1 with (bpow radix2 0); apply bpow_le; lia.
  - apply sqrt_pos.
  - rewrite ss; unfold y; rewrite mult_IZR; exact R. }
rewrite PU in D.
assert (D1 : bpow radix2 (e - 53) / 2 = bpow radix2 (e - 54)).
  replace (e - 53)%Z with (e - 54 + 1)%Z by ring; rewrite bpow_plus; change (bpow radix2 1) with 2; lra.
assert (D2 : bpow radix2 (e - 53) <= 1) by (change 1 with (bpow radix2 0); apply bpow_le; lia).
rewrite D1 in D; apply rnd_near with e; [lia | exact He | | exact D].
apply Rabs_def2 in D; lra.
Qed.
Lemma of_Z_ok n : (0 <= n < 2 ^ 64)%Z -> val (f_of_Z n) = rnd (IZR n) /\ fin (f_of_Z n) = true.
Proof.
intros H; assert (X := binary_normalize_correct 53 1024 eq_refl eq_refl mode_NE n 0 false); fold (f_of_Z n) in X.
assert (E : F2R (Float radix2 n 0) = IZR n) by (unfold F2R; simpl; ring).
rewrite E in X; change (round radix2 _ _ (IZR n)) with (rnd (IZR n)) in X.
rewrite Rlt_bool_true in X; [tauto|].
apply Rle_lt_trans with (bpow radix2 64); [|apply bpow_lt; lia].
apply abs_round_le_generic; auto with typeclass_instances; [apply generic_format_bpow; unfold FLT_exp; lia|].
rewrite <- abs_IZR, <- pow_bpow by lia; apply IZR_le; lia.
Qed.
Lemma sqrt_val x : val (b64_sqrt mode_NE x) = rnd (sqrt (val x)).
Proof. exact (proj1 (Bsqrt_correct 53 1024 eq_refl eq_refl unop_nan_pl64 mode_NE x)). Qed.
Lemma sqrt_fin n : (0 <= n < 2 ^ 64)%Z -> fin (b64_sqrt mode_NE (f_of_Z n)) = true.
Proof.
intros H; destruct (of_Z_ok n H) as (V & F).
destruct (Bsqrt_correct 53 1024 eq_refl eq_refl unop_nan_pl64 mode_NE (f_of_Z n)) as (_ & E & _).
unfold b64_sqrt; rewrite E; assert (V0 : 0 <= val (f_of_Z n)).
  rewrite V; apply round_ge_generic; auto with typeclass_instances; [apply generic_format_0 | apply IZR_le; lia].
destruct (f_of_Z n) as [| | |[|] m ex b]; try reflexivity; try discriminate F.
exfalso; revert V0; unfold B2R; apply Rlt_not_le, F2R_lt_0; reflexivity.
Qed.
Lemma sqrt_ok k : (0 <= k < 2 ^ 32)%Z -> fin (b64_sqrt mode_NE (f_of_Z (k * k))) = true /\ val (b64_sqrt mode_NE (f_of_Z (k * k))) = IZR k.
Proof.
intros H; assert (B : (0 <= k * k < 2 ^ 64)%Z) by nia.
split; [exact (sqrt_fin _ B) | rewrite sqrt_val, (proj1 (of_Z_ok _ B)); exact (sqrt_square64 k H)].
Qed.
(* unvec finds the size of the matrix, whatever the rounding errors; an array has less than 2^63 entries *)
Theorem C110_unvec_size k : (0 <= k)%Z -> (k * k < 2 ^ 63)%Z -> unvec_k64 (k * k) = k.
Proof.
intros H0 H1; assert (H : (0 <= k < 2 ^ 32)%Z) by nia; destruct (sqrt_ok k H) as (_ & V).
apply eq_IZR; unfold unvec_k64; rewrite Btrunc_correct, V by reflexivity.
apply round_generic; auto with typeclass_instances; apply generic_format_FIX; exists (Float radix2 k 0); [unfold F2R; simpl; ring | reflexivity].
Qed.
(* hence it accepts exactly the lengths that are squares *)
Theorem C110_unvec_accepts l : (0 <= l < 2 ^ 63)%Z -> unvec_accepts64 l = true <-> exists k, (0 <= k)%Z /\ l = (k * k)%Z.
Proof.
intros H; unfold unvec_accepts64; rewrite Z.eqb_eq; split.
  intros E; exists (Z.abs (unvec_k64 l)); split; [apply Z.abs_nonneg | rewrite <- Z.abs_mul, E; lia].
intros (k & k0 & ->); rewrite C110_unvec_size by lia; reflexivity.
Qed.
Lemma val_mone : val f_mone = -1. Proof. unfold B2R, F2R; simpl. lra. Qed.
Lemma val_one : val f_one = 1. Proof. unfold B2R, F2R; simpl. lra. Qed.
Lemma small_lt n : (Z.abs n <= 2 ^ 53)%Z -> Rabs (rnd (IZR n)) < bpow radix2 1024.
Proof.
intros H; rewrite rnd_fmt by (apply fmt_int; exact H); rewrite <- abs_IZR; apply Rle_lt_trans with (IZR (2 ^ 53)); [apply IZR_le; exact H|].
rewrite pow_bpow by lia; apply bpow_lt; lia.
Qed.
(* unvech finds the number of rows *)
Theorem C110_unvech_rows k : (0 <= k)%Z -> (k * (k + 1) / 2 < 2 ^ 60)%Z -> unvech_rows64 (k * (k + 1) / 2) = k.
Proof.
intros H0 H1.
assert (E2 : (k * (k + 1) / 2 * 2 = k * (k + 1))%Z).
  assert (Z.even (k * (k + 1)) = true) by (rewrite Z.even_mul, Z.even_add; destruct (Z.even k); reflexivity).
  apply Z.even_spec in H; destruct H as (q & Q); rewrite Q, (Z.mul_comm 2 q), Z.div_mul by lia; reflexivity.
unfold unvech_rows64; replace (1 + 8 * (k * (k + 1) / 2))%Z with ((2 * k + 1) * (2 * k + 1))%Z by nia.
assert (B : (0 <= 2 * k + 1 < 2 ^ 32)%Z) by nia.
destruct (sqrt_ok _ B) as (F & V); set (s := b64_sqrt mode_NE _) in *.
assert (S : val f_mone + val s = IZR (2 * k)) by (rewrite V, val_mone, plus_IZR; simpl; ring).
destruct (add_ok f_mone s eq_refl F) as (Fa & Va); [rewrite S; apply small_lt; lia|].
rewrite S, rnd_fmt in Va by (apply fmt_int; lia); set (a := b64_plus mode_NE f_mone s) in *.
destruct (half_ok a Fa) as (_ & Vh); rewrite Vh, Va, mult_IZR; replace (2 * IZR k / 2) with (IZR k) by field.
rewrite rnd_fmt by (apply fmt_int; lia); apply Znearest_imp; rewrite Rminus_diag_eq, Rabs_R0 by reflexivity; lra.
Qed.
Theorem C110_unvech_accepts l : (0 <= l < 2 ^ 60)%Z -> unvech_accepts64 l = true <-> exists k, (0 <= k)%Z /\ l = (k * (k + 1) / 2)%Z.
Proof.
intros H; unfold unvech_accepts64; rewrite Bool.orb_true_iff, !Z.eqb_eq; split.
  intros [E|E].
    destruct (Z_le_gt_dec 0 (unvech_rows64 l)) as [P|P]; [exists (unvech_rows64 l); auto|].
    exists (- unvech_rows64 l - 1)%Z; split; [lia | rewrite <- E at 1; f_equal; ring].
  exists 1%Z; split; [lia | rewrite E; reflexivity].
intros (k & k0 & ->); left; rewrite C110_unvech_rows by lia; reflexivity.
Qed.

(* ------------------------------------------------------------------ Hermitian parts *)
(* numbers whose double is a number *)
Definition small (x : binary64) := fin x = true /\ Rabs (val x) < bpow radix2 1023.
Definition csmall (z : binary64 * binary64) := small (fst z) /\ small (snd z).
Lemma double_ok x : small x -> Rabs (2 * val x) <= bpow radix2 1024 - bpow radix2 971.
Proof.
intros (F & B); assert (E : rnd (val f_two * val x) = 2 * val x) by (rewrite val_two; apply rnd_fmt, fmt_double, fmt_val).
destruct (mul_ok f_two x eq_refl F) as (_ & V).
  rewrite E, Rabs_mult, (Rabs_pos_eq 2) by lra; rewrite (bpow_plus radix2 1 1023 : bpow radix2 1024 = _); change (bpow radix2 1) with 2; lra.
rewrite <- E, <- V; apply (abs_B2R_le_emax_minus_prec 53 1024 eq_refl).
Qed.
Lemma sum_lt x y : small x -> small y -> Rabs (rnd (val x + val y)) < bpow radix2 1024.
Proof.
intros Hx Hy; assert (A := double_ok x Hx); assert (B := double_ok y Hy).
assert (M : fmt (bpow radix2 1024 - bpow radix2 971)).
  replace (bpow radix2 1024 - bpow radix2 971) with (F2R (Float radix2 (2 ^ 53 - 1) 971)).
    apply generic_format_FLT; exists (Float radix2 (2 ^ 53 - 1) 971); auto; simpl; lia.
  unfold F2R, Fnum, Fexp; rewrite minus_IZR, pow_bpow by lia; rewrite Rmult_minus_distr_r, <- bpow_plus; change (53 + 971)%Z with 1024%Z; rewrite Rmult_1_l; reflexivity.
apply Rle_lt_trans with (bpow radix2 1024 - bpow radix2 971); [|generalize (bpow_gt_0 radix2 971); lra].
apply abs_round_le_generic; auto with typeclass_instances.
rewrite Rabs_mult, (Rabs_pos_eq 2) in A, B by lra; eapply Rle_trans; [apply Rabs_triang | lra].
Qed.
Lemma rnd_opp x : rnd (- x) = - rnd x.
Proof. apply round_NE_opp. Qed.
Lemma opp_small x : small x -> small (b64_opp x) /\ val (b64_opp x) = - val x.
Proof.
intros (F & B); assert (E : val (b64_opp x) = - val x) by apply B2R_Bopp; split; auto; split; [|rewrite E, Rabs_Ropp; exact B].
unfold b64_opp; rewrite is_finite_Bopp; exact F.
Qed.
(* 0.5 * z for complex z *)
Lemma chalf_ok z : fin (fst z) = true -> fin (snd z) = true ->
  let w := cmul64 (f_half, f_zero) z in fin (fst w) = true /\ fin (snd w) = true /\ val (fst w) = rnd (val (fst z) / 2) /\ val (snd w) = rnd (val (snd z) / 2).
Proof.
destruct z as [a b]; simpl fst; simpl snd; intros Fa Fb; unfold cmul64; cbv [fst snd].
assert (H : forall x, Rabs (rnd (val x / 2)) < bpow radix2 1024).
  intros x; apply rnd_lt with x; unfold Rdiv; rewrite Rabs_mult, (Rabs_pos_eq (/ 2)) by lra; generalize (Rabs_pos (val x)); lra.
assert (I : forall x, rnd (rnd (val x / 2)) = rnd (val x / 2)) by (intros x; apply rnd_fmt, generic_format_round; auto with typeclass_instances).
destruct (half_ok a Fa) as (F1 & V1); destruct (half_ok b Fb) as (F2 & V2).
destruct (mul_0 f_zero b eq_refl Fb (or_introl eq_refl)) as (F3 & V3); destruct (mul_0 f_zero a eq_refl Fa (or_introl eq_refl)) as (F4 & V4).
destruct (sub_ok _ _ F1 F3) as (F5 & V5); [rewrite V1, V3, Rminus_0_r, I; apply H|].
destruct (add_ok _ _ F2 F4) as (F6 & V6); [rewrite V2, V4, Rplus_0_r, I; apply H|].
rewrite V5, V6, V1, V2, V3, V4, Rminus_0_r, Rplus_0_r, !I; auto.
Qed.
(* what one entry is *)
Lemma hermitian_entry X i j : csmall (X i j) -> csmall (X j i) ->
  fin (fst (hermitian64 X i j)) = true /\ fin (snd (hermitian64 X i j)) = true /\
  val (fst (hermitian64 X i j)) = rnd (rnd (val (fst (X i j)) + val (fst (X j i))) / 2) /\
  val (snd (hermitian64 X i j)) = rnd (rnd (val (snd (X i j)) - val (snd (X j i))) / 2).
Proof.
intros (A & B) (C & D); destruct (opp_small _ D) as (D' & E); unfold hermitian64.
destruct (add_ok _ _ (proj1 A) (proj1 C) (sum_lt _ _ A C)) as (F1 & V1).
destruct (add_ok _ _ (proj1 B) (proj1 D') (sum_lt _ _ B D')) as (F2 & V2); rewrite E in V2.
destruct (chalf_ok (cadd64 (X i j) (cconj64 (X j i))) F1 F2) as (G1 & G2 & W1 & W2); rewrite W1, W2.
exact (conj G1 (conj G2 (conj (f_equal (fun t => rnd (t / 2)) V1) (f_equal (fun t => rnd (t / 2)) V2)))).
Qed.
(* hermitian and multiherm return an exactly Hermitian matrix with finite entries *)
Theorem C110_hermitian X : (forall i j, csmall (X i j)) -> forall i j,
  fin (fst (hermitian64 X i j)) = true /\ fin (snd (hermitian64 X i j)) = true /\
  val (fst (hermitian64 X i j)) = val (fst (hermitian64 X j i)) /\ val (snd (hermitian64 X i j)) = - val (snd (hermitian64 X j i)).
Proof.
intros H i j; destruct (hermitian_entry X i j (H i j) (H j i)) as (F1 & F2 & V1 & V2); destruct (hermitian_entry X j i (H j i) (H i j)) as (_ & _ & V3 & V4).
rewrite V1, V2, V3, V4, (Rplus_comm (val (fst (X j i)))); repeat split; auto.
rewrite <- Ropp_minus_distr, rnd_opp; unfold Rdiv; rewrite Ropp_mult_distr_l_reverse, rnd_opp; reflexivity.
Qed.
(* and leave the Hermitian matrices unchanged *)
Theorem C110_hermitian_id X i j : csmall (X i j) -> csmall (X j i) ->
  val (fst (X i j)) = val (fst (X j i)) -> val (snd (X i j)) = - val (snd (X j i)) ->
  val (fst (hermitian64 X i j)) = val (fst (X i j)) /\ val (snd (hermitian64 X i j)) = val (snd (X i j)).
Proof.
intros A B E1 E2; destruct (hermitian_entry X i j A B) as (_ & _ & V1 & V2).
assert (E3 : val (snd (X j i)) = - val (snd (X i j))) by (rewrite E2; ring).
assert (D : forall x, rnd (rnd (2 * val x) / 2) = val x).
  intros x; rewrite (rnd_fmt (2 * val x)) by apply fmt_double, fmt_val; replace (2 * val x / 2) with (val x) by field; apply rnd_fmt, fmt_val.
rewrite V1, V2, <- E1, E3; replace (val (fst (X i j)) + val (fst (X i j))) with (2 * val (fst (X i j))) by ring.
replace (val (snd (X i j)) - - val (snd (X i j))) with (2 * val (snd (X i j))) by ring; auto.
Qed.
Theorem C110_symmetric X i j : small (X i j) -> small (X j i) ->
  fin (symmetric64 X i j) = true /\ val (symmetric64 X i j) = val (symmetric64 X j i) /\
  (val (X i j) = val (X j i) -> val (symmetric64 X i j) = val (X i j)).
Proof.
intros A B; assert (H : forall i j, small (X i j) -> small (X j i) -> fin (symmetric64 X i j) = true /\ val (symmetric64 X i j) = rnd (rnd (val (X i j) + val (X j i)) / 2)).
  intros k l C D; destruct (add_ok _ _ (proj1 C) (proj1 D) (sum_lt _ _ C D)) as (F & V); rewrite <- V; exact (half_ok _ F).
destruct (H i j A B) as (F & V); destruct (H j i B A) as (_ & V'); rewrite V, V', (Rplus_comm (val (X j i))); repeat split; auto.
intros <-; replace (val (X i j) + val (X i j)) with (2 * val (X i j)) by ring.
rewrite (rnd_fmt (2 * val _)) by apply fmt_double, fmt_val; replace (2 * val (X i j) / 2) with (val (X i j)) by field; apply rnd_fmt, fmt_val.
Qed.
(* without the bound the sum overflows: the diagonal entry becomes inf + nan j *)
Theorem C110_overflow : is_finite 53 1024 f_max = true /\
  let X := (fun _ _ : nat => (f_max, f_zero)) in fin (fst (hermitian64 X 0%nat 0%nat)) = false /\ is_nan 53 1024 (snd (hermitian64 X 0%nat 0%nat)) = true.
Proof. repeat split; vm_compute; reflexivity. Qed.

(* ------------------------------------------------------------------ half-vectorisation *)
(* unvech gives back exactly the Hermitian matrix whose upper triangle it receives *)
Theorem C110_unvech S i j : csmall (S i j) -> csmall (S j i) ->
  val (fst (S j i)) = val (fst (S i j)) -> val (snd (S j i)) = - val (snd (S i j)) ->
  fin (fst (unvech64 S i j)) = true /\ fin (snd (unvech64 S i j)) = true /\
  val (fst (unvech64 S i j)) = val (fst (S i j)) /\ val (snd (unvech64 S i j)) = val (snd (S i j)).
Proof.
intros A B E1 E2; assert (Z0 : small f_zero).
  split; [reflexivity|]; change (val f_zero) with 0; rewrite Rabs_R0; apply bpow_gt_0.
destruct (opp_small _ Z0) as (Z1 & V0); change (val f_zero) with 0 in V0; rewrite Ropp_0 in V0.
destruct A as (A1 & A2); destruct B as (B1 & B2); destruct (opp_small _ B2) as (B3 & VB); destruct (opp_small _ A2) as (A3 & VA).
unfold unvech64; destruct (Nat.eqb_spec i j) as [<-|N].
  rewrite Nat.leb_refl; unfold cadd64, cconj64; cbn [fst snd].
  destruct (add_ok _ _ (proj1 A1) (proj1 A1) (sum_lt _ _ A1 A1)) as (F1 & V1); set (a := b64_plus _ _ _) in F1, V1.
  destruct (add_ok _ _ (proj1 A2) (proj1 A3) (sum_lt _ _ A2 A3)) as (F2 & V2); rewrite VA, Rplus_opp_r, rnd0 in V2; set (b := b64_plus _ _ _) in F2, V2.
  replace (val (fst (S i i)) + val (fst (S i i))) with (2 * val (fst (S i i))) in V1 by ring; rewrite rnd_fmt in V1 by apply fmt_double, fmt_val.
  fold a b; unfold cdiv64; cbn [fst snd].
  replace (b64_div mode_NE f_zero f_two) with f_zero by (apply (B2FF_inj 53 1024); vm_compute; reflexivity).
  replace (b64_div mode_NE f_one (b64_plus mode_NE f_two (b64_mult mode_NE f_zero f_zero))) with f_half by (apply (B2FF_inj 53 1024); vm_compute; reflexivity).
  destruct (mul_0 b f_zero F2 eq_refl (or_intror eq_refl)) as (F3 & V3); destruct (mul_0 a f_zero F1 eq_refl (or_intror eq_refl)) as (F4 & V4).
  assert (D := double_ok _ A1); assert (G := bpow_gt_0 radix2 971).
  destruct (add_ok _ _ F1 F3) as (F5 & V5); [rewrite V1, V3, Rplus_0_r, rnd_fmt by apply fmt_double, fmt_val; lra|].
  rewrite V1, V3, Rplus_0_r, rnd_fmt in V5 by apply fmt_double, fmt_val.
  destruct (sub_ok _ _ F2 F4) as (F6 & V6); [rewrite V2, V4, Rminus_0_r, rnd0; exact lt0|]; rewrite V2, V4, Rminus_0_r, rnd0 in V6.
  assert (M : rnd (val (b64_plus mode_NE a (b64_mult mode_NE b f_zero)) * val f_half) = val (fst (S i i))).
    rewrite V5, val_half; replace (2 * val (fst (S i i)) * / 2) with (val (fst (S i i))) by field; apply rnd_fmt, fmt_val.
  destruct (mul_ok _ f_half F5 eq_refl) as (F7 & V7); [rewrite M; apply val_lt|].
  destruct (mul_0 _ f_half F6 eq_refl (or_introl V6)) as (F8 & V8).
  assert (I0 : val (snd (S i i)) = 0) by lra; rewrite V7, M, V8, I0; auto.
destruct (Nat.leb_spec i j) as [L|L].
  replace (Nat.leb j i) with false by (symmetry; apply Nat.leb_gt; lia); unfold cadd64, cconj64; cbn [fst snd].
  destruct (add_ok _ _ (proj1 A1) (proj1 Z0) (sum_lt _ _ A1 Z0)) as (F1 & V1); destruct (add_ok _ _ (proj1 A2) (proj1 Z1) (sum_lt _ _ A2 Z1)) as (F2 & V2).
  rewrite V0, Rplus_0_r, rnd_fmt in V2 by apply fmt_val; change (val f_zero) with 0 in V1; rewrite Rplus_0_r, rnd_fmt in V1 by apply fmt_val; auto.
replace (Nat.leb j i) with true by (symmetry; apply Nat.leb_le; lia); unfold cadd64, cconj64; cbn [fst snd].
destruct (add_ok _ _ (proj1 Z0) (proj1 B1) (sum_lt _ _ Z0 B1)) as (F1 & V1); destruct (add_ok _ _ (proj1 Z0) (proj1 B3) (sum_lt _ _ Z0 B3)) as (F2 & V2).
change (val f_zero) with 0 in V1, V2; rewrite VB, E2, Ropp_involutive, Rplus_0_l, rnd_fmt in V2 by apply fmt_val.
rewrite E1, Rplus_0_l, rnd_fmt in V1 by apply fmt_val; auto.
Qed.

(* 10 = 4 * 5 / 2, 49 = 7 * 7; a Hermitian matrix with entries 0.1 + 0.1 j, 0.1 *)
Example C110_sizes : unvec_k64 49 = 7%Z /\ unvec_accepts64 48 = false /\ unvech_rows64 10 = 4%Z /\ unvec_k64 (3037000499 * 3037000499) = 3037000499%Z.
Proof. split; [vm_compute; reflexivity|]; split; [vm_compute; reflexivity|]; split; [apply (C110_unvech_rows 4); [lia | reflexivity] | vm_compute; reflexivity]. Qed.
Example C110_hypotheses : let S (i j : nat) := if Nat.eqb i j then (f_tenth, f_zero) else if Nat.ltb i j then (f_tenth, f_tenth) else (f_tenth, b64_opp f_tenth) in
  forall i j, csmall (S i j) /\ val (fst (S j i)) = val (fst (S i j)) /\ val (snd (S j i)) = - val (snd (S i j)).
Proof.
assert (T : small f_tenth).
  split; [reflexivity|]; apply Rle_lt_trans with 1; [|change 1 with (bpow radix2 0); apply bpow_lt; lia].
  unfold B2R, F2R; simpl; rewrite Rabs_pos_eq; lra.
assert (Z : small f_zero) by (split; [reflexivity|]; change (val f_zero) with 0; rewrite Rabs_R0; apply bpow_gt_0).
assert (O := opp_small _ T); assert (Z0 : val f_zero = 0) by reflexivity.
intros S i j; unfold S; rewrite (Nat.eqb_sym j i); destruct (Nat.eqb_spec i j) as [E|E].
  cbv [csmall fst snd]; rewrite Z0, Ropp_0; auto.
destruct (Nat.ltb_spec i j) as [L|L].
  replace (Nat.ltb j i) with false by (symmetry; apply Nat.ltb_ge; lia); cbv [csmall fst snd]; destruct O as (_ & O); auto.
replace (Nat.ltb j i) with true by (symmetry; apply Nat.ltb_lt; lia); cbv [csmall fst snd]; destruct O as (O' & O); rewrite O, Ropp_involutive; auto.
Qed.

Print Assumptions C110_unvec_size.
Print Assumptions C110_unvec_accepts.
Print Assumptions C110_unvech_rows.
Print Assumptions C110_unvech_accepts.
Print Assumptions C110_hermitian.
Print Assumptions C110_hermitian_id.
Print Assumptions C110_symmetric.
Print Assumptions C110_overflow.
Print Assumptions C110_unvech.
Print Assumptions C110_sizes.
Print Assumptions C110_hypotheses.
