(* Integer parts of the square roots computed by unvec and unvech. *)
From Coq Require Import Reals ZArith Lra Lia.
From Verif Require Import Model_vecnum.
Local Open Scope R_scope.

Lemma Int_part_eq x z : IZR z <= x < IZR z + 1 -> Int_part x = z.
Proof.
intros [H1 H2].
destruct (base_Int_part x) as [H3 H4].
assert (A1 : IZR (Int_part x) < IZR (z + 1)) by (rewrite plus_IZR; lra).
assert (A2 : IZR z < IZR (Int_part x + 1)) by (rewrite plus_IZR; lra).
apply lt_IZR in A1; apply lt_IZR in A2; lia.
Qed.
Lemma sqrt_square_INR k : sqrt (INR (k * k)) = INR k.
Proof. rewrite mult_INR; apply sqrt_square; apply pos_INR. Qed.
Lemma Int_part_INR k : Int_part (INR k) = Z.of_nat k.
Proof. apply Int_part_eq; rewrite <- INR_IZR_INZ; lra. Qed.
Lemma rows_triangular n l : (2 * l = n * (n + 1))%nat ->
  1 / 2 * (- (1) + sqrt (1 + 8 * INR l)) = INR n.
Proof.
intros H.
assert (E : 1 + 8 * INR l = (2 * INR n + 1) * (2 * INR n + 1)).
{ apply (f_equal INR) in H; rewrite !mult_INR, plus_INR in H; simpl in H; lra. }
rewrite E, sqrt_square; [lra|].
pose proof (pos_INR n); lra.
Qed.
Lemma unvec_k_square k : unvec_k (k * k) = k.
Proof. unfold unvec_k, to_int; rewrite sqrt_square_INR, Int_part_INR; apply Nat2Z.id. Qed.
Lemma round_INR n : np_round (INR n) = Z.of_nat n.
Proof.
unfold np_round; rewrite Int_part_INR, <- INR_IZR_INZ.
destruct (Rlt_dec (INR n - INR n) (1 / 2)) as [_|h]; [reflexivity|exfalso; apply h; lra].
Qed.
Lemma rows_ok n l : (2 * l = n * (n + 1))%nat -> unvech_rows l = n.
Proof. intros e; unfold unvech_rows; rewrite (rows_triangular n l e), round_INR; apply Nat2Z.id. Qed.
