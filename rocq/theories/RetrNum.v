(* ln(1 + s + s^2/2) is s up to |s|^3/3.  Nothing here models code. *)
From Coq Require Import Reals Lra Psatz.
From Coquelicot Require Import Coquelicot.
Local Open Scope R_scope.
Lemma q_ge (s : R) : / 2 <= 1 + s + / 2 * s ^ 2.
Proof. assert (h := Rle_0_sqr (1 + s)); unfold Rsqr in h; simpl; lra. Qed.
Lemma q_mvt (e s : R) : -1 <= e <= 1 -> exists d, 0 <= d /\ s ^ 3 / 3 + e * (ln (1 + s + / 2 * s ^ 2) - s) = d * s.
Proof.
intros he; set (g := fun s => s ^ 3 / 3 + e * (ln (1 + s + / 2 * s ^ 2) - s)).
set (g' := fun s => s ^ 2 + e * (- (/ 2 * s ^ 2) / (1 + s + / 2 * s ^ 2))).
assert (d : forall x, is_derive g x (g' x)).
  intros x; unfold g, g'; assert (h := q_ge x); auto_derive; [repeat split; simpl in *; lra|].
  field; simpl in *; lra.
destruct (MVT_gen g 0 s g') as [c [_ hc]].
- intros; apply d.
- intros; apply continuity_pt_filterlim; apply (ex_derive_continuous g); exists (g' x); apply d.
- exists (g' c); split.
  + assert (h := q_ge c); unfold g'; assert (h2 := pow2_ge_0 c).
    assert (h3 : 0 <= / 2 * c ^ 2 / (1 + c + / 2 * c ^ 2) <= c ^ 2).
      split; [apply Rmult_le_pos; [lra|left; apply Rinv_0_lt_compat; lra]|].
      apply (Rmult_le_reg_r (1 + c + / 2 * c ^ 2)); [lra|].
      replace (/ 2 * c ^ 2 / (1 + c + / 2 * c ^ 2) * (1 + c + / 2 * c ^ 2)) with (/ 2 * c ^ 2) by (field; lra).
      rewrite (Rmult_comm (/ 2)); apply Rmult_le_compat_l; lra.
    replace (- (/ 2 * c ^ 2) / (1 + c + / 2 * c ^ 2)) with (- (/ 2 * c ^ 2 / (1 + c + / 2 * c ^ 2))) by (field; lra).
    set (r := / 2 * c ^ 2 / (1 + c + / 2 * c ^ 2)) in *; nra.
  + assert (g0 : g 0 = 0).
      unfold g; replace (1 + 0 + / 2 * 0 ^ 2) with 1 by (simpl; lra); rewrite ln_1; simpl; lra.
    change (g s = g' c * s); lra.
Qed.
Lemma ln_retr (s : R) : (ln (1 + s + / 2 * s ^ 2) - s) ^ 2 <= / 9 * s ^ 6.
Proof.
destruct (q_mvt 1 s) as [a [a0 ha]]; [lra|]; destruct (q_mvt (-1) s) as [b [b0 hb]]; [lra|].
set (f := ln (1 + s + / 2 * s ^ 2) - s) in *.
replace (/ 9 * s ^ 6) with ((s ^ 3 / 3) ^ 2) by field.
assert (h : 0 <= (s ^ 3 / 3 + 1 * f) * (s ^ 3 / 3 + -1 * f)).
  rewrite ha, hb; replace (a * s * (b * s)) with (a * b * s ^ 2) by ring.
  apply Rmult_le_pos; [apply Rmult_le_pos; assumption|apply pow2_ge_0].
set (t := s ^ 3 / 3) in *; nra.
Qed.
