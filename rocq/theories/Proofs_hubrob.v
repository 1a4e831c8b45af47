(* The matrices computed by the Huber functions when some samples are arbitrary. *)
From Coq Require Import Reals Lra.
From mathcomp Require Import all_ssreflect all_algebra.
From mathcomp Require Import complex zify.
From Verif Require Import RealsMC RealTac RealTac2 Star StarInst FunCalc Compact Spec_covariance Spec_exist Spec_breakdown Spec_hubiter Spec_hubrob
  Proofs_mest Proofs_cost Proofs_unique Proofs_unique2 Proofs_converge Proofs_exist Proofs_exist2 Proofs_breakdown Proofs_breakdown2 Proofs_breakdown4 Proofs_tv.
Set Implicit Arguments.
Unset Strict Implicit.
Unset Printing Implicit Defensive.
Local Open Scope ring_scope.
Import GRing.Theory Num.Theory Order.TTheory.

Lemma explode_alg (b z c n : R) : b * (z * (c * n) ^+ 2) = b * c ^+ 2 * n * z * n.
Proof. by rewrite !expr2; rring. Qed.
Section Rob.
Variable K : starField.
Local Notation ofR := (@ofR K).
Local Notation toR := (@toR K).
Local Notation "A ^H" := (adj A) (at level 8, format "A ^H").
Section Keep.
Variables (N p : nat) (X : 'M[K]_(N, p.+1)).
Definition keepA (A : {set 'I_N}) : 'M[K]_(N, p.+1) := \matrix_i (if i \in A then row i X else 0).
Lemma keep_spanning m (A : {set 'I_N}) : spans_without m X -> (N <= #|A| + m)%N -> spanning (keepA A).
Proof.
move=> sp nA; apply: spanning_rank; have [V XV rV] := hull (keepA A); apply/eqP; rewrite eqn_leq rank_leq_col /= leqNgt; apply/negP => lt.
have := sp V; rewrite rV => /(_ lt); rewrite ltnNge => /negP; apply; apply: leq_trans nA _; rewrite leq_add2r.
apply: subset_leq_card; apply/subsetP => i iA; rewrite inE; apply: submx_trans XV.
have -> : row i X = row i (keepA A) by rewrite rowK iA.
exact: row_sub.
Qed.
Lemma scm_keep (A : {set 'I_N}) (Y : 'M[K]_(N, p.+1)) : (forall i, i \in A -> row i Y = row i X) -> loewner (scm (keepA A)) (scm Y).
Proof.
move=> h; rewrite /scm /wsum; apply: loewner_sum => i _.
have -> : samp (keepA A) i = if i \in A then samp Y i else 0.
  by rewrite /samp rowK; case: ifP => iA; rewrite ?h // trmx0.
case: ifP => _; first exact: loewner_refl.
rewrite /outer mul0mx scaler0 /loewner subr0; apply: psdZ; last exact: psd_outer.
by rewrite ofR_ge0 invr_ge0 ler0n.
Qed.
Lemma scm_low m : (0 < N)%N -> spans_without m X -> exists2 l : R, 0 < l & forall Y, (#|[set i | row i Y != row i X]| <= m)%N -> loewner (ofR l *: 1%:M) (scm Y).
Proof.
move=> N0 sp.
have E (A : {set 'I_N}) : exists l : R, 0 < l /\ ((N <= #|A| + m)%N -> loewner (ofR l *: 1%:M) (scm (keepA A))).
  case: (leqP N (#|A| + m)) => [nA|_]; last by exists 1; split=> //; exact: ltr01.
  have pA : pd (scm (keepA A)) by apply: wsum_pd; [move=> i; rewrite invr_gt0 ltr0n | exact: keep_spanning nA].
  have [l [l1 h _]] := pd_comparable (pd1 K p.+1) pA; have l0 := lt_le_trans ltr01 l1; exists l^-1; split; first by rewrite invr_gt0.
  move=> _; have := loewnerZ (ltW (etrans (invr_gt0 _) l0)) h; by rewrite scalerA -rmorphM mulVf ?gt_eqF // (rmorph1 (@Star.ofR K)) scale1r.
have [f hf] := fin_all_exists E; pose t := \sum_A (f A)^-1.
have g0 A : 0 <= (f A)^-1 by rewrite invr_ge0 ltW //; case: (hf A).
have tA A : (f A)^-1 <= t by rewrite /t (bigD1 A) //= ler_addl sumr_ge0.
have t0 : 0 < t by apply: lt_le_trans (tA set0); rewrite invr_gt0; case: (hf set0).
pose l := t^-1; have l0 : 0 < l by rewrite invr_gt0.
have lA A : l <= f A by rewrite -[f A]invrK lef_pinv // posrE // invr_gt0; case: (hf A).
exists l => // Y cY; pose A := [set i | row i Y == row i X].
have nA : (N <= #|A| + m)%N.
  have eA : ~: A = [set i | row i Y != row i X] by apply/setP => i; rewrite !inE.
  have := cardsC A; rewrite card_ord eA => e; apply: (@leq_trans (#|A| + #|[set i | row i Y != row i X]|)); [by rewrite e | by rewrite leq_add2l].
apply: loewner_trans (_ : loewner (ofR (f A) *: 1%:M) _); last first.
  by apply: loewner_trans ((hf A).2 nA) (scm_keep _) => i; rewrite inE => /eqP.
rewrite /loewner -scalerBl -rmorphB; apply: psdZ; last exact/pd_psd/pd1.
by rewrite ofR_ge0 subr_ge0.
Qed.
End Keep.
(* one sample c times larger *)
Section Move.
Variables (N p : nat) (X : 'M[K]_(N, p.+1)) (j : 'I_N).
Definition enlarge (c : R) : 'M[K]_(N, p.+1) := \matrix_i (if i == j then ofR c *: row i X else row i X).
Lemma enlarge_samp c i : samp (enlarge c) i = (if i == j then ofR c else 1) *: samp X i.
Proof. by rewrite /samp rowK; case: ifP => _; rewrite ?scale1r // linearZ. Qed.
Lemma enlarge_moved c : one_moved j X (enlarge c).
Proof. by move=> i /negbTE ij; rewrite rowK ij. Qed.
Lemma enlarge_nz c : c != 0 -> (forall i, row i X != 0) -> forall i, row i (enlarge c) != 0.
Proof. by move=> c0 X0 i; rewrite rowK; case: ifP => // _; rewrite scaler_eq0 negb_or fmorph_eq0 c0 X0. Qed.
Lemma enlarge_spanning c : c != 0 -> spanning X -> spanning (enlarge c).
Proof.
move=> c0 sp y h; apply: sp => i; have := h i; rewrite enlarge_samp adjZ -scalemxAl => /eqP; rewrite scaler_eq0 => /orP [/eqP e|/eqP //].
exfalso; move: e; case: ifP => _; last by rewrite rmorph1 => /eqP; rewrite oner_eq0.
by rewrite cj_ofR => /eqP; rewrite fmorph_eq0; apply/negP.
Qed.
Lemma moved_corrupted Y : (forall i, row i Y != 0) -> one_moved j X Y -> corrupted 1 X Y.
Proof.
move=> Y0 mv; split=> //; apply: (@leq_trans #|[set j]|); last by rewrite cards1.
apply: subset_leq_card; apply/subsetP => i; rewrite !inE; apply: contraR => ij; by rewrite mv.
Qed.
Lemma enlarge_explodes (M b c : R) s : 0 < b -> 0 < c -> row j X != 0 -> loewner (ofR b *: scm (enlarge c)) s -> loewner s (ofR M *: 1%:M) ->
  b * c ^+ 2 * sqnorm X j <= M * N%:R.
Proof.
move=> b0 c0 xj lo up; pose v := samp X j; have N0 : (0 < N)%N by case: (N) j {lo up xj v} => // -[].
have n0 : 0 < sqnorm X j by apply: toR_gt0; apply: normcol_gt0; rewrite /samp trmx_eq0.
have en : rqf 1%:M v = sqnorm X j by rewrite /rqf qf1.
have h2 := rqf_loewner v up; rewrite rqfZ en in h2.
have h1 := rqf_loewner v lo; rewrite rqfZ /scm rqf_wsum (bigD1 j) //= in h1.
have t0 : 0 <= \sum_(i | i != j) N%:R^-1 * sq (((samp (enlarge c) i)^H *m v) 0 0).
  by apply: sumr_ge0 => i _; rewrite mulr_ge0 ?invr_ge0 ?ler0n // sq_ge0.
have eq : sq (((samp (enlarge c) j)^H *m v) 0 0) = (c * sqnorm X j) ^+ 2.
  rewrite enlarge_samp eqxx adjZR -scalemxAl mxE -/v.
  have -> : (v^H *m v) 0 0 = ofR (sqnorm X j) by rewrite /sqnorm ofR_toR_ge0 // normcol_ge0.
  by rewrite -rmorphM /sq cj_ofR -rmorphM toRK expr2.
rewrite eq in h1; have := le_trans h1 h2; move: n0 t0; move: (sqnorm X j) (\sum_(i | _) _) => n t n0 t0.
have NR : 0 < N%:R :> R by rewrite ltr0n.
move=> h; have : b * (N%:R^-1 * (c * n) ^+ 2) <= M * n by apply: le_trans h; rewrite ler_pmul2l // ler_addl.
have -> : b * (N%:R^-1 * (c * n) ^+ 2) = b * c ^+ 2 * n / N%:R * n by exact: explode_alg.
by rewrite ler_pmul2r // ler_pdivr_mulr.
Qed.
End Move.
End Rob.
