(* The iterations of Tyler's algorithm started from the sample covariance matrix when one sample is large.  Nothing here
   models code. *)
From Coq Require Import Reals Lra Classical_Prop.
From mathcomp Require Import all_ssreflect all_algebra.
From mathcomp Require Import zify.
From Verif Require Import RealsMC RealTac RealTac2 Star FunCalc Spec_covariance Spec_fixedpoint Spec_exist Proofs_mest Proofs_cost Proofs_unique Proofs_unique2
  Compact Proofs_estimators Proofs_converge Props_cost Props_unique Props_converge Proofs_exist Proofs_exist2 Spec_breakdown Proofs_breakdown.
Set Implicit Arguments.
Unset Strict Implicit.
Unset Printing Implicit Defensive.
Local Open Scope ring_scope.
Import GRing.Theory Num.Theory Order.TTheory.

Section Start.
Variable K : starField.
Local Notation ofR := (@ofR K).
Local Notation toR := (@toR K).
Local Notation "A ^H" := (adj A) (at level 8, format "A ^H").
Definition rqf p (S : 'M[K]_p) v : R := toR (qf S v).
Lemma ofR_rqf p (S : 'M[K]_p) v : psd S -> ofR (rqf S v) = qf S v.
Proof. by move=> [_ h]; exact/ofR_toR_ge0. Qed.
Lemma rqf_loewner p (S T : 'M[K]_p) v : loewner S T -> rqf S v <= rqf T v.
Proof.
by move=> [_ /(_ v)]; rewrite qfD -[- S]scaleN1r qfZ mulN1r /rqf => /toR_ge0; rewrite raddfB subr_ge0.
Qed.
Lemma rqfZ p (S : 'M[K]_p) c v : rqf (ofR c *: S) v = c * rqf S v.
Proof. by rewrite /rqf qfZ toRZ. Qed.
Lemma rqf_outer p (x v : 'cV[K]_p) : rqf (outer x) v = sq ((x^H *m v) 0 0).
Proof. by rewrite /rqf qf_outer. Qed.
Lemma maha_above p (S : 'M[K]_p) y a : pd S -> 0 < a -> loewner (ofR a *: outer y) S -> a * maha S y <= 1.
Proof.
move=> pS a0 /(rqf_loewner (invmx S *m y)); have hS := pd_herm pS; rewrite rqfZ rqf_outer /rqf -qf_inv ?pd_unit // -/(maha S y).
have := ofR_maha y pS; rewrite /qf /sesq -mulmxA => <-; rewrite /sq cj_ofR -rmorphM !toRK.
have := maha_ge0 y pS; move: (maha S y) => m m0; have [->|mn] := eqVneq m 0; first by move=> _; rewrite mulr0 ler01.
by rewrite mulrA -{3}[m]mul1r ler_pmul2r // lt_def mn.
Qed.
Lemma CSm p (S : 'M[K]_p) x v : pd S -> sq ((x^H *m v) 0 0) <= maha S x * rqf S v.
Proof. by move=> pS; have := rqf_loewner v (outer_le x pS); rewrite rqfZ rqf_outer. Qed.
Lemma loewner_sum p I (r : seq I) (P : pred I) (A B : I -> 'M[K]_p) : (forall i, P i -> loewner (A i) (B i)) ->
  loewner (\sum_(i <- r | P i) A i) (\sum_(i <- r | P i) B i).
Proof.
move=> h; rewrite /loewner -sumrB; elim/big_rec: _ => [|i T Pi pT]; first exact: psd0.
by apply: psdD => //; exact: h.
Qed.
Variables (N p : nat) (Y : 'M[K]_(N, p.+1)).
Hypotheses (N0 : (0 < N)%N) (Y0 : forall i, row i Y != 0) (sp : spanning Y).
Local Notation F := (mstep (tyl_w N p.+1) Y).
Lemma F_pd S : pd S -> pd (F S). Proof. exact: tyl_pd. Qed.
Lemma step_up S : pd S -> loewner (F S) (ofR p.+1%:R *: S).
Proof.
move=> pS; have -> : ofR p.+1%:R *: S = \sum_(i < N) ofR (p.+1%:R / N%:R) *: S.
  by rewrite sumr_const card_ord -scaler_nat scalerA rmorphM fmorphV !rmorph_nat mulrC divfK // pnatr_eq0 -lt0n.
apply: loewner_sum => i _; have q0 := maha_gt0 pS (samp0 Y0 i); have := outer_le (samp Y i) pS; rewrite /loewner => h.
have -> : ofR (p.+1%:R / N%:R) *: S - ofR (tyl_w N p.+1 (maha S (samp Y i))) *: outer (samp Y i) = ofR (tyl_w N p.+1 (maha S (samp Y i))) *: (ofR (maha S (samp Y i)) *: S - outer (samp Y i)).
  by rewrite scalerBr scalerA -rmorphM /tyl_w divfK // gt_eqF.
by apply: psdZ h; rewrite ofR_ge0 /tyl_w divr_ge0 ?tyl_c0 // ltW.
Qed.
Lemma step_low S i : pd S -> maha (F S) (samp Y i) <= N%:R / p.+1%:R * maha S (samp Y i).
Proof.
move=> pS; have q0 := maha_gt0 pS (samp0 Y0 i); pose a := tyl_w N p.+1 (maha S (samp Y i)).
have a0 : 0 < a by rewrite !divr_gt0 ?ltr0n.
have : loewner (ofR a *: outer (samp Y i)) (F S).
  rewrite /loewner /mstep /wsum (bigD1 i) //= -/a addrC addKr; elim/big_rec: _ => [|j T _ pT]; first exact: psd0.
  apply: psdD => //; apply: psdZ; last exact: psd_outer.
  rewrite ofR_ge0 /tyl_w divr_ge0 ?tyl_c0 //; exact/ltW/maha_gt0/samp0.
move/(maha_above (F_pd pS) a0); rewrite -ler_pdivl_mull // mulr1; have -> // : a^-1 = N%:R / p.+1%:R * maha S (samp Y i).
by rewrite /a /tyl_w 2!invfM !invrK [_^-1 * N%:R]mulrC.
Qed.
Lemma iter_bounds S k i v : pd S -> [/\ pd (iter k F S), rqf (iter k F S) v <= p.+1%:R ^+ k * rqf S v &
  maha (iter k F S) (samp Y i) <= (N%:R / p.+1%:R) ^+ k * maha S (samp Y i)].
Proof.
move=> pS; elim: k => [|k [pk a b]] /=; first by rewrite !expr0 !mul1r.
split; first exact: F_pd.
  by apply: le_trans (rqf_loewner v (step_up pk)) _; rewrite rqfZ exprS -mulrA ler_pmul2l ?ltr0n.
by apply: le_trans (step_low i pk) _; rewrite exprS -[X in _ <= X]mulrA ler_pmul2l // divr_gt0 ?ltr0n.
Qed.
Lemma iter_ratio M k i (e v : 'cV[K]_p.+1) : pd (wsum (fun=> N%:R^-1) Y) -> (\sum_j sq (e j 0)) = 1 -> (\sum_j sq (v j 0)) = 1 ->
  conditioned M (iter k F (wsum (fun=> N%:R^-1) Y)) ->
  sq (((samp Y i)^H *m e) 0 0) <= M * (N%:R ^+ k * \sum_j sq (((samp Y j)^H *m v) 0 0)).
Proof.
move=> p0 e1 v1 [c c0 [lo up]]; pose S := wsum (fun=> N%:R^-1) Y; have n0 : 0 < N%:R :> R by rewrite ltr0n.
have [pk a b] := iter_bounds k i v p0.
have one (u : 'cV[K]_p.+1) : \sum_j sq (u j 0) = 1 -> rqf 1%:M u = 1.
  by move=> h; rewrite /rqf qf1 -h normcol raddf_sum; apply: eq_bigr.
have hv : c <= rqf (iter k F S) v by have := rqf_loewner v lo; rewrite rqfZ one ?mulr1.
have he : rqf (iter k F S) e <= M * c by have := rqf_loewner e up; rewrite rqfZ one ?mulr1.
have cs := CSm (samp Y i) e pk.
have m1 : maha S (samp Y i) <= N%:R.
  have n1 : 0 < N%:R^-1 :> R by rewrite invr_gt0.
  have : loewner (ofR N%:R^-1 *: outer (samp Y i)) S.
    rewrite /loewner /S /wsum (bigD1 i) //= addrC addKr; elim/big_rec: _ => [|j T _ pT]; first exact: psd0.
    by apply: psdD => //; apply: psdZ; [rewrite ofR_ge0 ltW | exact: psd_outer].
  by move/(maha_above p0 n1); rewrite -ler_pdivl_mull // invrK mulr1.
have sv : rqf S v = N%:R^-1 * \sum_j sq (((samp Y j)^H *m v) 0 0).
  rewrite /rqf /S /wsum qf_sum raddf_sum mulr_sumr; apply: eq_bigr => j _; by rewrite -/(rqf _ _) rqfZ rqf_outer.
rewrite -/S sv in a; set q := \sum_j _ in a *; have q0 : 0 <= q by apply: sumr_ge0 => j _; exact: sq_ge0.
have q1 : 0 < p.+1%:R :> R by rewrite ltr0n.
apply: le_trans cs _; apply: (@le_trans _ _ ((N%:R / p.+1%:R) ^+ k * N%:R * (M * (p.+1%:R ^+ k * (N%:R^-1 * q))))).
  have M0 : 0 <= M.
    have : 0 <= M * c by apply: le_trans he; exact/toR_ge0/pd_qf_ge0.
    by rewrite pmulr_lge0.
  apply: ler_pmul; [exact: maha_ge0 | exact/toR_ge0/pd_qf_ge0 | |].
    by apply: le_trans b _; rewrite ler_pmul2l // exprn_gt0 // divr_gt0.
  by apply: le_trans he _; apply: ler_wpmul2l => //; apply: le_trans hv _.
rewrite expr_div_n; have -> : N%:R ^+ k / p.+1%:R ^+ k * N%:R * (M * (p.+1%:R ^+ k * (N%:R^-1 * q))) = M * (N%:R ^+ k * q) * ((p.+1%:R ^+ k / p.+1%:R ^+ k) * (N%:R / N%:R)).
  move: (N%:R ^+ k) (p.+1%:R ^+ k) => x y; rring.
by rewrite !divff ?mulr1 // gt_eqF // exprn_gt0.
Qed.
End Start.
