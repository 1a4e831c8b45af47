(* The updates and the solutions for two sets of samples whose empirical distributions are close.  Nothing here models
   code. *)
From Coq Require Import Reals String Lra Classical_Prop.
From mathcomp Require Import all_ssreflect all_algebra.
From mathcomp Require Import zify.
From Verif Require Import RealsMC RealTac RealTac2 Star StarInst FunCalc Model_featurearray Model_covariance Spec_covariance Spec_fixedpoint Spec_exist
  Proofs_mest Proofs_cost Proofs_unique Proofs_unique2 Compact Proofs_estimators Proofs_converge Props_cost Props_robust Props_unique Props_converge
  Proofs_exist Proofs_exist2 Props_exist Spec_breakdown Proofs_breakdown Proofs_breakdown2 Proofs_stable Proofs_stable2 Proofs_tycont Proofs_tyrate Props_tyrate Proofs_tylip Spec_tv.
Set Implicit Arguments.
Unset Strict Implicit.
Unset Printing Implicit Defensive.
Local Open Scope ring_scope.
Import GRing.Theory Num.Theory Order.TTheory.

(* ------------------------------------------------------------------ the updates *)
Section Step.
Variable K : starField.
Local Notation ofR := (@ofR K).
Local Notation toR := (@toR K).
Local Notation "A ^H" := (adj A) (at level 8, format "A ^H").
Lemma loewner_rqf p (A B : 'M[K]_p) : herm A -> herm B -> (forall v, rqf A v <= rqf B v) -> loewner A B.
Proof.
move=> hA hB h; have hh := hermB hB hA; split=> // v; rewrite -(herm_qfE v hh) ofRge0.
have -> : qf (B - A) v = qf B v - qf A v by rewrite qfD -[- A]scaleN1r qfZ mulN1r.
by rewrite raddfB subr_ge0; exact: h.
Qed.
Lemma rqfD p (A B : 'M[K]_p) v : rqf (A + B) v = rqf A v + rqf B v.
Proof. by rewrite /rqf qfD raddfD. Qed.
Lemma rqf_wsum N p (w : 'I_N -> R) (X : 'M[K]_(N, p)) v : rqf (wsum w X) v = \sum_i w i * sq (((samp X i)^H *m v) 0 0).
Proof. by rewrite /rqf /wsum qf_sum raddf_sum; apply: eq_bigr => i _; rewrite qfZ toRZ -rqf_outer. Qed.
Lemma wsum_hermg N p (w : 'I_N -> R) (X : 'M[K]_(N, p)) : herm (wsum w X).
Proof.
rewrite /herm /wsum adj_sum; apply: eq_bigr => i _; rewrite adjZR; congr (_ *: _); exact: psd_herm (psd_outer _).
Qed.
Lemma rqf_ge0 p (V : 'M[K]_p) v : pd V -> 0 <= rqf V v.
Proof. by move=> pV; apply: toR_ge0; exact: pd_qf_ge0. Qed.
Lemma rqf_gt0 p (V : 'M[K]_p) v : pd V -> v != 0 -> 0 < rqf V v.
Proof. by move=> pV v0; apply: toR_gt0; exact: pV.2. Qed.
Lemma tv_sym N N' p (X : 'M[K]_(N, p)) (Y : 'M[K]_(N', p)) e : tv_le e X Y -> tv_le e Y X.
Proof. by move=> h g hg; rewrite distrC; exact: h. Qed.
Lemma tv_ge0 N N' p (X : 'M[K]_(N, p)) (Y : 'M[K]_(N', p)) e : tv_le e X Y -> 0 <= e.
Proof. by move=> /(_ (fun=> 0)) h; apply: le_trans (h _); rewrite ?normr_ge0 // => x; rewrite lexx ler01. Qed.
Lemma tv_nonempty N N' p (X : 'M[K]_(N, p)) (Y : 'M[K]_(N', p)) e : (0 < N)%N -> tv_le e X Y -> e < 1 -> (0 < N')%N.
Proof.
case: N' Y => [|//] Y N0 /(_ (fun=> 1)) h; rewrite ltNge => /negP []; apply: le_trans (h _); last by move=> x; rewrite ler01 lexx.
rewrite /mean big_ord0 mul0r sub0r normrN sumr_const card_ord divff ?normr1 //; by rewrite pnatr_eq0 -lt0n.
Qed.
(* an update moves, in the Loewner order, by at most c e times the matrix it is made from *)
Definition tvg p (V : 'M[K]_p) (v : 'cV[K]_p) (a : R) (x : 'cV[K]_p) : R := sq ((x^H *m v) 0 0) / ((a + maha V x) * rqf V v).
Lemma tvg01 p (V : 'M[K]_p) v a x : pd V -> 0 <= a -> 0 <= tvg V v a x <= 1.
Proof.
move=> pV a0; have m0 := maha_ge0 x pV; have r0 := rqf_ge0 v pV; have cs := CSm x v pV.
have am : 0 <= a + maha V x by rewrite addr_ge0.
have d0 : 0 <= (a + maha V x) * rqf V v by rewrite mulr_ge0.
rewrite /tvg divr_ge0 ?sq_ge0 //=; move: d0; rewrite le_eqVlt => /orP[/eqP <-|d0]; first by rewrite invr0 mulr0 ler01.
rewrite ler_pdivr_mulr // mul1r; apply: le_trans cs _; apply: ler_wpmul2r => //; by rewrite ler_addr.
Qed.
Lemma rqf_mstep N p (X : 'M[K]_(N, p)) (V : 'M[K]_p) v a c : pd V -> v != 0 ->
  rqf (mstep (ratio (c / N%:R) a) X V) v = c * rqf V v * mean X (tvg V v a).
Proof.
move=> pV v0; have r0 := rqf_gt0 pV v0; rewrite rqf_wsum /mean mulr_suml mulr_sumr; apply: eq_bigr => i _.
rewrite /ratio /tvg invfM; have rn : rqf V v != 0 by rewrite gt_eqF.
move: (rqf V v) rn (a + _)^-1 (sq _) (N%:R^-1) => r rn u s n.
have -> : c * r * (s * (u / r) * n) = c * n * u * s * (r / r) by move: r^-1 => r'; rring.
by rewrite divff // mulr1.
Qed.
Lemma tv_step N N' p (X : 'M[K]_(N, p)) (Y : 'M[K]_(N', p)) (V : 'M[K]_p) a c e : pd V -> 0 <= c -> 0 <= a -> tv_le e X Y ->
  loewner (mstep (ratio (c / N'%:R) a) Y V) (mstep (ratio (c / N%:R) a) X V + ofR (c * e) *: V).
Proof.
move=> pV c0 a0 tv; have hV := pd_herm pV.
apply: loewner_rqf => [||v]; [exact: wsum_hermg | by apply: hermD; [exact: wsum_hermg | exact: hermZR] |].
have [->|v0] := eqVneq v 0; first by rewrite /rqf /qf /sesq !mulmx0 !mxE.
have r0 := rqf_gt0 pV v0; rewrite rqfD rqfZ !rqf_mstep //.
have := tv _ (fun x => tvg01 v x pV a0); rewrite ler_norml => /andP[_].
have cr : 0 <= c * rqf V v by rewrite mulr_ge0 // ltW.
move: (mean Y _) (mean X _) => y x h; rewrite [c * e * _]mulrAC -mulrDr; apply: ler_wpmul2l => //.
by rewrite -ler_subl_addl.
Qed.
End Step.

(* ------------------------------------------------------------------ Student *)
Lemma tv_arith1 (a Q h : R) : 0 < a -> 0 <= Q -> h * (a + Q) < a ->
  let t := h * (a + Q) / (a - h * (a + Q)) in 1 + Q / (a + Q) * t + h * (1 + t) = 1 + t.
Proof.
move=> a0 Q0 lt t; have d0 : 0 < a - h * (a + Q) by rewrite subr_gt0.
have q0 : 0 < a + Q by rewrite ltr_spaddl.
have d1 : a - h * (a + Q) <> 0 by apply/eqP; rewrite gt_eqF.
have q1 : a + Q <> 0 by apply/eqP; rewrite gt_eqF.
have -> : 1 + Q / (a + Q) * t + h * (1 + t) = 1 + h + (Q / (a + Q) + h) * t by move: (Q / (a + Q)) => r; rring.
rewrite -addrA; congr (1 + _); rewrite /t; move: a Q h d1 q1 {lt t d0 a0 Q0 q0} => a Q h d1 q1.
rfield; split; [move=> e; apply: q1; rewrite -[RHS]e -RplusE // | move=> e; apply: d1; rewrite -[RHS]e -RplusE -RoppE -RmultE //].
Qed.
Lemma tv_arith2 (r t h s f g : R) : 0 <= r -> r <= 1 -> 0 <= t -> 0 <= h -> 0 <= s -> 1 + r * t + h * (1 + t) = 1 + t ->
  (1 + t) * s <= (1 + r * t) * ((1 + t) * f + h * s) -> f <= g -> 0 <= f -> s <= (1 + t) * g.
Proof.
move=> r0 r1 t0 h0 s0 e h1 fg f0.
have rt : 0 <= r * t by rewrite mulr_ge0. have rt1 : r * t <= t by rewrite ler_pimull.
have hh : h * (1 + r * t) <= h * (1 + t) by rewrite ler_wpmul2l // ler_add2l.
have k : (1 + r * t) * s <= (1 + r * t) * ((1 + t) * f).
  have h2 : (1 + r * t) * (h * s) <= h * (1 + t) * s by rewrite mulrA [_ * h]mulrC; apply: ler_wpmul2r.
  rewrite mulrDr in h1; have h3 : (1 + r * t) * s = (1 + t) * s - h * (1 + t) * s by rewrite -mulrBl -{1}e addrK.
  rewrite h3; move: h1 h2; move: ((1 + t) * s) (_ * (_ * f)) (_ * (h * s)) (_ * s) => x y z w; clear; move=> *; rlra2.
have c0 : 0 < 1 + r * t by rewrite ltr_spaddl ?ltr01.
apply: le_trans (_ : (1 + t) * f <= _); first by rewrite -(ler_pmul2l c0).
by apply: ler_wpmul2l => //; rewrite addr_ge0 ?ler01.
Qed.

Section Student.
Variable K : starField.
Local Notation ofR := (@ofR K).
Local Notation toR := (@toR K).
Local Notation "A ^H" := (adj A) (at level 8, format "A ^H").
Variables (N N' p : nat) (X : 'M[K]_(N, p.+1)) (Y : 'M[K]_(N', p.+1)) (a e Q : R) (S : 'M[K]_p.+1).
Hypotheses (cK : compactK K) (a0 : 0 < a) (Y0 : forall i, row i Y != 0) (sol : student_solution a X S).
Hypotheses (bQ : forall i, maha S (samp X i) <= Q) (tv : tv_le e X Y).
Let h := e * (a + p.+1%:R).
Hypothesis small : h * (a + Q) < a.
Definition tau : R := h * (a + Q) / (a - h * (a + Q)).
Let pS := sol.1.
Let N0 : (0 < N)%N. Proof. exact: spanning_N (student_spanning sol). Qed.
Let Q0 : 0 <= Q. Proof. by have := bQ (Ordinal N0); apply: le_trans; exact: maha_ge0. Qed.
Let e0 : 0 <= e. Proof. exact: tv_ge0 tv. Qed.
Let ap : 0 <= a + p.+1%:R. Proof. by rewrite addr_ge0 ?ler0n // ltW. Qed.
Let h0 : 0 <= h. Proof. by rewrite mulr_ge0. Qed.
Let aQ : 0 < a + Q. Proof. by rewrite ltr_spaddl. Qed.
Let t0 : 0 <= tau.
Proof. by rewrite divr_ge0 ?mulr_ge0 ?(ltW aQ) // subr_ge0 ltW. Qed.
Let arith := tv_arith1 a0 Q0 small : 1 + Q / (a + Q) * tau + h * (1 + tau) = 1 + tau.
Lemma tv_N' : (0 < N')%N.
Proof.
apply: (tv_nonempty N0 tv); rewrite ltNge; apply/negP => e1; move: small; rewrite ltNge => /negP; apply.
apply: le_trans (_ : (a + p.+1%:R) * a <= _) ; last first.
  by apply: ler_pmul => //; [exact: ltW | rewrite /h ler_pemull | rewrite ler_addl].
rewrite -{1}[a]mul1r; apply: ler_wpmul2r; [exact: ltW |]; apply: le_trans (_ : p.+1%:R <= _); first by rewrite ler1n.
by rewrite ler_addr ltW.
Qed.
Local Notation FX := (mstep (stu_w N p.+1 a) X).
Local Notation FY := (mstep (stu_w N' p.+1 a) Y).
Lemma stu_tv V : pd V -> loewner (FY V) (FX V + ofR h *: V) /\ loewner (FX V) (FY V + ofR h *: V).
Proof.
move=> pV; have e1 : h = (a + p.+1%:R) * e by rewrite /h mulrC.
by rewrite e1; split; [exact: (tv_step pV ap (ltW a0) tv) | exact: (tv_step pV ap (ltW a0) (tv_sym tv))].
Qed.
(* the matrices within tau of S stay there *)
Lemma tv_invariant V : pd V -> close tau V S -> close tau (FY V) S.
Proof.
move=> pV [u l]; have hS := pd_herm pS; have N'0 := tv_N'; have t1 : 1 <= 1 + tau by rewrite ler_addl.
have tp : 0 < 1 + tau by exact: lt_le_trans ltr01 t1.
have [r0 r1] := rate_ge0 a0 Q0.
have rt : 1 + tau - 1 = tau by rewrite addrC addKr.
split; apply: loewner_rqf.
- exact: wsum_hermg.
- exact: hermZR.
- move=> v; have := rqf_loewner v (stu_tv pV).1; have := rqf_loewner v (stu_above N0 a0 sol bQ pV t1 u); have := rqf_loewner v u.
  rewrite rt rqfD !rqfZ => u1 u2 u3; apply: le_trans u3 _; rewrite -arith [X in _ <= X]mulrDl; apply: ler_add => //.
  by rewrite -mulrA; apply: ler_wpmul2l.
- exact: hS.
- by apply: hermZR; exact: wsum_hermg.
- move=> v; pose S1 := ofR (1 + tau)^-1 *: S; have ti : 0 < (1 + tau)^-1 by rewrite invr_gt0.
  have pS1 : pd S1 by apply: pdZ => //; rewrite ofR_gt0.
  have eS : S = ofR (1 + tau) *: S1 by rewrite /S1 scalerA -rmorphM divff ?gt_eqF // rmorph1 scale1r.
  have b1 : loewner S (ofR (1 + tau) *: S1) by rewrite -eS; exact: loewner_refl.
  have := rqf_loewner v (stu_below N0 a0 sol bQ pS1 t1 b1); rewrite rt rqfZ => k1.
  have := rqf_loewner v (stu_tv pS1).2; rewrite rqfD rqfZ => k2.
  have b2 : loewner S1 (ofR 1 *: V).
    by rewrite rmorph1 scale1r; have := loewnerZ (ltW ti) l; rewrite scalerA -rmorphM mulVf ?gt_eqF // rmorph1 scale1r.
  have := rqf_loewner v (F_mono Y0 (@stu_subhom N' p a a0 N'0) pS1 pV (lexx 1) b2); rewrite rmorph1 scale1r => k3.
  have f0 : 0 <= rqf (FY S1) v.
    apply: toR_ge0; apply: (_ : psd (FY S1)).2; apply: wsum_psd => i; apply: divr_ge0; first exact/ltW/stu_c0.
    by rewrite addr_ge0 ?maha_ge0 // ltW.
  have s0 := rqf_ge0 v pS; have es : rqf S1 v = rqf S v / (1 + tau) by rewrite rqfZ mulrC.
  rewrite rqfZ; apply: (tv_arith2 r0 (ltW r1) t0 h0 s0 arith _ k3 f0).
  apply: le_trans (ler_wpmul2l (ltW tp) k1) _; rewrite mulrCA; apply: ler_wpmul2l; first by rewrite addr_ge0 ?ler01 // mulr_ge0.
  apply: le_trans (ler_wpmul2l (ltW tp) k2) _; rewrite mulrDr ler_add2l es mulrCA; apply: ler_wpmul2l => //.
  by rewrite mulrCA divff ?mulr1 // gt_eqF.
Qed.
Lemma close_refl0 (T : 'M[K]_p.+1) t : pd T -> 0 <= t -> close t T T.
Proof. by move=> pT tt; apply: (close_le (pd_psd pT) (pd_psd pT) tt); rewrite /close addr0 rmorph1 scale1r; split; exact: loewner_refl. Qed.
Lemma tv_spanning : spanning Y.
Proof.
have cl := tv_invariant pS (close_refl0 pS t0); apply: (@solution_spanning K N' p.+1 _ Y); apply: (loewner_pd _ pS cl.2).
by rewrite ltr_spaddl ?ltr01.
Qed.
Lemma tv_student : exists2 T, student_solution a Y T & close tau T S.
Proof.
have sp := tv_spanning; have N'0 := tv_N'; have Fpd T : pd T -> pd (FY T) by exact: student_mstep_pd.
have pk k : pd (iter k FY S) by elim: k => //= k; exact: Fpd.
have ck k : close tau (iter k FY S) S by elim: k => [|k IH] /=; [exact: close_refl0 | exact: tv_invariant].
have p1 : 0 < 1 + tau by rewrite ltr_paddr ?ltr01.
pose Q' := \sum_i maha S (samp Y i); have Q'0 : 0 <= Q' by apply: sumr_ge0 => i _; exact: maha_ge0.
have bk k i : maha (iter k FY S) (samp Y i) <= (1 + tau) * Q'.
  apply: le_trans (maha_loewner (samp Y i) pS (pk k) (ck k).2) _; apply: ler_wpmul2l; first exact: ltW.
  by rewrite /Q' (bigD1 i) //= ler_addl; apply: sumr_ge0 => j _; exact: maha_ge0.
have qp : 0 <= (1 + tau) * Q' by rewrite mulr_ge0 // ltW.
have [r0 r1] := rate_ge0 a0 qp.
have ek k : close ((((1 + tau) * Q') / (a + (1 + tau) * Q')) ^+ k * tau) (FY (iter k FY S)) (iter k FY S).
  elim: k => [|k IH]; first by rewrite expr0 mul1r; exact: (ck 1%N).
  by rewrite exprS -mulrA /=; apply: stu_closer => //; [exact: Fpd | rewrite mulr_ge0 ?exprn_ge0].
have [l [l1 h1 h2]] := pd_comparable (pd1 K p.+1) pS; have l0 : 0 < l by exact: lt_le_trans ltr01 l1.
have [L [pL fL hL]] : exists L, [/\ pd L, FY L = L & forall (e : R) k0, 0 < e -> exists2 k, (k0 <= k)%N & close e (iter k FY S) L].
  apply: (fixed_cluster Y0 (@stu_subhom N' p a a0 N'0) Fpd cK (mulr_gt0 l0 p1) pk).
  - by move=> k; apply: loewner_comp h1 (ck k).2; exact: ltW.
  - by move=> k; rewrite mulrC; apply: loewner_comp (ck k).1 h2; exact: ltW.
  - move=> x x0; have [k0 hk] := geometric r0 r1 t0 x0; exists k0 => k kk; apply: close_le (ek k); [exact/pd_psd/Fpd | exact: pd_psd | exact: hk].
exists L; first by split=> //; rewrite -{1}fL.
have lim x : 0 < x -> close (tau + x) L S.
  move=> x0; have x1 : 0 < x / (1 + tau) by rewrite divr_gt0.
  have [k _ hk] := hL _ 0%N x1; apply: close_le (pd_psd pL) (pd_psd pS) _ (close_trans (ltW x1) t0 (close_sym hk) (ck k)).
  rewrite le_eqVlt; apply/orP; left; apply/eqP; rewrite mulrDl mul1r divfK ?gt_eqF //; move: tau x {x0 x1 hk} => t x; rring.
split; apply: loewner_limit => //; try (by apply: pd_herm); move=> x x0; rewrite -addrA; by case: (lim x x0).
Qed.
Lemma tv_student_all T : student_solution a Y T -> close tau T S.
Proof. by move=> sT; have [T' sT' cl] := tv_student; rewrite (stu_unique tv_N' Y0 a0 sT sT'). Qed.
End Student.
