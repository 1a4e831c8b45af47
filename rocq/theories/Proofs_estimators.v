From Coq Require Import Reals String.
From mathcomp Require Import all_ssreflect all_fingroup all_algebra.
From Verif Require Import RealsMC Star StarInst FunCalc Model_featurearray Model_linalg Proofs_linalg.
From Verif Require Import Model_covariance Spec_covariance Model_estimators Proofs_mest Proofs_loop Proofs_covariance.
Set Implicit Arguments.
Unset Strict Implicit.
Unset Printing Implicit Defensive.
Local Open Scope ring_scope.
Import GRing.Theory Num.Theory Order.TTheory.

(* ---- generic update S |-> sum_i w(tau_i) x_i x_i^H ---- *)
Section Generic.
Variable K : starField.
Variable eigh : eigsolver K.
Local Notation ofR := (@ofR K).
Local Notation toR := (@toR K).
Local Notation cj := (@cj K).

Definition cstep N p (w : R -> R) (X : 'M[K]_(N, p)) (S : 'M[K]_p) : 'M[K]_p :=
  wsum (fun i => w (ctau eigh X S i)) X.

Lemma cstep_mstep N p w (X : 'M[K]_(N, p)) S : eigh_ok eigh -> pd S -> cstep w X S = mstep w X S.
Proof. by move=> ok pS; apply: eq_wsum => i; rewrite ctau_pd. Qed.
Lemma cstep_psd N p w (X : 'M[K]_(N, p)) S : (forall q, 0 <= q -> 0 <= w q) -> psd (cstep w X S).
Proof. by move=> w0; apply: wsum_psd => i; apply/w0/ctau_ge0. Qed.
Lemma cstep_pd N p (w : R -> R) (X : 'M[K]_(N, p)) S : eigh_ok eigh -> pd S -> spanning X ->
  (forall i, 0 < w (maha S (samp X i))) -> pd (cstep w X S).
Proof. by move=> ok pS sX w0; rewrite cstep_mstep //; apply: wsum_pd. Qed.
Lemma cstep_congr N p w (X : 'M[K]_(N, p)) (A S : 'M[K]_p) : eigh_ok eigh -> A \in unitmx -> pd S ->
  cstep w (X *m A^T) (A *m S *m A^H) = A *m cstep w X S *m A^H.
Proof.
have pA : eigh_ok eigh -> A \in unitmx -> pd S -> pd (A *m S *m A^H) by move=> _ uA; apply: pd_congr.
by move=> ok uA pS; rewrite (cstep_mstep _ _ ok (pA ok uA pS)) (cstep_mstep _ _ ok pS) mstep_congr // pd_unit.
Qed.
Lemma ctau_perm N p (X : 'M[K]_(N, p)) S (s : 'S_N) i : ctau eigh (row_perm s X) S i = ctau eigh X S (s i).
Proof. by rewrite /ctau samp_row_perm. Qed.
Lemma cstep_perm N p w (X : 'M[K]_(N, p)) S (s : 'S_N) : cstep w (row_perm s X) S = cstep w X S.
Proof.
rewrite /cstep -[RHS](@wsum_perm _ _ _ _ _ s); apply: eq_wsum => i /=; by rewrite ctau_perm.
Qed.
Lemma samp_scale N p (c : 'I_N -> K) (X : 'M[K]_(N, p)) i : samp (scale_samples c X) i = c i *: samp X i.
Proof. by apply/matrixP => j k; rewrite !mxE. Qed.
Lemma toRZ_nneg x y : 0 <= x -> toR (x * y) = toR x * toR y.
Proof. by move=> x0; rewrite -{1}(ofR_toR_ge0 x0) toRZ. Qed.
Lemma ctau_scale N p (c : 'I_N -> K) (X : 'M[K]_(N, p)) S i :
  ctau eigh (scale_samples c X) S i = toR (c i * cj (c i)) * ctau eigh X S i.
Proof.
rewrite /ctau samp_scale -scalemxAr adjZ -scalemxAl -scalemxAr scalerA mxE toRZ_nneg //.
  by rewrite [cj _ * _]mulrC.
by rewrite mulrC mul_cj_ge0.
Qed.
Lemma cstep_tyler_scale N p a (c : 'I_N -> K) (X : 'M[K]_(N, p)) S : (forall i, c i != 0) ->
  cstep (fun q => a / q) (scale_samples c X) S = cstep (fun q => a / q) X S.
Proof.
move=> c0; apply: eq_bigr => i _; rewrite samp_scale outer_scale ctau_scale scalerA; congr (_ *: _).
set t := toR (c i * cj (c i)).
have e : c i * cj (c i) = ofR t by rewrite ofR_toR_ge0 // mul_cj_ge0.
have t0 : t != 0 by apply: contraNneq (c0 i) => t0; rewrite -(mul_cj_eq0 (c i)) e t0 rmorph0.
rewrite e -rmorphM; congr (ofR _).
by rewrite invfM mulrCA mulrAC mulVf // mul1r.
Qed.
Lemma cstep_tyler_init N p a c (X : 'M[K]_(N, p)) S : eigh_ok eigh -> 0 < c -> pd S ->
  cstep (fun q => a / q) X (ofR c *: S) = ofR c *: cstep (fun q => a / q) X S.
Proof.
move=> ok c0 pS; rewrite !cstep_mstep //; last by apply: pdZ; rewrite ?ofR_gt0.
rewrite /mstep /wsum scaler_sumr; apply: eq_bigr => i _; rewrite scalerA -rmorphM maha_scale //.
by congr (ofR _ *: _); rewrite invfM invrK mulrA mulrC.
Qed.
Lemma wsum_scale N p c a (X : 'M[K]_(N, p)) : ofR c *: wsum a X = wsum (fun i => c * a i) X.
Proof. by rewrite /wsum scaler_sumr; apply: eq_bigr => i _; rewrite scalerA -rmorphM. Qed.
End Generic.

(* ---- weights of the algorithms ---- *)
Section RealW.
Variable eigh : eigsolver real_sf.
Variables (ppf cdf : R -> R -> R).
Variables (N p : nat).
Local Notation K := real_sf.
Definition real_weight (a : algo) (q : R) : R := match a with
  | HuberM qt => N%:R^-1 / huber_u (huber_lbda ppf qt p.+1) (huber_beta ppf cdf qt p.+1) q
  | StudentMLE df => (df / 2%:R + p.+1%:R) / N%:R / (df / 2%:R + q)
  | TylerFP _ => p.+1%:R / N%:R / q end.
Lemma real_stepE a (X : 'M[K]_(N, p.+1)) S : real_valid ppf cdf p a ->
  real_step eigh ppf cdf a X S = Ok (cstep eigh (real_weight a) X S).
Proof.
case: a => [q [l0 b0]|df d0|nrm _] /=.
- by rewrite huber_stepE leNgt l0 /= ltNge ltW.
- by rewrite student_stepE.
- by rewrite tyler_stepE.
Qed.
Lemma real_fixed_pointE a (X : 'M[K]_(N, p.+1)) init tol m : real_valid ppf cdf p a ->
  real_fixed_point eigh ppf cdf a X init tol m =
  omap (fmapr (fun r => let '(s, d, k) := r in (algo_post a s, d, k)))
       (fp_loop (real_step eigh ppf cdf a X) tol m (real_init X init)).
Proof.
case: a => [q _|df d0|nrm _] /=; rewrite ?/huber_m_estimator_fixed_point ?/student_t_mle_fixed_point.
- by rewrite -/(real_init X init); case: (fp_loop _ _ _ _) => [[[[s d] k]|e]|].
- by rewrite leNgt d0 /= -/(real_init X init); case: (fp_loop _ _ _ _) => [[[[s d] k]|e]|].
- by [].
Qed.
End RealW.
Section ComplexW.
Variable eigh : eigsolver complex_sf.
Variables (ppf cdf : R -> R -> R).
Variables (N p : nat).
Local Notation K := complex_sf.
Definition complex_weight (a : algo) (q : R) : R := match a with
  | HuberM qt => N%:R^-1 / huber_u (complex_huber_lbda ppf qt p.+1) (complex_huber_beta ppf cdf qt p.+1) q
  | StudentMLE df => (df + p.+1%:R) / N%:R / (df + q)
  | TylerFP _ => p.+1%:R / N%:R / q end.
Lemma complex_stepE a (X : 'M[K]_(N, p.+1)) S : complex_valid ppf cdf p a ->
  complex_step eigh ppf cdf a X S = Ok (cstep eigh (complex_weight a) X S).
Proof.
case: a => [q [l0 b0]|df d0|nrm _] /=.
- by rewrite complex_huber_stepE leNgt l0 /= ltNge ltW.
- by rewrite complex_student_stepE.
- by rewrite complex_tyler_stepE.
Qed.
Lemma complex_fixed_pointE a (X : 'M[K]_(N, p.+1)) init tol m : complex_valid ppf cdf p a ->
  complex_fixed_point eigh ppf cdf a X init tol m =
  omap (fmapr (fun r => let '(s, d, k) := r in (algo_post a s, d, k)))
       (fp_loop (complex_step eigh ppf cdf a X) tol m (complex_init X init)).
Proof.
case: a => [q _|df d0|nrm _] /=; rewrite ?/complex_huber_m_estimator_fixed_point ?/complex_student_t_mle_fixed_point.
- by rewrite -/(complex_init X init); case: (fp_loop _ _ _ _) => [[[[s d] k]|e]|].
- by rewrite leNgt d0 /= -/(complex_init X init); case: (fp_loop _ _ _ _) => [[[[s d] k]|e]|].
- by [].
Qed.
End ComplexW.

(* weights are nonnegative, and positive away from zero samples *)
Lemma huber_u_gt0 l b q : 0 < l -> 0 < b -> 0 <= q -> 0 < huber_u l b q.
Proof.
move=> l0 b0 q0; rewrite /huber_u mul1r mulr_gt0 ?invr_gt0 //; case: eqP => [_|/eqP qn]; first exact: ltr01.
by rewrite lt_minr ltr01 /= divr_gt0 // lt_neqAle eq_sym qn.
Qed.
Lemma real_weight_ge0 ppf cdf N p a q : real_valid ppf cdf p a -> 0 <= q -> 0 <= real_weight ppf cdf N p a q.
Proof.
case: a => [qt [l0 b0]|df d0|nrm _] /= q0; apply: divr_ge0 => //.
- by rewrite invr_ge0 ler0n.
- by apply/ltW/huber_u_gt0.
- by apply: divr_ge0; rewrite ?ler0n // addr_ge0 ?divr_ge0 ?ler0n // ltW.
- by rewrite addr_ge0 // divr_ge0 ?ler0n // ltW.
- by rewrite divr_ge0 ?ler0n.
Qed.
Lemma real_weight_gt0 ppf cdf N p a q : real_valid ppf cdf p a -> (0 < N)%N -> 0 < q -> 0 < real_weight ppf cdf N p a q.
Proof.
move=> v N0 q0; case: a v => [qt [l0 b0]|df d0|nrm _] /=; apply: divr_gt0 => //.
- by rewrite invr_gt0 ltr0n.
- by apply: huber_u_gt0 => //; apply: ltW.
- by rewrite divr_gt0 ?ltr0n // addr_gt0 ?ltr0Sn // divr_gt0 ?ltr0n.
- by rewrite addr_gt0 // divr_gt0 ?ltr0n.
- by rewrite divr_gt0 ?ltr0n.
Qed.
Lemma complex_weight_ge0 ppf cdf N p a q : complex_valid ppf cdf p a -> 0 <= q -> 0 <= complex_weight ppf cdf N p a q.
Proof.
case: a => [qt [l0 b0]|df d0|nrm _] /= q0; apply: divr_ge0 => //.
- by rewrite invr_ge0 ler0n.
- by apply/ltW/huber_u_gt0.
- by apply: divr_ge0; rewrite ?ler0n // addr_ge0 ?ler0n // ltW.
- by rewrite addr_ge0 // ltW.
- by rewrite divr_ge0 ?ler0n.
Qed.
Lemma complex_weight_gt0 ppf cdf N p a q : complex_valid ppf cdf p a -> (0 < N)%N -> 0 < q -> 0 < complex_weight ppf cdf N p a q.
Proof.
move=> v N0 q0; case: a v => [qt [l0 b0]|df d0|nrm _] /=; apply: divr_gt0 => //.
- by rewrite invr_gt0 ltr0n.
- by apply: huber_u_gt0 => //; apply: ltW.
- by rewrite divr_gt0 ?ltr0n // addr_gt0 ?ltr0Sn.
- by rewrite addr_gt0.
- by rewrite divr_gt0 ?ltr0n.
Qed.

(* initial points *)
Lemma real_init_none N p (X : 'M[real_sf]_(N, p)) : empirical_covariance_centered X = wsum (fun=> N%:R^-1) X.
Proof.
rewrite /empirical_covariance_centered /wsum -scaler_sumr; congr (_ *: _).
apply/matrixP => a b; rewrite mxE summxE; apply: eq_bigr => i _; by rewrite !mxE big_ord1 adjE !mxE.
Qed.
Lemma complex_init_none N p (X : 'M[complex_sf]_(N, p)) :
  complex_empirical_covariance X true = wsum (fun=> N%:R^-1) X.
Proof.
rewrite /complex_empirical_covariance /complex_empirical_covariance_centered /wsum -scaler_sumr fmorphV ofR_nat.
congr (_ *: _); apply/matrixP => a b; rewrite mxE summxE; apply: eq_bigr => i _; by rewrite !mxE big_ord1 adjE !mxE.
Qed.

(* normalisation *)
Section Norm.
Variable K : starField.
Local Notation ofR := (@ofR K).
Local Notation toR := (@toR K).
Lemma pd_diag_gt0 p (S : 'M[K]_p) i : pd S -> 0 < S i i.
Proof.
case=> _ h; have : delta_mx i 0 != 0 :> 'cV[K]_p.
  by apply/eqP => /matrixP /(_ i 0); rewrite !mxE !eqxx => /eqP; rewrite oner_eq0.
move/h; rewrite /qf /sesq -mulmxA -colE adj_tr trmx_delta map_delta_mx -rowE !mxE //.
Qed.
Lemma pd_tr_gt0 p (S : 'M[K]_p.+1) : pd S -> 0 < \tr S.
Proof.
move=> pS; rewrite /mxtrace big_ord_recl; apply: ltr_paddr; last exact: pd_diag_gt0.
by apply: sumr_ge0 => i _; apply/ltW/pd_diag_gt0.
Qed.
Lemma toR_ofR_gt0 (x : K) : 0 < x -> ofR (toR x) = x.
Proof. by move=> /ltW; apply: ofR_toR_ge0. Qed.

Lemma norm_gt0 p nrm (S : 'M[K]_p.+1) : pd S -> 0 < get_normalisation_function nrm S.
Proof.
move=> pS; rewrite /get_normalisation_function; do 4?case: ifP => _; rewrite ?ltr01 //.
- by rewrite /norm_trace ofR_gt0 divr_gt0 ?ltr0n // toR_gt0 // pd_tr_gt0.
- by rewrite /norm_determinant ofR_gt0; apply/RltP/exp_pos.
- exact: pd_diag_gt0.
Qed.
Lemma normalised_pd p nrm (S : 'M[K]_p.+1) : pd S -> pd (normalised nrm S).
Proof. by move=> pS; apply: pdZ => //; rewrite invr_gt0 norm_gt0. Qed.
Lemma algo_post_pd p a (S : 'M[K]_p.+1) : pd S -> pd (algo_post a S).
Proof. by case: a => //= nrm; apply: normalised_pd. Qed.

Lemma Rpower_exprn (x : R) n : (Rpower x (1 / n.+1%:R)) ^+ n.+1 = Rpower x 1.
Proof.
have H m y : (Rpower x y) ^+ m = Rpower x (m%:R * y).
  elim: m => [|m IH]; first by rewrite mul0r expr0 /Rpower -[LHS]exp_0; congr Rtrigo_def.exp; exact/esym/mul0r.
  by rewrite exprS IH -RmultE -Rpower_plus; congr Rpower; rewrite ?RmultE ?RplusE mulrSr mulrDl mul1r addrC.
by rewrite H mul1r mulfV // pnatr_eq0.
Qed.
Lemma norm_detE p (S : 'M[K]_p.+1) : pd S -> (norm_determinant S) ^+ p.+1 = \det S.
Proof.
move=> pS; have d0 := det_pd pS; rewrite /norm_determinant -rmorphX Rpower_exprn Rpower_1; last exact/RltP/toR_gt0.
exact: toR_ofR_gt0.
Qed.
Lemma norm_det_scale p c (S : 'M[K]_p.+1) : 0 < c -> pd S -> norm_determinant (ofR c *: S) = ofR c * norm_determinant S.
Proof.
move=> c0 pS; have pcS : pd (ofR c *: S) by apply: pdZ; rewrite ?ofR_gt0.
have pos (T : 'M[K]_p.+1) : 0 <= norm_determinant T by rewrite /norm_determinant ofRge0; apply/ltW/RltP/exp_pos.
apply: (@pexpIrn _ p.+1); rewrite ?nnegrE; [by [] | exact: pos | apply: mulr_ge0; [by rewrite ofRge0 ltW | exact: pos] |].
by rewrite exprMn !norm_detE // detZ.
Qed.
Lemma norm_scale p nrm c (S : 'M[K]_p.+1) : 0 < c -> pd S ->
  scaling_norm nrm ->
  get_normalisation_function nrm (ofR c *: S) = ofR c * get_normalisation_function nrm S.
Proof.
move=> c0 pS; case=> [->|[->|->]] /=.
- rewrite /get_normalisation_function /= /norm_trace linearZ /= -rmorphM; congr (ofR _).
  by rewrite toRZ mulrA.
- exact: norm_det_scale.
- by rewrite /get_normalisation_function /= /norm_element mxE.
Qed.
End Norm.
