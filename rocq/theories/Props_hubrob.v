(* How many arbitrary samples the Huber functions resist to: C122. *)
From Coq Require Import Reals Lra.
From mathcomp Require Import all_ssreflect all_algebra.
From mathcomp Require Import complex zify.
From Verif Require Import RealsMC RealTac RealTac2 Star StarInst FunCalc Compact Model_featurearray Model_linalg Proofs_linalg Props_linalg Model_covariance Model_estimators
  Spec_covariance Spec_fixedpoint Spec_exist Spec_breakdown Spec_hubiter Spec_hubrob Proofs_mest Proofs_estimators Proofs_cost Props_cost Props_covariance Props_robust Props_robust2
  Proofs_unique Proofs_unique2 Props_unique Proofs_converge Props_converge Spec_chi2 HuberNum HuberNum2 Props_huber Proofs_hubiter Proofs_hubiter2 Props_hubiter
  Proofs_exist Proofs_exist2 Proofs_breakdown Proofs_breakdown2 Proofs_breakdown4 Props_breakdown2 Proofs_tv Proofs_hubrob.
Set Implicit Arguments.
Unset Strict Implicit.
Unset Printing Implicit Defensive.
Local Open Scope ring_scope.
Import GRing.Theory Num.Theory Order.TTheory.

Section Run.
Variable K : starField.
Local Notation ofR := (@ofR K).
Lemma some_update N p (X : 'M[K]_(N, p)) step (t : R) it s0 s d k : (0 < it)%N -> stops_with gtf PInf step (@rel_change K p) (Fin t) it s0 s d k -> (0 < k)%N.
Proof. by move=> i0; case: k => // -[_ /= -> _ /(_ erefl) e _]; rewrite -e in i0. Qed.
Lemma scm_up N p (Y : 'M[K]_(N, p)) (r : R) : (0 < N)%N -> (forall i, sqnorm Y i <= r) -> loewner (scm Y) (ofR r *: 1%:M).
Proof.
move=> N0 h; have -> : ofR r *: 1%:M = \sum_(i < N) ofR N%:R^-1 *: (ofR r *: (1%:M : 'M[K]_p)).
  by rewrite sumr_const card_ord -scaler_nat !scalerA -(rmorph_nat (@Star.ofR K)) -!rmorphM; congr (ofR _ *: _); rewrite ?mulrA ?divff ?mul1r ?mulVKf // pnatr_eq0 -lt0n.
apply: loewner_sum => i _; apply: loewnerZ; first by rewrite invr_ge0 ler0n.
apply: loewner_trans (outer_le (samp Y i) (pd1 K p)) _; rewrite /loewner -scalerBl -rmorphB; apply: psdZ; last exact/pd_psd/pd1.
by rewrite ofR_ge0 subr_ge0 /maha invmx1 mulmx1; exact: h.
Qed.
Lemma corrupted_spanning N p m (X Y : 'M[K]_(N, p.+1)) : spans_without m X -> corrupted m X Y -> spanning Y.
Proof.
move=> sp cY; have sY : spans_without 0 Y by move=> V rV; rewrite addn0; apply: leq_ltn_trans (sp V rV); exact: count_corrupted.
have -> : Y = keepA Y setT by apply/row_matrixP => i; rewrite rowK inE.
by apply: (keep_spanning sY); rewrite cardsT card_ord addn0.
Qed.
End Run.

(* One sample is enough to make the result as large as wanted, whatever the data, the sample, the level, the starting
   point, the tolerance and the number of iterations: it suffices to multiply it by a large number *)
Theorem C122_refuted ppf cdf N p (q M t : R) it : (0 < it)%N ->
  (forall eigh (X : 'M[real_sf]_(N, p.+1)) init (j : 'I_N), eigh_ok eigh -> 0 < huber_lbda ppf q p.+1 -> 0 < huber_beta ppf cdf q p.+1 ->
     spanning X -> (forall i, row i X != 0) -> (forall s0, init = Some s0 -> pd s0) -> exists Y s d k, [/\ one_moved j X Y, corrupted 1 X Y,
       huber_m_estimator_fixed_point eigh ppf cdf Y q init (Fin t) it = Some (Ok (s, d, k)) & ~ loewner s (@ofR real_sf M *: 1%:M)]) /\
  (forall eigh (X : 'M[complex_sf]_(N, p.+1)) init (j : 'I_N), eigh_ok eigh -> 0 < complex_huber_lbda ppf q p.+1 -> 0 < complex_huber_beta ppf cdf q p.+1 ->
     spanning X -> (forall i, row i X != 0) -> (forall s0, init = Some s0 -> pd s0) -> exists Y s d k, [/\ one_moved j X Y, corrupted 1 X Y,
       complex_huber_m_estimator_fixed_point eigh ppf cdf Y q init (Fin t) it = Some (Ok (s, d, k)) & ~ loewner s (@ofR complex_sf M *: 1%:M)]).
Proof.
move=> it0.
have big (K : starField) (X : 'M[K]_(N, p.+1)) j b : 0 < b -> row j X != 0 -> exists2 c : R, 0 < c & ~ b * c ^+ 2 * sqnorm X j <= M * N%:R.
  move=> b0 xj; have n0 : 0 < sqnorm X j by apply: toR_gt0; apply: normcol_gt0; rewrite /samp trmx_eq0.
  pose a := `|M| * N%:R / (b * sqnorm X j); have a0 : 0 <= a by rewrite divr_ge0 ?mulr_ge0 ?ler0n // ltW.
  exists (1 + a); first by rewrite ltr_spaddl ?ltr01.
  have bn : 0 < b * sqnorm X j by rewrite mulr_gt0.
  move=> h; have : a * (b * sqnorm X j) < (1 + a) ^+ 2 * (b * sqnorm X j).
    rewrite ltr_pmul2r //; apply: lt_le_trans (_ : 1 + a <= _); first by rewrite ltr_addr ltr01.
    by rewrite expr2 ler_pmulr ?ler_addl // ltr_spaddl ?ltr01.
  rewrite /a divfK ?gt_eqF // ltNge => /negP; apply; have -> : (1 + `|M| * N%:R / (b * sqnorm X j)) ^+ 2 * (b * sqnorm X j) = b * (1 + a) ^+ 2 * sqnorm X j.
    by rewrite -/a mulrA [_ * b]mulrC.
  apply: le_trans h _; apply: ler_wpmul2r; [exact: ler0n | exact: ler_norm].
split=> eigh X init j ok l0 b0 sp X0 pi.
  have [c c0 hc] := big _ X j _ b0 (X0 j); have cn : c != 0 by rewrite gt_eqF.
  have spY : spanning (enlarge X j c) := enlarge_spanning cn sp; have [s [d [k [e [step [x y z sw]]]]]] := real_huber_run (Fin t) it ok l0 b0 spY pi.
  exists (enlarge X j c), s, d, k; split=> //; first exact: enlarge_moved.
    by apply: (@moved_corrupted _ _ _ _ j); [exact: enlarge_nz | exact: enlarge_moved].
  have [lo _ _] := band_run l0 b0 spY x z sw; move=> up; apply: hc.
  exact: (enlarge_explodes b0 c0 (X0 j) (lo (some_update X it0 sw)) up).
have [c c0 hc] := big _ X j _ b0 (X0 j); have cn : c != 0 by rewrite gt_eqF.
have spY : spanning (enlarge X j c) := enlarge_spanning cn sp; have [s [d [k [e [step [x y z sw]]]]]] := complex_huber_run (Fin t) it ok l0 b0 spY pi.
exists (enlarge X j c), s, d, k; split=> //; first exact: enlarge_moved.
  by apply: (@moved_corrupted _ _ _ _ j); [exact: enlarge_nz | exact: enlarge_moved].
have [lo _ _] := band_run l0 b0 spY x z sw; move=> up; apply: hc.
exact: (enlarge_explodes b0 c0 (X0 j) (lo (some_update X it0 sw)) up).
Qed.
(* What is true: the smallest eigenvalue does not vanish, and the largest is at most proportional to the largest squared
   norm of the samples (as for the sample covariance matrix) *)
Theorem C122_partial ppf cdf N p m (q : R) :
  (forall X : 'M[real_sf]_(N, p.+1), let lbda := huber_lbda ppf q p.+1 in let beta := huber_beta ppf cdf q p.+1 in
     0 < lbda -> 0 < beta -> spans_without m X -> exists2 l : R, 0 < l & forall eigh Y init t it s d k, eigh_ok eigh -> corrupted m X Y ->
       (forall s0, init = Some s0 -> pd s0) -> huber_m_estimator_fixed_point eigh ppf cdf Y q init (Fin t) it = Some (Ok (s, d, k)) ->
       ((0 < it)%N -> loewner (@ofR real_sf l *: 1%:M) s) /\
       forall r : R, (forall i, sqnorm Y i <= r) -> (2 <= k)%N -> loewner s (@ofR real_sf (Num.max beta (N%:R / lbda) * r) *: 1%:M)) /\
  (forall X : 'M[complex_sf]_(N, p.+1), let lbda := complex_huber_lbda ppf q p.+1 in let beta := complex_huber_beta ppf cdf q p.+1 in
     0 < lbda -> 0 < beta -> spans_without m X -> exists2 l : R, 0 < l & forall eigh Y init t it s d k, eigh_ok eigh -> corrupted m X Y ->
       (forall s0, init = Some s0 -> pd s0) -> complex_huber_m_estimator_fixed_point eigh ppf cdf Y q init (Fin t) it = Some (Ok (s, d, k)) ->
       ((0 < it)%N -> loewner (@ofR complex_sf l *: 1%:M) s) /\
       forall r : R, (forall i, sqnorm Y i <= r) -> (2 <= k)%N -> loewner s (@ofR complex_sf (Num.max beta (N%:R / lbda) * r) *: 1%:M)).
Proof.
have N0 (K : starField) (X : 'M[K]_(N, p.+1)) : spans_without m X -> (0 < N)%N.
  by move=> /(_ 0); rewrite mxrank0 => /(_ erefl); apply: leq_trans; rewrite ltnS.
split=> X lb b l0 b0 sp.
  have n0 := N0 _ _ sp; have [l lp hl] := scm_low n0 sp; exists (b * l); first exact: mulr_gt0.
  move=> eigh Y init t it s d k ok cY pi e; have spY := corrupted_spanning sp cY.
  have [s' [d' [k' [e' [step [x y z sw]]]]]] := real_huber_run (Fin t) it ok l0 b0 spY pi.
  move: e; rewrite e' => -[es ed ek]; rewrite es ed ek in sw; have [lo up _] := band_run l0 b0 spY x z sw; split=> [i0|r hr k2].
    by apply: loewner_trans (lo (some_update X i0 sw)); rewrite rmorphM -scalerA; apply: loewnerZ; [exact: ltW | apply: hl; case: cY].
  apply: loewner_trans (up k2) _; rewrite rmorphM -scalerA; apply: loewnerZ; last exact: scm_up.
  by rewrite le_maxr ltW.
have n0 := N0 _ _ sp; have [l lp hl] := scm_low n0 sp; exists (b * l); first exact: mulr_gt0.
move=> eigh Y init t it s d k ok cY pi e; have spY := corrupted_spanning sp cY.
have [s' [d' [k' [e' [step [x y z sw]]]]]] := complex_huber_run (Fin t) it ok l0 b0 spY pi.
move: e; rewrite e' => -[es ed ek]; rewrite es ed ek in sw; have [lo up _] := band_run l0 b0 spY x z sw; split=> [i0|r hr k2].
  by apply: loewner_trans (lo (some_update X i0 sw)); rewrite rmorphM -scalerA; apply: loewnerZ; [exact: ltW | apply: hl; case: cY].
apply: loewner_trans (up k2) _; rewrite rmorphM -scalerA; apply: loewnerZ; last exact: scm_up.
by rewrite le_maxr ltW.
Qed.
(* five samples of dimension 2 in general position, and constants computed from some level, meet the hypotheses *)
Example C122_hypotheses (K : starField) : (exists X : 'M[K]_(5, 2), [/\ spans_without 1 X, spanning X & forall i, row i X != 0]) /\
  exists ppf cdf (q : R), [/\ 0 < q < 1, 0 < huber_lbda ppf q 2 & 0 < huber_beta ppf cdf q 2].
Proof.
split; last first.
  have [ppf [cdf ok]] := C82_hypotheses; have [[q hq [l0 b0 _]] _] := C88_thresholds ok (erefl (0 < 2)%N).
  by exists ppf, cdf, q.
have [X [gp X0 _]] := C99_C100_hypotheses K; have sp : spans_without 1 X.
  by move=> V rV; have := gp V rV; move: (count_in X V) (\rank V) rV => [|[|[|n]]] // [|[|r]].
exists X; split=> //; apply: corrupted_spanning sp _; split=> //.
by rewrite (_ : [set i | _] = set0) ?cards0 //; apply/setP => i; rewrite !inE eqxx.
Qed.
Print Assumptions C122_refuted.
Print Assumptions C122_partial.
