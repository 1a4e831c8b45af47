(* Theorems about the Student estimator with Kronecker structure: C58. *)
From Coq Require Import Reals String.
From mathcomp Require Import all_ssreflect all_algebra.
From mathcomp Require Import complex mxtens.
From Coquelicot Require Import Coquelicot.
From Verif Require Import RealsMC RealTac RealTac2 Star StarInst FunCalc Model_featurearray Model_linalg Proofs_linalg NpArray Proofs_numpy
  Model_mappings Props_mappings Model_covariance Spec_covariance Model_estimators Model_scipy Model_probability Proofs_probability Props_probability
  Model_scores Props_robust Model_sklearn Model_objects
  Proofs_objects Props_objects Proofs_loop Proofs_cost GeoNum Props_geodesic KronNum Model_structured Proofs_structured Props_structured.
Set Implicit Arguments.
Unset Strict Implicit.
Unset Printing Implicit Defensive.
Local Open Scope ring_scope.
Import GRing.Theory Num.Theory Order.TTheory.

(* ---------- specification: f has derivative d at 0, f being given near 0 ---------- *)
Definition derivative_at0 (P : R -> R -> Prop) (d : R) : Prop :=
  exists (f : R -> R) (eps : R), [/\ 0 < eps, forall s, `|s| < eps -> P s (f s) & is_derive f 0 d].

Section Along.
Variables (K : starField) (n : nat) (A H : 'M[K]_n).
Hypotheses (pA : pd A) (hH : herm H).
Local Notation ofR := (@ofR K).
Local Notation toR := (@toR K).
Lemma along_dec : exists (G : 'M[K]_n) (h : 'rV[R]_n), [/\ G \in unitmx, A = G *m G^H & H = G *m dia K h *m G^H].
Proof.
have [ur rr] := fsqrtP pA; move: (fmx R_sqrt.sqrt A) ur rr => r ur rr.
have hW : herm (invmx r *m H *m (invmx r)^H) by rewrite /herm !adjM adjK hH mulmxA.
have [h [V [uV eW]]] := spectral hW.
exists (r *m V), h; split.
- by rewrite unitmx_mul ur unitary_unit.
- by rewrite adjM -mulmxA (mulmxA V) unitaryV // mul1mx rr.
rewrite adjM !mulmxA -(mulmxA r) -(mulmxA r) -eW !mulmxA mulmxV // mul1mx adjV mulmxKV // unitmx_adj //.
Qed.
Definition line (s : R) : 'M[K]_n := A + ofR s *: H.
Lemma along : exists (h : 'I_n -> R) (eps : R), [/\ 0 < eps, (forall s, `|s| < eps -> pd (line s)),
  (forall s, `|s| < eps -> ln (toR (\det (line s))) = ln (toR (\det A)) + \sum_j ln (1 + s * h j)),
  toR (\tr (invmx A *m H)) = \sum_j h j &
  forall T : 'M[K]_n, exists c : 'I_n -> R,
    (forall s, `|s| < eps -> toR (\tr (invmx (line s) *m T)) = \sum_j c j * Rinv (1 + s * h j)) /\
    toR (\tr (invmx A *m H *m invmx A *m T)) = \sum_j c j * h j].
Proof.
have [G [h [uG eA eH]]] := along_dec.
pose d s : 'rV[R]_n := \row_j (1 + s * h 0 j).
have eL s : line s = G *m dia K (d s) *m G^H.
  rewrite /line eA eH scalemxAl scalemxAr -{1}(mulmx1 G) -mulmxDl -mulmxDr; congr (_ *m _ *m _).
  apply/matrixP => i j; rewrite !diaE !mxE /= rmorphD rmorph1 rmorphM; case: eqP => _ /=; rewrite ?mulr1n ?mulr0n ?mulr0 ?addr0 //.
pose eps : R := (1 + \sum_j `|h 0 j|)^-1.
have s0 : 0 <= \sum_j `|h 0 j| by apply: sumr_ge0.
have e0 : 0 < 1 + \sum_j `|h 0 j| by rewrite ltr_paddr // ltr01.
have d0 s : `|s| < eps -> forall j, 0 < d s 0 j.
  move=> hs j; rewrite mxE; have hj : `|h 0 j| <= \sum_k `|h 0 k| by rewrite (bigD1 j) //= ler_addl; apply: sumr_ge0.
  have : `|s * h 0 j| < 1.
    rewrite normrM; apply: (@le_lt_trans _ _ (`|s| * \sum_k `|h 0 k|)); first by apply: ler_wpmul2l.
    apply: (@le_lt_trans _ _ (eps * \sum_k `|h 0 k|)); first by apply: ler_wpmul2r => //; exact: ltW.
    by rewrite mulrC -(ltr_pmul2r e0) /eps mulrVK ?unitfE ?gt_eqF // mul1r ltr_addr ltr01.
  by rewrite ltr_norml => /andP[h1 _]; rewrite -(ltr_add2l (-1)) addr0 addrA addNr add0r.
have uGH : G^H \in unitmx by rewrite unitmx_adj.
have iL s : `|s| < eps -> invmx (line s) = invmx G^H *m dia K (map_mx (fun x => x^-1) (d s)) *m invmx G.
  move=> hs; rewrite eL -dia_inv; last exact: d0.
  by rewrite !invmxM' ?unitmx_mul ?uG ?dia_unit // ?mulmxA //; exact: d0.
have iA : invmx A = invmx G^H *m invmx G by rewrite eA invmxM'.
exists (fun j => h 0 j), eps; split.
- by rewrite invr_gt0.
- by move=> s hs; rewrite eL; apply: pd_congr => //; apply/pd_dia/d0.
- move=> s hs; rewrite eL det_simdiag //; last exact: d0.
  by rewrite -eA; congr (_ + _); apply: eq_bigr => j _; rewrite mxE.
- rewrite iA eH -!mulmxA mulKmx // mxtrace_mulC -!mulmxA mulmxV // mulmx1 /mxtrace raddf_sum; apply: eq_bigr => j _ /=.
  by rewrite diaE eqxx mulr1n toRK.
move=> T; exists (fun j => toR ((invmx G *m T *m invmx G^H) j j)); split.
  move=> s hs; rewrite iL // -!mulmxA mxtrace_mulC -!mulmxA /mxtrace raddf_sum; apply: eq_bigr => j _ /=.
  rewrite mul_dia_mx mxE toRZ !mxE Rinv_E mulrC; congr (_ * _).
rewrite iA eH.
have -> : invmx G^H *m invmx G *m (G *m dia K h *m G^H) *m (invmx G^H *m invmx G) *m T = invmx G^H *m (dia K h *m (invmx G *m T)).
  by rewrite -!mulmxA mulKmx // !mulmxA mulmxK // -!mulmxA.
rewrite mxtrace_mulC -!mulmxA /mxtrace raddf_sum; apply: eq_bigr => j _ /=.
by rewrite mul_dia_mx toRZ mulrC mulmxA.
Qed.
Lemma line_derive N (T : 'I_N -> 'M[K]_n) (df k0 kd kp : R) : 0 < df -> (forall i, 0 <= toR (\tr (invmx A *m T i))) ->
  exists (f : R -> R) (eps : R), [/\ 0 < eps, forall s, `|s| < eps -> pd (line s) /\
     f s = \sum_i (k0 + (kd * ln (toR (\det (line s))) + kp * ln (1 + toR (\tr (invmx (line s) *m T i)) * Rinv df))) &
     is_derive f 0 (\sum_i (kd * toR (\tr (invmx A *m H)) - kp / (df + toR (\tr (invmx A *m T i))) * toR (\tr (invmx A *m H *m invmx A *m T i))))].
Proof.
move=> df0 T0; have [h [eps [e0 pL dL tH hT]]] := along.
have [c hc] := fin_all_exists (fun i => hT (T i)).
have q0 i : \sum_j c i j * Rinv (1 + 0 * h j) = toR (\tr (invmx A *m T i)).
  by rewrite -(proj1 (hc i) 0) ?normr0 // /line rmorph0 scale0r addr0.
exists (fun s => \sum_i (k0 + (kd * (ln (toR (\det A)) + \sum_j ln (1 + s * h j)) + kp * ln (1 + (\sum_j c i j * Rinv (1 + s * h j)) * Rinv df)))), eps; split=> //.
  by move=> s hs; split; [exact: pL|apply: eq_bigr => i _; rewrite dL // (proj1 (hc i) s hs)].
apply: d_sum => i; rewrite -[_ - _]add0r; apply: d_add; first exact: d_const.
apply: d_add; first by rewrite tH -[\sum_j h j]add0r; apply/d_scale/d_add; [exact: d_const|apply: d_sum => j; exact: d_ln1].
rewrite (proj2 (hc i)) -mulrN -Rinv_E -q0 -sumrN.
apply: d_lnq; [exact/RltP| |apply: d_sum => j; exact: d_frac].
by apply/RleP; rewrite q0; exact: T0.
Qed.
Lemma mxtraceN' (M : 'M[K]_n) : \tr (- M) = - \tr M. Proof. by rewrite -scaleN1r mxtraceZ mulN1r. Qed.
(* the sum that line_derive gives, as a trace *)
Lemma grad_trace N (T : 'I_N.+1 -> 'M[K]_n) (u : 'I_N.+1 -> R) (k : nat) :
  N.+1%:R * toR (\tr ((N.+1%:R^-1 *: (- \sum_i ofR (u i) *: (invmx A *m T i *m invmx A)) + k%:R *: invmx A) *m H)) =
  \sum_i (k%:R * toR (\tr (invmx A *m H)) - u i * toR (\tr (invmx A *m H *m invmx A *m T i))).
Proof.
have n0 : (N.+1%:R : R) != 0 by rewrite pnatr_eq0.
have eS : toR (\tr ((\sum_i ofR (u i) *: (invmx A *m T i *m invmx A)) *m H)) = \sum_i u i * toR (\tr (invmx A *m H *m invmx A *m T i)).
  rewrite mulmx_suml (big_morph _ (@mxtraceD _ _) (mxtrace0 _ _)) raddf_sum; apply: eq_bigr => i _ /=.
  rewrite -scalemxAl mxtraceZ toRZ; congr (_ * toR _).
  by rewrite -!mulmxA mxtrace_mulC -!mulmxA mxtrace_mulC -!mulmxA.
rewrite mulmxDl mxtraceD raddfD /= -!scalemxAl !mxtraceZ mulNmx mxtraceN'.
rewrite -(rmorph_nat ofR N.+1) -fmorphV -(rmorph_nat ofR k) !toRZ raddfN /= eS mulrDr mulrA divff // mul1r.
rewrite sumrB sumr_const card_ord [RHS]addrC -[X in _ = _ + X](mulr_natl (k%:R * _)).
by [].
Qed.
End Along.
Section Real.
Variable K : starField.
Lemma tr_real N a b (X : 'M[K]_(N, a * b)) i (C : 'M[K]_a) (D : 'M[K]_b) : map_mx (cj K) X = X ->
  \tr (C *m (cell X a b i)^T *m D *m cell X a b i) = \tr (C *m ((unstack X i)^H *m D *m unstack X i)).
Proof.
move=> rX; rewrite cellE !mulmxA; congr (\tr (_ *m _ *m _ *m _)).
rewrite /adj; congr (_^T); apply/matrixP => r c; rewrite !mxE.
by move/matrixP: rX => /(_ i (mxtens_index (c, r))); rewrite mxE.
Qed.
Lemma tr_AB a b (C : 'M[K]_a) (D : 'M[K]_b) (U : 'M[K]_(b, a)) : \tr (D *m (U *m C *m U^H)) = \tr (C *m (U^H *m D *m U)).
Proof. by rewrite mulmxA mxtrace_mulC !mulmxA mxtrace_mulC !mulmxA. Qed.
Lemma grad_ext n N (w w' : 'I_N -> K) (F : 'I_N -> 'M[K]_n) c (E : 'M[K]_n) : (forall i, w i = w' i) ->
  (c *: (- \sum_i w i *: F i) + E)^H = (c *: (- \sum_i w' i *: F i) + E)^H.
Proof. by move=> e; congr (_ *: (- _) + _)^H; apply: eq_bigr => i _; rewrite e. Qed.
End Real.

Section C58.
Variables (psd_other : psd_oracle) (gammaln : R -> R) (clog : C -> C).
Local Notation K := complex_sf.
Local Notation ofR := (@ofR K).
Local Notation toR := (@toR K).
(* what the cost function computes *)
Theorem C58_cost df N a b (X : 'M[K]_(N, a * b)) x (m : 'cV[K]_(a * b)) loc (A : 'M[K]_a) (B : 'M[K]_b) :
  0 < df -> has_mx X x -> mean_is m loc -> pd A -> pd B ->
  kst_cost psd_other gammaln clog x df loc A B = Ok (R2C (- \sum_i cstudent_spec gammaln df m (A *t B) (samp X i))).
Proof.
move=> df0 hX hm pA pB; have pS := tens_pd pA pB.
have hS : ccov_is (A *t B) (Parr (np_kron A B)).
  by exists (np_kron A B); split=> //; split=> // i j; rewrite at_of_mx.
have [f [ef [hf _]]] := @C09_frozen_logpdf_partial psd_other gammaln clog (a * b) m (A *t B) _ _ hm hS pS df df0.
rewrite /kst_cost ef [bindr (Ok _) _]/=; have [v [-> hv]] := hf _ _ _ hX; rewrite [bindr _ _]/= (np_sum_values hv).
by rewrite -R2CN.
Qed.
Definition nll_const df p : R := gammaln (df + p%:R) - gammaln df - p%:R * ln (PI * df).
Lemma spec2 df N a b (X : 'M[K]_(N, a * b)) (A : 'M[K]_a) (B : 'M[K]_b) i : 0 < df -> pd A -> pd B ->
  - cstudent_spec gammaln (2%:R * df) 0 (A^T *t B) (samp X i) =
  - nll_const df (a * b) + (b%:R * ln (toR (\det A)) + a%:R * ln (toR (\det B))) +
   (df + (a * b)%N%:R) * ln (1 + toR (\tr (invmx A *m ((unstack X i)^H *m invmx B *m unstack X i))) * Rinv df).
Proof.
move=> df0 pA pB; rewrite /cstudent_spec subr0.
have -> : complex.Re (\det (A^T *t B)) = toR (\det (A^T *t B)) by [].
rewrite ln_det_tens //.
have -> : maha (A^T *t B) (samp X i) = toR (\tr (invmx A *m ((unstack X i)^H *m invmx B *m unstack X i))).
  by rewrite -den_maha ?pd_unit // /mm_denominator /mm_numerator cellE.
have e1 : 2%:R * df / 2%:R = df by rfield.
have e2 : PI * (2%:R * df) / 2%:R = PI * df by rfield.
have e3 q : 2%:R * q / (2%:R * df) = q * Rinv df.
  by rewrite Rinv_E invfM mulrACA divff ?mul1r // pnatr_eq0.
rewrite e1 e2 e3 /nll_const; move: (gammaln _) (gammaln _) (ln _) (ln _) (ln _) (ln _) => u v w z t r; move: ((a * b)%N%:R : R) (a%:R : R) (b%:R : R) => p ar br; rring.
Qed.
(* For real data without location, the function returns (1/N times) the gradient, at the pair (A, B), of
   the cost of kron(A.T, B) with twice the degrees of freedom. *)
Theorem C58_real_data_partial df N a b (X : 'M[K]_(N.+1, a * b)) x (A HA : 'M[K]_a) (B HB : 'M[K]_b) :
  0 < df -> has_mx X x -> map_mx (cj K) X = X -> pd A -> pd B -> herm HA -> herm HB ->
  let cost A B := kst_cost psd_other gammaln clog x (2%:R * df) Pnone (A^T : 'M[K]_a) (B : 'M[K]_b) in
  exists GA GB, [/\ kst_egrad X df A B = Ok (GA, GB),
    derivative_at0 (fun s y => cost (A + ofR s *: HA) B = Ok (R2C y)) (N.+1%:R * toR (\tr (GA^H *m HA))) &
    derivative_at0 (fun s y => cost A (B + ofR s *: HB) = Ok (R2C y)) (N.+1%:R * toR (\tr (GB^H *m HB)))].
Proof.
move=> df0 hX rX pA pB hA hB cost.
have uA := pd_unit pA; have uB := pd_unit pB.
have d2 : 0 < 2%:R * df by rewrite mulr_gt0 ?ltr0n.
pose TA i := (cell X a b i)^H *m invmx B *m cell X a b i.
pose TB i := cell X a b i *m invmx A *m (cell X a b i)^H.
have q0 i : 0 <= toR (\tr (invmx A *m TA i)) by apply/toR_ge0/tr_ge0; exact: pd_inv.
have qE i : \tr (invmx B *m TB i) = \tr (invmx A *m TA i) by exact: tr_AB.
have QE i : kst_Q X (invmx A) (invmx B) i = toR (\tr (invmx A *m TA i)) by rewrite /kst_Q tr_real // /TA cellE.
pose u i := (df + (a * b)%N%:R) / (df + toR (\tr (invmx A *m TA i))).
pose gA := N.+1%:R^-1 *: (- \sum_i ofR (u i) *: (invmx A *m TA i *m invmx A)) + b%:R *: invmx A.
pose gB := N.+1%:R^-1 *: (- \sum_i ofR (u i) *: (invmx B *m TB i *m invmx B)) + a%:R *: invmx B.
exists gA^H, gB^H; rewrite !adjK; split.
- have eW i : kst_w a b df (kst_Q X (invmx A) (invmx B) i) = ofR (u i) by rewrite /kst_w QE.
  rewrite /kst_egrad /np_inv uA uB !bindrOk; cbv zeta.
  have e1 := grad_ext (fun i => invmx A *m TA i *m invmx A) N.+1%:R^-1 (b%:R *: invmx A) eW.
  have e2 := grad_ext (fun i => invmx B *m TB i *m invmx B) N.+1%:R^-1 (a%:R *: invmx B) eW.
  exact: (congr1 (@Ok _) (f_equal2 pair e1 e2)).
- have [f [eps [e0 hf hd]]] := line_derive pA hA (- nll_const df (a * b) + a%:R * ln (toR (\det B))) b%:R (df + (a * b)%N%:R) df0 q0.
  exists f, eps; split=> //; last first.
    rewrite (_ : N.+1%:R * toR (\tr (gA *m HA)) = \sum_i (b%:R * toR (\tr (invmx A *m HA)) - u i * toR (\tr (invmx A *m HA *m invmx A *m TA i)))) //.
    exact: grad_trace.
  move=> s hs; have [pL ->] := hf s hs; rewrite /cost (@C58_cost _ _ _ _ X x 0 Pnone) //; [|by right|exact: tr_pd].
  congr (Ok (R2C _)); rewrite -sumrN; apply: eq_bigr => i _.
  rewrite spec2 // /TA cellE; move: (ln _) (ln _) (ln _) => v w z; move: ((a * b)%N%:R : R) (a%:R : R) (b%:R : R) (nll_const _ _) => p ar br k; rring.
have q0B i : 0 <= toR (\tr (invmx B *m TB i)) by rewrite qE.
have [f [eps [e0 hf hd]]] := line_derive pB hB (- nll_const df (a * b) + b%:R * ln (toR (\det A))) a%:R (df + (a * b)%N%:R) df0 q0B.
exists f, eps; split=> //; last first.
  rewrite (_ : N.+1%:R * toR (\tr (gB *m HB)) = \sum_i (a%:R * toR (\tr (invmx B *m HB)) - u i * toR (\tr (invmx B *m HB *m invmx B *m TB i)))).
    have e : \sum_i (a%:R * toR (\tr (invmx B *m HB)) - u i * toR (\tr (invmx B *m HB *m invmx B *m TB i))) =
      \sum_i (a%:R * toR (\tr (invmx B *m HB)) - (df + (a * b)%N%:R) / (df + toR (\tr (invmx B *m TB i))) * toR (\tr (invmx B *m HB *m invmx B *m TB i))).
      by apply: eq_bigr => i _; rewrite /u qE.
    by rewrite e.
  exact: grad_trace.
move=> s hs; have [pL ->] := hf s hs; rewrite /cost (@C58_cost _ _ _ _ X x 0 Pnone) //; [|by right|exact: tr_pd].
congr (Ok (R2C _)); rewrite -sumrN; apply: eq_bigr => i _.
rewrite spec2 // /TB cellE -tr_AB; move: (ln _) (ln _) (ln _) => v w z; move: ((a * b)%N%:R : R) (a%:R : R) (b%:R : R) (nll_const _ _) => p ar br k; rring.
Qed.
End C58.

Print Assumptions C58_cost.
Print Assumptions C58_real_data_partial.
