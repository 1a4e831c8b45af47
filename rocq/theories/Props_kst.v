(* Theorems about the points where the optimiser of the Kronecker Student estimator stops: C96. *)
From Coq Require Import Reals String.
From mathcomp Require Import all_ssreflect all_algebra.
From mathcomp Require Import complex mxtens.
From Coquelicot Require Import Coquelicot.
From Verif Require Import RealsMC RealTac RealTac2 Star StarInst FunCalc Model_featurearray Model_linalg Proofs_linalg NpArray Proofs_numpy
  Model_mappings Props_mappings Model_covariance Spec_covariance Model_estimators Model_scipy Model_probability Proofs_probability Props_probability
  Model_scores Props_robust Model_sklearn Model_objects
  Proofs_objects Props_objects Proofs_loop Proofs_cost GeoNum Props_geodesic KronNum Model_structured Proofs_structured Props_structured Props_kstudent Props_kstudent2
  Proofs_unique2 Spec_kron Proofs_kron Proofs_kron1 Proofs_kron2 Proofs_kst Model_manifolds Proofs_hpd Props_hpd Props_shpd Props_product.
Set Implicit Arguments.
Unset Strict Implicit.
Unset Printing Implicit Defensive.
Local Open Scope ring_scope.
Import GRing.Theory Num.Theory Order.TTheory.

Lemma fermat (f : R -> R) (eps d : R) : 0 < eps -> (forall s, `|s| < eps -> f 0 <= f s) -> is_derive f 0 d -> d = 0.
Proof.
move=> e0 h /is_derive_Reals hd; have pr : derivable_pt f 0 by exists d.
have <- : derive_pt f 0 pr = d by apply/derive_pt_eq.
have e0' : Rlt 0 eps by apply/RltP.
apply: (@deriv_minimum f (- eps) eps) => //; first by apply: Ropp_lt_gt_0_contravar.
move=> x /RltP h1 /RltP h2; apply/RleP/h; rewrite ltr_norml h2 andbT; exact: h1.
Qed.
Section Stationary.
Variable K : starField.
Local Notation ofR := (@ofR K).
Local Notation toR := (@toR K).
Local Notation "A ^H" := (adj A) (at level 8, format "A ^H").
Variables (N a b : nat) (X : 'M[K]_(N.+1, a * b)) (df : R).
Hypothesis df0 : 0 < df.
Local Notation u := (sk_u X df).
Definition sk_gA (A : 'M[K]_a) (B : 'M[K]_b) : 'M[K]_a :=
  N.+1%:R^-1 *: (- \sum_i ofR (u A B i) *: (invmx A *m mm_numerator a X (invmx B) i *m invmx A)) + b%:R *: invmx A.
Definition sk_gB (A : 'M[K]_a) (B : 'M[K]_b) : 'M[K]_b :=
  N.+1%:R^-1 *: (- \sum_i ofR (u A B i) *: (invmx B *m mm_numerator_B b X (invmx A) i *m invmx B)) + a%:R *: invmx B.
Lemma herm_sum n (I : finType) (F : I -> 'M[K]_n) : (forall i, herm (F i)) -> herm (\sum_i F i).
Proof. by move=> h; apply: big_rec => [|i x _ hx]; [rewrite /herm adj0|exact: hermD]. Qed.
Lemma numB_herm (A : 'M[K]_a) i : pd A -> herm (mm_numerator_B b X (invmx A) i).
Proof. by move=> pA; apply/herm_congr/pd_herm/pd_inv. Qed.
Lemma numA_herm (B : 'M[K]_b) i : pd B -> herm (mm_numerator a X (invmx B) i).
Proof. by move=> pB; rewrite /mm_numerator -{2}[cell X a b i]adjK; apply/herm_congr/pd_herm/pd_inv. Qed.
Lemma sk_gA_herm (A : 'M[K]_a) (B : 'M[K]_b) : pd A -> pd B -> herm (sk_gA A B).
Proof.
move=> pA pB; have hA := pd_herm (pd_inv pA); rewrite /sk_gA -(rmorph_nat ofR N.+1) -fmorphV -(rmorph_nat ofR b).
apply: hermD; last exact: hermZR.
apply/hermZR; rewrite -sumrN; apply: herm_sum => i; rewrite -scaleNr -rmorphN; apply: hermZR.
by rewrite -{2}hA; apply/herm_congr/numA_herm.
Qed.
Lemma sk_gB_herm (A : 'M[K]_a) (B : 'M[K]_b) : pd A -> pd B -> herm (sk_gB A B).
Proof.
move=> pA pB; have hB := pd_herm (pd_inv pB); rewrite /sk_gB -(rmorph_nat ofR N.+1) -fmorphV -(rmorph_nat ofR a).
apply: hermD; last exact: hermZR.
apply/hermZR; rewrite -sumrN; apply: herm_sum => i; rewrite -scaleNr -rmorphN; apply: hermZR.
by rewrite -{2}hB; apply/herm_congr/numB_herm.
Qed.
Lemma sarith3 (c q l x y : R) : c * (l + q) + (x + y) = c * l + y + (x + c * q). Proof. rring. Qed.
Lemma ln_df (q : R) : 0 <= q -> ln (df + q) = ln df + ln (1 + q * Rinv df).
Proof.
move=> q0; rewrite -lnM // Rinv_E; last by rewrite ltr_paddr ?ltr01 // divr_ge0 // ltW.
by rewrite mulrDr mulr1 mulrCA divff ?mulr1 // gt_eqF.
Qed.
Lemma sk_cost_A (A : 'M[K]_a) (B : 'M[K]_b) : pd A -> pd B -> skron_cost X df A^T B =
  \sum_i ((df + (a * b)%N%:R) * ln df + a%:R * ln (toR (\det B)) + (b%:R * ln (toR (\det A)) +
    (df + (a * b)%N%:R) * ln (1 + toR (\tr (invmx A *m mm_numerator a X (invmx B) i)) * Rinv df))).
Proof.
move=> pA pB; pose t := b%:R * ln (toR (\det A)) + a%:R * ln (toR (\det B)).
rewrite [RHS](eq_bigr (fun i => (df + (a * b)%N%:R) * ln (df + maha (A^T *t B) (samp X i)) + t)) => [|i _].
  by rewrite big_split sumr_const card_ord -mulr_sumr /= -[t *+ _]mulr_natl /skron_cost ln_det_tens.
have [uA uB] := (pd_unit pA, pd_unit pB).
have q0 : 0 <= toR (mm_denominator X (invmx A) (invmx B) i) by apply/toR_ge0/den_ge0; exact: pd_inv.
by rewrite -den_maha // ln_df // /t sarith3.
Qed.
Lemma sk_cost_B (A : 'M[K]_a) (B : 'M[K]_b) : pd A -> pd B -> skron_cost X df A^T B =
  \sum_i ((df + (a * b)%N%:R) * ln df + b%:R * ln (toR (\det A)) + (a%:R * ln (toR (\det B)) +
    (df + (a * b)%N%:R) * ln (1 + toR (\tr (invmx B *m mm_numerator_B b X (invmx A) i)) * Rinv df))).
Proof.
move=> pA pB; rewrite sk_cost_A //; apply: eq_bigr => i _; rewrite /mm_numerator_B tr_AB -/(mm_numerator a X (invmx B) i).
move: (ln _) (ln _) (ln _) (ln _) => p q r t; move: (a%:R : R) (b%:R : R) ((a * b)%N%:R : R) => x y z; rring.
Qed.
Lemma herm_tr0 n (A : 'M[K]_n) : herm A -> toR (\tr (A *m A)) = 0 -> A = 0.
Proof. by move=> hA; rewrite -{2}hA -fro2_tr toRK; exact: fro2_eq0. Qed.
Lemma den_B (A : 'M[K]_a) (B : 'M[K]_b) i : \tr (invmx B *m mm_numerator_B b X (invmx A) i) = mm_denominator X (invmx A) (invmx B) i.
Proof. exact: tr_AB. Qed.
Lemma min_gA (A : 'M[K]_a) (B : 'M[K]_b) : pd A -> pd B -> (forall A', pd A' -> skron_cost X df A^T B <= skron_cost X df A'^T B) -> sk_gA A B = 0.
Proof.
move=> pA pB mi; have hg := sk_gA_herm pA pB; apply: herm_tr0 => //.
pose T i := mm_numerator a X (invmx B) i.
have q0 i : 0 <= toR (\tr (invmx A *m T i)) by apply/toR_ge0/den_ge0; exact: pd_inv.
have [f [eps [e0 hf hd]]] := line_derive pA hg ((df + (a * b)%N%:R) * ln df + a%:R * ln (toR (\det B))) b%:R (df + (a * b)%N%:R) df0 q0.
have := grad_trace A (sk_gA A B) T (u A B) b; rewrite -/(sk_gA A B).
have -> : \sum_i (b%:R * toR (\tr (invmx A *m sk_gA A B)) - u A B i * toR (\tr (invmx A *m sk_gA A B *m invmx A *m T i))) = 0.
  apply: (fermat e0 _ hd) => s hs; have [pL ->] := hf s hs; have z0 : `|0 : R| < eps by rewrite normr0.
  have [_ ->] := hf 0 z0; rewrite /line rmorph0 scale0r addr0 -(sk_cost_A pA pB) -(sk_cost_A pL pB); exact: mi.
by move/eqP; rewrite mulf_eq0 pnatr_eq0 => /eqP.
Qed.
Lemma min_gB (A : 'M[K]_a) (B : 'M[K]_b) : pd A -> pd B -> (forall B', pd B' -> skron_cost X df A^T B <= skron_cost X df A^T B') -> sk_gB A B = 0.
Proof.
move=> pA pB mi; have hg := sk_gB_herm pA pB; apply: herm_tr0 => //.
pose T i := mm_numerator_B b X (invmx A) i.
have q0 i : 0 <= toR (\tr (invmx B *m T i)) by rewrite den_B; apply/toR_ge0/den_ge0; exact: pd_inv.
have [f [eps [e0 hf hd]]] := line_derive pB hg ((df + (a * b)%N%:R) * ln df + b%:R * ln (toR (\det A))) a%:R (df + (a * b)%N%:R) df0 q0.
have := grad_trace B (sk_gB A B) T (u A B) a; rewrite -/(sk_gB A B).
have -> : \sum_i (a%:R * toR (\tr (invmx B *m sk_gB A B)) - u A B i * toR (\tr (invmx B *m sk_gB A B *m invmx B *m T i))) = 0.
  apply: (fermat e0 (d := _) _); last first.
    move: hd; rewrite (eq_bigr (fun i => a%:R * toR (\tr (invmx B *m sk_gB A B)) - u A B i * toR (\tr (invmx B *m sk_gB A B *m invmx B *m T i)))) => [hd|i _]; last by rewrite /u den_B.
    exact: hd.
  move=> s hs; have [pL ->] := hf s hs; have z0 : `|0 : R| < eps by rewrite normr0.
  have [_ ->] := hf 0 z0; rewrite /line rmorph0 scale0r addr0 -(sk_cost_B pA pB) -(sk_cost_B pA pL); exact: mi.
by move/eqP; rewrite mulf_eq0 pnatr_eq0 => /eqP.
Qed.
Lemma sarith4 (n b' : K) n' (S A : 'M[K]_n') : n != 0 -> A \in unitmx -> n^-1 *: (- (invmx A *m S *m invmx A)) + b' *: invmx A = 0 -> S = (n * b') *: A.
Proof.
move=> n0 uA /(congr1 (fun M => n *: (A *m M *m A))); rewrite mulmx0 mul0mx scaler0 mulmxDr mulmxDl.
rewrite -!scalemxAr -!scalemxAl mulmxN mulNmx !mulmxA mulmxV // !mul1mx mulmxKV // scalerDr !scalerA divff // scale1r => /eqP.
by rewrite addrC subr_eq0 => /eqP.
Qed.
Lemma gA_eq (A : 'M[K]_a) (B : 'M[K]_b) : pd A -> sk_gA A B = 0 -> sk_eqA X df A B.
Proof.
move=> pA; have uA := pd_unit pA; rewrite /sk_gA /sk_eqA rmorphM !rmorph_nat => h; apply: sarith4 => //; first by rewrite pnatr_eq0.
rewrite -[RHS]h; congr (_ *: (- _) + _); rewrite mulmx_sumr mulmx_suml; apply: eq_bigr => i _; by rewrite -scalemxAr -scalemxAl.
Qed.
Lemma gB_eq (A : 'M[K]_a) (B : 'M[K]_b) : pd B -> sk_gB A B = 0 -> sk_eqB X df A B.
Proof.
move=> pB; have uB := pd_unit pB; rewrite /sk_gB /sk_eqB rmorphM !rmorph_nat => h; apply: sarith4 => //; first by rewrite pnatr_eq0.
rewrite -[RHS]h; congr (_ *: (- _) + _); rewrite mulmx_sumr mulmx_suml; apply: eq_bigr => i _; by rewrite -scalemxAr -scalemxAl.
Qed.
Lemma stationary_min (A : 'M[K]_a) (B : 'M[K]_b) : pd A -> pd B ->
  (sk_gA A B = 0 /\ sk_gB A B = 0) <-> (forall P' B', pd P' -> pd B' -> skron_cost X df A^T B <= skron_cost X df P' B').
Proof.
move=> pA pB; split=> [[hA hB] P' B' pP' pB'|mi].
  by apply: sk_min => //; [exact: gA_eq|exact: gB_eq].
by split; [apply: min_gA => // A' pA'; apply: mi => //; exact: tr_pd|apply: min_gB => // B' pB'; apply: mi => //; exact: tr_pd].
Qed.
(* the two traces agree *)
Lemma tr_gg (A : 'M[K]_a) (B : 'M[K]_b) : A \in unitmx -> B \in unitmx -> \tr (sk_gA A B *m A) = \tr (sk_gB A B *m B).
Proof.
move=> uA uB; rewrite /sk_gA /sk_gB !mulmxDl -!scalemxAl !mulVmx // !mxtraceD !mxtraceZ !mxtrace1 [b%:R * _]mulrC; congr (_ * _ + _).
rewrite !mulNmx !mxtraceN'; congr (- _); rewrite !mulmx_suml !raddf_sum; apply: eq_bigr => i _ /=.
by rewrite -!scalemxAl !mxtraceZ !mulmxKV // den_B.
Qed.
End Stationary.
(* the gradient on the manifold vanishes only with the two matrices *)
Lemma rgrad0 (K : starField) a b al (A gA : 'M[K]_a) (B gB : 'M[K]_b) : (0 < a)%N -> (0 < b)%N -> 0 < al -> pd A -> pd B -> herm gA -> herm gB ->
  \tr (gA *m A) = \tr (gB *m B) -> (kron_egrad2rgrad al (A, B) (gA, gB) = (0, 0) <-> gA = 0 /\ gB = 0).
Proof.
move=> a0 b0 al0 pA pB hA hB tt; have [uA uB] := (pd_unit pA, pd_unit pB).
have wA : kron_wA b al != 0 by rewrite gt_eqF // mulr_gt0 ?ltr0n.
have wB : kron_wB a al != 0 by rewrite gt_eqF // mulr_gt0 ?ltr0n.
have eB : hegrad1 B gB = B *m gB *m B by rewrite /hegrad1 multiherm_id.
have hAA : herm (A *m gA *m A) by rewrite -{2}(pd_herm pA); apply: herm_congr.
have eA : @shpd_egrad2rgrad K a 1 (fun=> A) (fun=> gA) ord0 = A *m gA *m A - (a%:R^-1 * \tr (gA *m A)) *: A.
  rewrite /shpd_egrad2rgrad projE //.
  by rewrite multiherm_id // !mulmxA mulVmx // mul1mx.
rewrite /kron_egrad2rgrad /= eA eB; split; last first.
  by move=> [-> ->]; rewrite !mulmx0 !mul0mx mxtrace0 mulr0 scale0r subr0 !scaler0.
move=> [] /eqP; rewrite scaler_eq0 fmorph_eq0 mul1r invr_eq0 (negbTE wA) /= => /eqP h1 /eqP.
rewrite scaler_eq0 fmorph_eq0 mul1r invr_eq0 (negbTE wB) /= => /eqP h2.
have z2 : gB = 0.
  have := congr1 (fun M => invmx B *m M *m invmx B) h2; by rewrite mulmx0 mul0mx !mulmxA mulVmx // mul1mx mulmxK.
split=> //; move: h1; rewrite tt z2 mul0mx mxtrace0 mulr0 scale0r subr0 => h1.
have := congr1 (fun M => invmx A *m M *m invmx A) h1; by rewrite mulmx0 mul0mx !mulmxA mulVmx // mul1mx mulmxK.
Qed.

Section C96.
Variables (psd_other : psd_oracle) (gammaln : R -> R) (clog : C -> C).
Local Notation K := complex_sf.
Local Notation ofR := (@ofR K).
Local Notation toR := (@toR K).
(* kron(P, B) has, for the cost function of the estimator, the least value among the pairs of positive definite matrices *)
Definition most_likely x df loc a b (P : 'M[K]_a) (B : 'M[K]_b) := exists2 y : R,
  kst_cost psd_other gammaln clog x df loc P B = Ok (R2C y) &
  forall (P' : 'M[K]_a) (B' : 'M[K]_b), pd P' -> pd B' ->
    exists2 y' : R, kst_cost psd_other gammaln clog x df loc P' B' = Ok (R2C y') & y <= y'.
Lemma most_likelyE df N a b (X : 'M[K]_(N, a * b)) x loc (P : 'M[K]_a) (B : 'M[K]_b) : 0 < df -> has_mx X x -> mean_is (0 : 'cV[K]_(a * b)) loc -> pd P -> pd B ->
  (most_likely x (2%:R * df) loc P B <-> forall P' B', pd P' -> pd B' -> skron_cost X df P B <= skron_cost X df P' B').
Proof.
move=> df0 hX hm; have d2 : 0 < 2%:R * df by rewrite mulr_gt0 ?ltr0n.
have [k ek] : exists k, forall (P : 'M[K]_a) (B : 'M[K]_b), pd P -> pd B ->
    kst_cost psd_other gammaln clog x (2%:R * df) loc P B = Ok (R2C (k + skron_cost X df P B)).
  exists (N%:R * (- nll_const gammaln df (a * b) - (df + (a * b)%N%:R) * ln df)) => P' B' pP pB.
  rewrite (C58_cost _ _ _ d2 hX hm) //; congr (Ok (R2C _)); have pA := tr_pd pP; rewrite -[P']trmxK -sumrN.
  pose t := b%:R * ln (toR (\det P'^T)) + a%:R * ln (toR (\det B')).
  rewrite (eq_bigr (fun i => (- nll_const gammaln df (a * b) - (df + (a * b)%N%:R) * ln df + t) + (df + (a * b)%N%:R) * ln (df + maha ((P'^T)^T *t B') (samp X i)))) => [|i _].
    rewrite big_split sumr_const card_ord -mulr_sumr /= -[(_ + t) *+ _]mulr_natl /skron_cost ln_det_tens // -/t.
    move: (\sum_i _) t (nll_const _ _ _) (ln _) => s t c l; move: (N%:R : R) ((a * b)%N%:R : R) => n p; rring.
  rewrite spec2 //; have [uA uB] := (pd_unit pA, pd_unit pB).
  have q0 : 0 <= toR (mm_denominator X (invmx P'^T) (invmx B') i) by apply/toR_ge0/den_ge0; exact: pd_inv.
  rewrite -den_maha //; have eq : mm_denominator X (invmx P'^T) (invmx B') i = \tr (invmx P'^T *m ((unstack X i)^H *m invmx B' *m unstack X i)).
    by rewrite /mm_denominator /mm_numerator cellE.
  rewrite -eq; move: (toR (mm_denominator _ _ _ _)) q0 => q q0; rewrite (ln_df df0 q0) -/t.
  move: (ln _) (ln _) t (nll_const _ _ _) => p r t c; move: ((a * b)%N%:R : R) => m; rring.
move=> pP pB; split=> [[y]|h].
  rewrite (ek _ _ pP pB) => -[ey] h P' B' pP' pB'; have [y'] := h _ _ pP' pB'.
  by rewrite (ek _ _ pP' pB') => -[ey']; subst y y'; rewrite ler_add2l.
exists (k + skron_cost X df P B); first exact: ek.
by move=> P' B' pP' pB'; exists (k + skron_cost X df P' B'); [exact: ek|rewrite ler_add2l; exact: h].
Qed.
Lemma egradE df N a b (X : 'M[K]_(N.+1, a * b)) (A : 'M[K]_a) (B : 'M[K]_b) : map_mx (cj K) X = X -> pd A -> pd B ->
  kst_egrad X df A B = Ok (sk_gA X df A B, sk_gB X df A B).
Proof.
move=> rX pA pB; have [uA uB] := (pd_unit pA, pd_unit pB).
have eW i : kst_w a b df (kst_Q X (invmx A) (invmx B) i) = ofR (sk_u X df A B i).
  by rewrite /kst_w /kst_Q Props_kstudent.tr_real // /sk_u /mm_denominator /mm_numerator cellE.
rewrite /kst_egrad /np_inv uA uB !bindrOk; cbv zeta.
have e1 := grad_ext (fun i => invmx A *m mm_numerator a X (invmx B) i *m invmx A) N.+1%:R^-1 (b%:R *: invmx A) eW.
have e2 := grad_ext (fun i => invmx B *m mm_numerator_B b X (invmx A) i *m invmx B) N.+1%:R^-1 (a%:R *: invmx B) eW.
have h1 := sk_gA_herm X df pA pB; have h2 := sk_gB_herm X df pA pB.
rewrite -[X in _ = Ok (X, _)]h1 -[X in _ = Ok (_, X)]h2.
exact: (congr1 (@Ok _) (f_equal2 pair e1 e2)).
Qed.
(* Real data, centred: the gradient that the optimiser follows on the manifold vanishes at (A, B) if and only if kron(A.T, B) is a
   maximum likelihood estimate, for twice the degrees of freedom of the estimator. *)
Theorem C96_stationary_partial df N a b (X : 'M[K]_(N.+1, a * b)) x loc (A : 'M[K]_a) (B : 'M[K]_b) :
  (0 < a)%N -> (0 < b)%N -> 0 < df -> has_mx X x -> mean_is (0 : 'cV[K]_(a * b)) loc -> map_mx (cj K) X = X -> pd A -> pd B ->
  exists g, kst_egrad X df A B = Ok g /\
    (kron_egrad2rgrad (kalpha a b df) (A, B) g = (0, 0) <-> most_likely x (2%:R * df) loc A^T B).
Proof.
move=> a0 b0 df0 hX hm rX pA pB; exists (sk_gA X df A B, sk_gB X df A B); split; first exact: egradE.
have k0 : 0 < kalpha a b df by rewrite /kalpha divr_gt0 // ?ltr_paddr ?ler0n ?addr_ge0 ?ltW ?ltr01 // ltr_paddl ?ltr01 ?addr_ge0 ?ler0n ?ltW.
rewrite (most_likelyE df0 hX hm (tr_pd pA) pB) -(stationary_min X df0 pA pB).
apply: rgrad0 => //; [exact: sk_gA_herm|exact: sk_gB_herm|by apply: tr_gg; exact: pd_unit].
Qed.
(* Violated with the degrees of freedom of the estimator: samples 2 and 1/2, df = 1.  The gradient vanishes at A = B = 1, which
   is the maximum likelihood estimate for 2 degrees of freedom, but not for 1. *)
Theorem C96_stationary_refuted : exists (X : 'M[K]_(2, 1 * 1)) x, [/\ has_mx X x, map_mx (cj K) X = X,
  exists2 g, kst_egrad X 1 (1%:M : 'M[K]_1) (1%:M : 'M[K]_1) = Ok g & kron_egrad2rgrad (kalpha 1 1 1) (1%:M, 1%:M) g = (0, 0),
  most_likely x 2%:R Pnone (1%:M : 'M[K]_1) (1%:M : 'M[K]_1) & ~ most_likely x 1 Pnone (1%:M : 'M[K]_1) (1%:M : 'M[K]_1)].
Proof.
pose X : 'M[K]_(2, 1 * 1) := \matrix_(i, j) (if (i : nat) == 0%N then ofR 2%:R else ofR 2%:R^-1).
have hX : has_mx X (of_mx KCplx (X : 'M[C]_(_, _))) by exact: of_mxP.
have rX : map_mx (cj K) X = X by apply/matrixP => i j; rewrite !mxE; case: ifP => _; exact: cj_ofR.
have eg df : kst_egrad X df (1%:M : 'M[K]_1) (1%:M : 'M[K]_1) =
    Ok ((ofR (1 - 2%:R^-1 * ((df + 1) / (df + 4%:R) * 4%:R + (df + 1) / (df + 4%:R^-1) / 4%:R)))%:M,
        (ofR (1 - 2%:R^-1 * ((df + 1) / (df + 4%:R) * 4%:R + (df + 1) / (df + 4%:R^-1) / 4%:R)))%:M).
  rewrite egrad1 big_ord_recl big_ord1 !mxE.
  have e r : toR (ofR r * ofR r) = r * r by rewrite toRZ toRK.
  have -> : (if (nat_of_ord (lift ord0 (0 : 'I_1))) == 0%N then ofR 2%:R else ofR 2%:R^-1) = ofR 2%:R^-1 by [].
  have -> : (if (nat_of_ord (ord0 : 'I_2)) == 0%N then ofR 2%:R else ofR 2%:R^-1) = ofR 2%:R by [].
  by rewrite !e !sq_ofR -!natrM -!invfM -!natrM.
have mm : mean_is (0 : 'cV[K]_(1 * 1)) Pnone by right.
have r0 : exists2 g, kst_egrad X 1 (1%:M : 'M[K]_1) (1%:M : 'M[K]_1) = Ok g & kron_egrad2rgrad (kalpha 1 1 1) (1%:M, 1%:M) g = (0, 0).
  have z : (0%:M : 'M[K]_1) = 0 by exact: raddf0.
  exists (0, 0).
    rewrite eg (_ : 1 - _ = 0); last by rfield.
    by rewrite (rmorph0 ofR) z.
  have k1 : 0 < kalpha 1 1 1 by rewrite /kalpha divr_gt0 // ?addr_gt0 // ?ltr01 // ltr0n.
  have hz : herm (0 : 'M[K]_1) by rewrite /herm adj0.
  have tz : \tr ((0 : 'M[K]_1) *m 1%:M) = \tr ((0 : 'M[K]_1) *m 1%:M) by [].
  have z01 : (0 < 1)%N by [].
  exact: (proj2 (rgrad0 z01 z01 k1 (pd1 K 1) (pd1 K 1) hz hz tz) (conj erefl erefl)).
exists X, (of_mx KCplx (X : 'M[C]_(_, _))); split=> //.
  have [g [eg' hg]] := @C96_stationary_partial 1 1 1 1 X _ Pnone 1%:M 1%:M isT isT ltr01 hX mm rX (pd1 _ _) (pd1 _ _).
  rewrite mulr1 trmx1 in hg; apply/hg; case: r0 => g'; by rewrite eg' => -[<-].
have h0 : 0 < 2%:R^-1 :> R by rewrite invr_gt0 ltr0n.
have [g [eg' hg]] := @C96_stationary_partial 2%:R^-1 1 1 1 X _ Pnone 1%:M 1%:M isT isT h0 hX mm rX (pd1 _ _) (pd1 _ _).
rewrite divff ?pnatr_eq0 // trmx1 in hg; rewrite -hg; move: eg'; rewrite eg (_ : 1 - _ = 12%:R^-1); last by rfield.
case=> <-; have h1 : herm ((ofR 12%:R^-1)%:M : 'M[K]_1) by rewrite -scalemx1; apply: hermZR; rewrite /herm adj1.
have k0 : 0 < kalpha 1 1 2%:R^-1 by rewrite /kalpha divr_gt0 // ?addr_gt0 // ?ltr01 // ltr0n.
rewrite (rgrad0 _ _ k0 (pd1 _ _) (pd1 _ _) h1 h1) // => -[/matrixP /(_ 0 0)].
by rewrite !mxE eqxx mulr1n => /eqP; rewrite fmorph_eq0 invr_eq0 pnatr_eq0.
Qed.
End C96.

Print Assumptions C96_stationary_partial.
Print Assumptions C96_stationary_refuted.
