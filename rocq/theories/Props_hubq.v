(* The solution of the equation iterated by the Huber functions depends continuously on their parameter: C131. *)
From Coq Require Import Reals Lra.
From mathcomp Require Import all_ssreflect all_algebra.
From mathcomp Require Import complex zify.
From Verif Require Import RealsMC RealTac RealTac2 Star StarInst FunCalc Compact Model_featurearray Model_linalg Proofs_linalg Props_linalg Model_covariance Model_estimators
  Spec_covariance Spec_fixedpoint Spec_exist Spec_hubiter Spec_chi2 HuberNum HuberNum2 Proofs_mest Proofs_estimators Proofs_cost Props_cost Props_covariance Props_robust Props_robust2
  Proofs_unique Proofs_unique2 Props_unique Proofs_converge Props_converge Props_huber Proofs_hubiter Proofs_hubiter2 Props_hubiter
  Proofs_exist Proofs_exist2 Proofs_breakdown Proofs_stable Proofs_stable2 Proofs_tycont Proofs_hubcont HuberNum3 Props_kron.
Set Implicit Arguments.
Unset Strict Implicit.
Unset Printing Implicit Defensive.
Local Open Scope ring_scope.
Import GRing.Theory Num.Theory Order.TTheory.

(* ------------------------------------------------------------------ two pairs of parameters *)
Lemma hrhoZ (lb b k q : R) : 0 < lb -> 0 < k -> hrho (k * lb) b q = k * hrho lb b (q / k).
Proof.
move=> l0 k0; have e : (q / k <= lb) = (q <= k * lb) by rewrite ler_pdivr_mulr // mulrC.
rewrite /hrho e [RHS]mulrCA; congr (_ * _); case: ifP => _.
  by rewrite mulrCA divff ?mulr1 // gt_eqF.
by move: l0 k0 => /RltP hl /RltP hk; rfield; split; apply: Rgt_not_eq.
Qed.
Lemma hrho_ratio (lb b lb' b' e q : R) : 0 < lb -> 0 < b -> 0 < lb' -> 0 < b' -> 0 <= e -> lb' <= (1 + e) * lb -> lb <= (1 + e) * lb' -> b' <= (1 + e) * b -> 0 <= q ->
  hrho lb' b' q <= (1 + e) ^+ 2 * hrho lb b q.
Proof.
move=> l0 b0 l1 b1 e0 h1 h2 h3 q0; pose k := lb' / lb; have k0 : 0 < k by rewrite divr_gt0.
have e1 : 0 <= 1 + e by rewrite addr_ge0 ?ler01.
have qk : 0 <= q / k by rewrite divr_ge0 // ltW.
have s1 : hrho lb' b' q <= (1 + e) * hrho lb' b q.
  rewrite /hrho mulrA; apply: ler_wpmul2r => //; have := hrho_ge0 l1 ltr01 q0; by rewrite /hrho mul1r.
have s2 : hrho lb' b q <= (1 + e) * hrho lb b q.
  have -> : lb' = k * lb by rewrite divfK ?gt_eqF.
  rewrite hrhoZ //; have r0 := hrho_ge0 l0 b0 q0; case: (leP 1 k) => k1.
    apply: ler_pmul => //; [exact: ltW|exact: hrho_ge0|by rewrite ler_pdivr_mulr|].
    by apply: hrho_mono => //; rewrite ler_pdivr_mulr // ler_pemulr.
  have ki : 1 <= k^-1 by rewrite invf_ge1 // ltW.
  have h : hrho lb b (q / k) <= k^-1 ^+ 2 * hrho lb b q by rewrite [q / k]mulrC; exact: hrho_scale.
  have kk : k * k^-1 ^+ 2 = k^-1 by rewrite expr2 mulrA divff ?mul1r // gt_eqF.
  apply: le_trans (ler_wpmul2l (ltW k0) h) _; rewrite mulrA kk; apply: ler_wpmul2r => //.
  by rewrite invf_div ler_pdivr_mulr.
by rewrite expr2 -mulrA; apply: le_trans s1 _; apply: ler_wpmul2l.
Qed.
Lemma ratio_near (a f x : R) : 0 < a -> 0 < f -> f <= 1 -> `|x - a| <= f * a / 2%:R -> [/\ 0 < x, x <= (1 + f) * a & a <= (1 + f) * x].
Proof.
move=> a0 f0 f1; rewrite ler_norml => /andP[h1 h2].
have fa : f * a <= a by rewrite ler_pimull // ltW.
have fa0 : 0 < f * a by rewrite mulr_gt0.
have ee : f * a / 2%:R + f * a / 2%:R = f * a by rfield.
have x0 : a / 2%:R <= x.
  have ea : a / 2%:R + a / 2%:R = a by rfield.
  have le : f * a / 2%:R <= a / 2%:R by rewrite ler_pmul2r // invr_gt0 ltr0n.
  move: h1 ea le; move: (f * a / 2%:R) (a / 2%:R) => u v h1 ea le; rewrite -ea in h1; rlra2.
have fx : f * (a / 2%:R) <= f * x by apply: ler_wpmul2l => //; exact: ltW.
rewrite mulrA in fx; split; first by apply: lt_le_trans x0; rewrite divr_gt0 ?ltr0n.
  rewrite mulrDl mul1r; move: h2 ee fa0; move: (f * a / 2%:R) (f * a) => u v h2 ee fa0; rewrite -ee in fa0 *; rlra2.
rewrite mulrDl mul1r; move: h1 fx; move: (f * a / 2%:R) (f * x) => u v h1 fx; rlra2.
Qed.

Lemma two_arith (k u v : R) : u <= v -> 0 < v -> v + v = 1 - k -> k + u < 1.
Proof. by move=> h v0 e; have -> : 1 = v + v + k by [rewrite e subrK]; rewrite addrC ltr_add2r; apply: le_lt_trans h _; rewrite ltr_addl. Qed.
Section Par.
Variable K : starField.
Local Notation ofR := (@ofR K).
Local Notation "A ^H" := (adj A) (at level 8, format "A ^H").
Hypothesis cK : compactK K.
Variables (lb b : R).
Hypotheses (l0 : 0 < lb) (b0 : 0 < b).
Local Notation rho := (hrho lb b).
Variables (N p : nat) (X : 'M[K]_(N, p.+1)).
Hypotheses (N0 : (0 < N)%N) (X0 : forall i, row i X != 0) (sp : spanning X).
Variable S : 'M[K]_p.+1.
Hypotheses (pS : pd S) (fS : mstep (hub_w lb b N) X S = S).
Lemma par_band : exists2 l : R, 0 < l & forall (lb' b' : R) T, 0 < lb' -> 0 < b' -> lb <= 2%:R * lb' -> b' <= 2%:R * b -> b <= 2%:R * b' ->
  pd T -> mstep (hub_w lb' b' N) X T = T -> loewner 1%:M (ofR l *: T) /\ loewner T (ofR l *: 1%:M).
Proof.
have pm : pd (scm X) by exact: scm_pd.
have [m [m1 h1 h2]] := pd_comparable (pd1 K p.+1) pm; have m0 := lt_le_trans ltr01 m1.
pose M := 2%:R * Num.max b (N%:R / lb); have M0 : 0 < M by rewrite mulr_gt0 ?ltr0n // lt_maxr b0.
have t0 : 0 < 2%:R :> R by rewrite ltr0n.
have la : 0 < m * 2%:R / b by rewrite divr_gt0 // mulr_gt0.
have lc : 0 < M * m by rewrite mulr_gt0.
exists (m * 2%:R / b + M * m); first by rewrite addr_gt0.
move=> lb' b' T l1 b1 k1 k2 k3 pT fT.
have lo : loewner (ofR b' *: scm X) T by rewrite -fT; exact: hub_ge.
have up : loewner T (ofR (Num.max b' (N%:R / lb')) *: scm X) by rewrite -{1}fT; exact: hub_le.
have up2 : loewner T (ofR M *: scm X).
  apply: loewner_trans up _; apply: loewner_le; first exact: pd_psd.
  rewrite /M le_maxl; apply/andP; split; first by apply: le_trans k2 _; rewrite ler_pmul2l // le_maxr lexx.
  apply: le_trans (_ : 2%:R * (N%:R / lb) <= _); last by rewrite ler_pmul2l // le_maxr lexx orbT.
  rewrite mulrA ler_pdivl_mulr // mulrAC ler_pdivr_mulr // [2%:R * _]mulrC -mulrA; apply: ler_wpmul2l; first exact: ler0n.
  exact: k1.
split.
  apply: loewner_trans (_ : loewner 1%:M (ofR (m * 2%:R / b) *: T)) _; last by apply: loewner_le; [exact: pd_psd | rewrite ler_addl ltW].
  apply: loewner_trans (_ : loewner 1%:M (ofR (m / b') *: T)) _; last first.
    apply: loewner_le; first exact: pd_psd.
    by rewrite ler_pdivr_mulr // mulrAC ler_pdivl_mulr // -mulrA ler_pmul2l.
  apply: loewner_comp h1 _; first exact: ltW.
  by have := loewnerZ (ltW (etrans (invr_gt0 _) b1)) lo; rewrite scalerA -rmorphM mulVf ?gt_eqF // (rmorph1 (@Star.ofR K)) scale1r.
apply: loewner_trans (_ : loewner T (ofR (M * m) *: 1%:M)) _; last by apply: loewner_le; [exact/pd_psd/pd1 | rewrite ler_addr ltW].
by apply: loewner_comp up2 h2; exact: ltW.
Qed.
Lemma par_cost (l e : R) : 0 < l -> 0 < e -> exists f : R, [/\ 0 < f, f <= 1 & forall (lb' b' : R) T, 0 < lb' -> 0 < b' ->
  lb' <= (1 + f) * lb -> lb <= (1 + f) * lb' -> b' <= (1 + f) * b -> b <= (1 + f) * b' -> pd T -> loewner 1%:M (ofR l *: T) ->
  mcost (hrho lb' b') X T <= mcost rho X T + e /\ mcost rho X T <= mcost (hrho lb' b') X T + e].
Proof.
move=> lp e0; pose B := \sum_i rho (l * nrm2 (samp X i)).
have nn i : 0 <= l * nrm2 (samp X i) by rewrite mulr_ge0 ?(ltW lp) // /nrm2 -maha1; apply: maha_ge0; exact: pd1.
have B0 : 0 <= B by apply: sumr_ge0 => i _; exact: hrho_ge0.
pose f := Num.min 1 (e / (12%:R * B + 1)); have d0 : 0 < 12%:R * B + 1 by apply: ltr_paddl; rewrite ?ltr01 // mulr_ge0 ?ler0n.
have f0 : 0 < f by rewrite lt_minr ltr01 divr_gt0.
have f1 : f <= 1 by rewrite le_minl lexx.
have fe : f * (12%:R * B) <= e.
  have : f * (12%:R * B + 1) <= e by rewrite -ler_pdivl_mulr // le_minl lexx orbT.
  by apply: le_trans; apply: ler_wpmul2l; [exact: ltW | rewrite ler_addl ler01].
exists f; split=> // lb' b' T l1 b1 k1 k2 k3 k4 pT lo.
have m0 i : 0 <= maha T (samp X i) := maha_ge0 (samp X i) pT.
have sB : \sum_i rho (maha T (samp X i)) <= B.
  apply: ler_sum => i _; apply: hrho_mono => //.
  by rewrite /nrm2 -maha1; apply: maha_loewner => //; exact: pd1.
have sq : (1 + f) ^+ 2 <= 1 + 3%:R * f by apply: near_sq_arith => //; exact: ltW.
have r0 i : 0 <= rho (maha T (samp X i)) by exact: hrho_ge0.
have r1 i : 0 <= hrho lb' b' (maha T (samp X i)) by exact: hrho_ge0.
have a1 i : hrho lb' b' (maha T (samp X i)) <= (1 + 3%:R * f) * rho (maha T (samp X i)).
  by apply: le_trans (hrho_ratio l0 b0 l1 b1 (ltW f0) k1 k2 k3 (m0 i)) _; apply: ler_wpmul2r.
have a2 i : rho (maha T (samp X i)) <= (1 + 3%:R * f) * hrho lb' b' (maha T (samp X i)).
  by apply: le_trans (hrho_ratio l1 b1 l0 b0 (ltW f0) k2 k1 k4 (m0 i)) _; apply: ler_wpmul2r.
have c1 i := near_lin (ltW f0) f1 (r0 i) (a1 i).
have c2 i := near_lin2 (ltW f0) f1 (r1 i) (r0 i) (a2 i) (c1 i).2.
have tot : f * (12%:R * \sum_i rho (maha T (samp X i))) <= e.
  by apply: le_trans fe; apply: ler_wpmul2l; [exact: ltW | apply: ler_wpmul2l; rewrite ?ler0n].
have fin (g h : 'I_N -> R) : (forall i, g i <= h i + f * (12%:R * rho (maha T (samp X i)))) -> \sum_i g i <= \sum_i h i + e.
  move=> gh; apply: (@le_trans _ _ (\sum_i h i + f * (12%:R * \sum_i rho (maha T (samp X i))))); last by rewrite ler_add2l.
  by rewrite !mulr_sumr -big_split; apply: ler_sum => i _; exact: gh.
by split; rewrite /mcost addrAC ler_add2r; apply: fin => i; [case: (c1 i) | exact: c2].
Qed.
Lemma par_near (t : R) : 0 < t -> exists2 d : R, 0 < d & forall lb' b' : R, `|lb' - lb| <= d -> `|b' - b| <= d -> [/\ 0 < lb', 0 < b' &
  forall T, pd T -> mstep (hub_w lb' b' N) X T = T -> close t T S].
Proof.
move=> t0; have [l lp hl] := par_band; have [eta e0 he] := hub_excess_close cK l0 b0 N0 X0 sp pS fS t0.
have e2 : 0 < eta / 2%:R by rewrite divr_gt0 ?ltr0n.
have [f [f0 f1 hf]] := par_cost lp e2.
have d0 (a : R) : 0 < a -> 0 < f * a / 2%:R by move=> a0; rewrite divr_gt0 ?ltr0n // mulr_gt0.
exists (Num.min (f * lb / 2%:R) (f * b / 2%:R)); first by rewrite lt_minr !d0.
move=> lb' b'; rewrite !le_minr => /andP[h1 _] /andP[_ h2].
have [l1 k1 k2] := ratio_near l0 f0 f1 h1; have [b1 k3 k4] := ratio_near b0 f0 f1 h2; split=> // T pT fT.
have two (x y : R) : 0 < y -> x <= (1 + f) * y -> x <= 2%:R * y.
  by move=> y0 h; apply: le_trans h _; rewrite ler_pmul2r // -[2%:R]/(1 + 1) ler_add2l.
have [t1 t2] := hl _ _ T l1 b1 (two _ _ l1 k2) (two _ _ b0 k3) (two _ _ b1 k4) pT fT.
have self (x : R) : 0 < x -> x <= 2%:R * x by move=> x0; rewrite ler_pemull ?ler1n // ltW.
have [s1 s2] := hl _ _ S l0 b0 (self _ l0) (self _ b0) (self _ b0) pS fS.
apply: he => //; have [_ g1] := hf _ _ T l1 b1 k1 k2 k3 k4 pT t1; have [g2 _] := hf _ _ S l1 b1 k1 k2 k3 k4 pS s1.
have g3 := hub_min l1 b1 N0 X0 pT pS fT; apply: le_trans g1 _.
have -> : eta = eta / 2%:R + eta / 2%:R by rfield.
move: (eta / 2%:R) g2 g3; move: (mcost _ _ _) (mcost _ _ _) (mcost _ _ _) => x y z q g2 g3; rlra2.
Qed.
(* the samples below the threshold span the space for all parameters near lb and b, so the iterations converge *)
Lemma small_two (k t : R) : 0 <= k -> k < 1 -> 0 < t -> exists h : R, [/\ 0 < h, h <= 1, (1 + h) * (1 + h) - 1 <= t & (1 + h) * (1 + h) * k < 1].
Proof.
move=> k0 k1 t0; have kk : 0 < (1 - k) / 2%:R by rewrite divr_gt0 ?ltr0n // subr_gt0.
have m0 : 0 < Num.min t ((1 - k) / 2%:R) by rewrite lt_minr t0.
have [f f0 hf] := small_close m0; pose h := Num.min 1 f; have h0 : 0 < h by rewrite lt_minr ltr01.
have hh : (1 + h) * (1 + h) <= (1 + f) * (1 + f).
  have h1 : 0 <= 1 + h by rewrite addr_ge0 ?ler01 // ltW.
  have hf' : 1 + h <= 1 + f by rewrite ler_add2l le_minl lexx orbT.
  exact: ler_pmul.
have le : (1 + h) * (1 + h) - 1 <= Num.min t ((1 - k) / 2%:R) by apply: le_trans hf; rewrite ler_add2r.
move: le; rewrite le_minr => /andP[le1 le2]; exists h; split=> //; first by rewrite le_minl lexx.
have ee : (1 - k) / 2%:R + (1 - k) / 2%:R = 1 - k by rfield.
have l3 : ((1 + h) * (1 + h) - 1) * k <= (1 - k) / 2%:R.
  apply: le_trans (_ : (1 - k) / 2%:R * k <= _); first exact: ler_wpmul2r.
  by rewrite ler_pimulr ?(ltW k1) // ltW.
have -> : (1 + h) * (1 + h) * k = k + ((1 + h) * (1 + h) - 1) * k by rewrite mulrBl mul1r addrCA subrr addr0.
exact: two_arith l3 kk ee.
Qed.
Lemma par_runs (t : R) : 0 < t -> core_spanning lb X S -> exists2 d : R, 0 < d & forall lb' b' : R, `|lb' - lb| <= d -> `|b' - b| <= d -> [/\ 0 < lb', 0 < b' &
  forall s0, pd s0 -> exists n, forall k, (n <= k)%N -> fro (iter k (mstep (hub_w lb' b' N) X) s0 - S) <= t * fro S].
Proof.
move=> t0 cs; have [k [k0 k1 hk]] := core_margin l0 X N0 pS; have [h [h0 h1 ht hl]] := small_two k0 k1 t0.
have [d d0 hd] := par_near h0; have d1 : 0 < h * lb / 2%:R by rewrite divr_gt0 ?ltr0n // mulr_gt0.
exists (Num.min d (h * lb / 2%:R)); first by rewrite lt_minr d0.
move=> lb' b'; rewrite !le_minr => /andP[e1 e2] /andP[e3 _]; have [l1 b1 hT] := hd _ _ e1 e3; split=> // s0 p0.
have [_ _ r2] := ratio_near l0 h0 h1 e2.
have [T [pT eT _ _]] := hub_solution cK l1 b1 sp X0; have fT := (estimating_hub lb' b' X T).1 eT; have cT := hT T pT fT.
have g1 : 0 <= 1 + h by rewrite addr_ge0 ?ler01 // ltW.
have cs' : core_spanning lb' X T.
  move=> y hy; apply: cs => i bi; apply: hy; have [_ c2] := cT.
  apply: le_lt_trans (maha_loewner (samp X i) pS pT c2) _.
  apply: le_lt_trans (ler_wpmul2l g1 (hk i bi)) _.
  apply: le_lt_trans (ler_wpmul2l g1 (ler_wpmul2l k0 r2)) _.
  have -> : (1 + h) * (k * ((1 + h) * lb')) = (1 + h) * (1 + h) * k * lb' by rring.
  by rewrite gtr_pmull.
have [r [r0 r1 hr]] := hub_converges l1 b1 N0 pT fT cs'; have [M M0 hM] := hr _ p0.
have pk j : pd (iter j (mstep (hub_w lb' b' N) X) s0) by elim: j => //= j; exact: hub_pd.
have [n hn] := geometric r0 r1 M0 h0; exists n => j nj.
have c1 : close h (iter j (mstep (hub_w lb' b' N) X) s0) T by apply: close_le (pd_psd (pk j)) (pd_psd pT) (hn j nj) (hM j).
have [c2 c3] := close_le (pd_psd (pk j)) (pd_psd pS) ht (close_trans (ltW h0) (ltW h0) c1 cT).
by apply: loewner_fro => //; exact: ltW.
Qed.
End Par.

(* ------------------------------------------------------------------ the constants *)
Lemma const_c (p : nat) (x : R) : (0 < p)%N -> 0 <= x -> x <= 1 -> 0 <= x / p%:R <= 1.
Proof.
move=> p0 x0 x1; rewrite divr_ge0 ?ler0n //= ler_pdivr_mulr ?ltr0n // mul1r; apply: le_trans x1 _; by rewrite ler1n.
Qed.
Lemma chi2_near ppf cdf (d d2 : nat) (q c : R) : chi2_ok ppf cdf -> (0 < d)%N -> (0 < d2)%N -> 0 < q < 1 -> 0 <= c <= 1 -> forall e : R, 0 < e ->
  exists2 dl : R, 0 < dl & forall q' : R, `|q' - q| <= dl -> [/\ 0 < q' < 1, `|ppf q' d%:R - ppf q d%:R| <= e &
    `|(cdf (ppf q' d%:R) d2%:R + ppf q' d%:R * (1 - q') * c) - (cdf (ppf q d%:R) d2%:R + ppf q d%:R * (1 - q) * c)| <= e].
Proof.
move=> ok d0 d20 hq /andP[/RleP c0 /RleP c1] e /RltP e0; have [x0 Pq] := (ok d d0).2 q hq; have PF := (ok d2 d20).1 _ x0.
have [dl dl0 h] := constants_cont d d2 q _ _ c (gt0_lt1 hq) (elimT (RltP _ _) x0) (conj c0 c1) Pq PF e e0.
exists dl; first exact/RltP.
move=> q' /RleP le; have [[/RltP q0 /RltP q1] h'] := h q' le; have hq' : 0 < q' < 1 by rewrite q0.
have [x1 Pq'] := (ok d d0).2 q' hq'; have [a1 a2] := h' _ _ (elimT (RltP _ _) x1) Pq' ((ok d2 d20).1 _ x1).
by split=> //; apply/RleP.
Qed.
Lemma cdf_gt0 ppf cdf (d : nat) (x : R) : chi2_ok ppf cdf -> (0 < d)%N -> 0 < x -> 0 < cdf x d%:R.
Proof. by move=> ok d0 x0; have [/RltP h _] := prob_gt0 _ _ _ ((ok d d0).1 x x0) (elimT (RltP _ _) x0). Qed.
Lemma half_le (x y e : R) : `|x - y| <= e -> `|x / 2%:R - y / 2%:R| <= e.
Proof.
move=> h; rewrite -mulrBl normrM [X in _ * X]gtr0_norm ?invr_gt0 ?ltr0n // ler_pdivr_mulr ?ltr0n //; have e0 := le_trans (normr_ge0 _) h.
by apply: le_trans h _; rewrite ler_pemulr // ler1n.
Qed.
Definition good_q ppf cdf (lam be : R -> R) := chi2_ok ppf cdf -> forall q : R, 0 < q < 1 -> [/\ 0 < lam q, 0 < be q & forall e : R, 0 < e ->
  exists2 d : R, 0 < d & forall q' : R, `|q' - q| <= d -> [/\ 0 < q' < 1, `|lam q' - lam q| <= e & `|be q' - be q| <= e]].
Lemma real_constants ppf cdf p : good_q ppf cdf (fun q => huber_lbda ppf q p.+1) (fun q => huber_beta ppf cdf q p.+1).
Proof.
move=> ok q hq; have [x0 _] := (ok p.+1 isT).2 q hq; have q1 : 0 <= 1 - q by rewrite subr_ge0; case/andP: hq => _ /ltW.
have E r : huber_beta ppf cdf r p.+1 = cdf (ppf r p.+1%:R) (p.+1 + 1)%:R + ppf r p.+1%:R * (1 - r) * (1 / p.+1%:R).
  by rewrite /huber_beta /huber_lbda twohalf div1r.
have c01 : 0 <= (1 / p.+1%:R : R) <= 1 by apply: const_c => //; exact: ler01.
split=> [| |e e0]; first by rewrite divr_gt0 ?ltr0n.
  rewrite E ltr_spaddl ?(cdf_gt0 ok) ?addn1 //; apply: mulr_ge0; last by case/andP: c01.
  by apply: mulr_ge0 => //; exact: ltW.
have [d d0 h] := @chi2_near ppf cdf p.+1 (p.+1 + 1) q (1 / p.+1%:R) ok isT (ltn0Sn _) hq c01 e e0; exists d => // q' le.
by have [a1 a2 a3] := h q' le; split=> //; [exact: half_le | rewrite !E].
Qed.
Lemma complex_constants ppf cdf p : good_q ppf cdf (fun q => complex_huber_lbda ppf q p.+1) (fun q => complex_huber_beta ppf cdf q p.+1).
Proof.
move=> ok q hq; have p2 : (0 < 2 * p.+1)%N by []. have [x0 _] := (ok _ p2).2 q hq; have q1 : 0 <= 1 - q by rewrite subr_ge0; case/andP: hq => _ /ltW.
have h0 : 0 <= 1 / 2%:R :> R by rewrite divr_ge0 ?ler0n ?ler01.
have h1 : 1 / 2%:R <= 1 :> R by rewrite ler_pdivr_mulr ?ltr0n // mul1r ler1n.
have E r : complex_huber_beta ppf cdf r p.+1 = cdf (ppf r (2 * p.+1)%:R) (2 * p.+1 + 2)%:R + ppf r (2 * p.+1)%:R * (1 - r) * (1 / 2%:R / p.+1%:R).
  rewrite /complex_huber_beta /complex_huber_lbda twohalf; congr (_ + _); rewrite div1r !mulrA; congr (_ / _).
  by rewrite mulrAC.
have c01 : 0 <= (1 / 2%:R / p.+1%:R : R) <= 1 by exact: const_c.
have p3 : (0 < 2 * p.+1 + 2)%N by rewrite addn2.
split=> [| |e e0]; first by rewrite divr_gt0 ?ltr0n.
  rewrite E ltr_spaddl ?(cdf_gt0 ok) //; apply: mulr_ge0; last by case/andP: c01.
  by apply: mulr_ge0 => //; exact: ltW.
have [d d0 h] := @chi2_near ppf cdf _ _ q (1 / 2%:R / p.+1%:R) ok p2 p3 hq c01 e e0; exists d => // q' le.
by have [a1 a2 a3] := h q' le; split=> //; [exact: half_le | rewrite !E].
Qed.

(* ------------------------------------------------------------------ C131 *)
(* For all constants near lbda and beta the equation that the functions iterate has exactly one solution, near the one for
   lbda and beta *)
Lemma par_solution (K : starField) (cK : compactK K) N p (X : 'M[K]_(N, p.+1)) (lbda beta : R) S : 0 < lbda -> 0 < beta -> spanning X -> (forall i, row i X != 0) ->
  pd S -> estimating_eq (code_weight lbda beta) X S -> forall t : R, 0 < t -> exists2 d : R, 0 < d & forall lbda' beta' : R, `|lbda' - lbda| <= d -> `|beta' - beta| <= d ->
  [/\ 0 < lbda', 0 < beta' & exists T, [/\ pd T, forall T', pd T' -> (estimating_eq (code_weight lbda' beta') X T' <-> T' = T) & fro (T - S) <= t * fro S]].
Proof.
move=> l0 b0 sp X0 pS eS t t0; have N0 := spanning_N sp; have fS := (estimating_hub lbda beta X S).1 eS.
have [d d0 hd] := par_near cK l0 b0 N0 X0 sp pS fS t0; exists d => // lb' b' h1 h2; have [l1 b1 hT] := hd _ _ h1 h2; split=> //.
have [T [pT eT _ un]] := hub_solution cK l1 b1 sp X0; exists T; split=> //.
  by move=> T' pT'; split=> [e|->//]; exact: un.
by have [c1 c2] := hT T pT ((estimating_hub lb' b' X T).1 eT); apply: loewner_fro => //; exact: ltW.
Qed.
Theorem C131_continuous N p (lbda beta : R) : 0 < lbda -> 0 < beta ->
  (forall eigh (X : 'M[real_sf]_(N, p.+1)) S, eigh_ok eigh -> spanning X -> (forall i, row i X != 0) -> pd S -> huber_step eigh X lbda beta S = Ok S ->
     forall t : R, 0 < t -> exists2 d : R, 0 < d & forall lbda' beta' : R, `|lbda' - lbda| <= d -> `|beta' - beta| <= d ->
       [/\ 0 < lbda', 0 < beta' & exists T, [/\ pd T, forall T', pd T' -> (huber_step eigh X lbda' beta' T' = Ok T' <-> T' = T) & fro (T - S) <= t * fro S]]) /\
  (forall eigh (X : 'M[complex_sf]_(N, p.+1)) S, eigh_ok eigh -> spanning X -> (forall i, row i X != 0) -> pd S -> complex_huber_step eigh X lbda beta S = Ok S ->
     forall t : R, 0 < t -> exists2 d : R, 0 < d & forall lbda' beta' : R, `|lbda' - lbda| <= d -> `|beta' - beta| <= d ->
       [/\ 0 < lbda', 0 < beta' & exists T, [/\ pd T, forall T', pd T' -> (complex_huber_step eigh X lbda' beta' T' = Ok T' <-> T' = T) & fro (T - S) <= t * fro S]]).
Proof.
move=> l0 b0; have [H1 H2] := C37_equation_solved_partial N p.+1 l0 b0; split=> eigh X S ok sp X0 pS e t t0.
  have [d d0 h] := par_solution real_compact l0 b0 sp X0 pS ((H1 _ _ _ ok pS).1 e) t0; exists d => // lb' b' k1 k2.
  have [l1 b1 [T [pT hT fT]]] := h _ _ k1 k2; split=> //; exists T; split=> // T' pT'; rewrite -(hT T' pT').
  exact: ((C37_equation_solved_partial N p.+1 l1 b1).1).
have [d d0 h] := par_solution complex_compact l0 b0 sp X0 pS ((H2 _ _ _ ok pS).1 e) t0; exists d => // lb' b' k1 k2.
have [l1 b1 [T [pT hT fT]]] := h _ _ k1 k2; split=> //; exists T; split=> // T' pT'; rewrite -(hT T' pT').
exact: ((C37_equation_solved_partial N p.+1 l1 b1).2).
Qed.
(* Hence it is a continuous function of the parameter q of the functions *)
Theorem C131_q ppf cdf N p (q : R) : chi2_ok ppf cdf -> 0 < q < 1 ->
  (forall eigh (X : 'M[real_sf]_(N, p.+1)) S, eigh_ok eigh -> spanning X -> (forall i, row i X != 0) -> pd S ->
     huber_step eigh X (huber_lbda ppf q p.+1) (huber_beta ppf cdf q p.+1) S = Ok S -> forall t : R, 0 < t -> exists2 d : R, 0 < d & forall q' : R, `|q' - q| <= d ->
       0 < q' < 1 /\ exists T, [/\ pd T, forall T', pd T' -> (huber_step eigh X (huber_lbda ppf q' p.+1) (huber_beta ppf cdf q' p.+1) T' = Ok T' <-> T' = T) &
         fro (T - S) <= t * fro S]) /\
  (forall eigh (X : 'M[complex_sf]_(N, p.+1)) S, eigh_ok eigh -> spanning X -> (forall i, row i X != 0) -> pd S ->
     complex_huber_step eigh X (complex_huber_lbda ppf q p.+1) (complex_huber_beta ppf cdf q p.+1) S = Ok S -> forall t : R, 0 < t -> exists2 d : R, 0 < d &
       forall q' : R, `|q' - q| <= d -> 0 < q' < 1 /\
       exists T, [/\ pd T, forall T', pd T' -> (complex_huber_step eigh X (complex_huber_lbda ppf q' p.+1) (complex_huber_beta ppf cdf q' p.+1) T' = Ok T' <-> T' = T) &
         fro (T - S) <= t * fro S]).
Proof.
move=> ok hq; split=> eigh X S eok sp X0 pS e t t0.
  have [l0 b0 hc] := real_constants p ok hq; have [d d0 h] := (C131_continuous N p l0 b0).1 eigh X S eok sp X0 pS e t t0.
  have [d' d1 h'] := hc d d0; exists d' => // q' le; have [hq' k1 k2] := h' q' le; split=> //; by have [_ _ hT] := h _ _ k1 k2.
have [l0 b0 hc] := complex_constants p ok hq; have [d d0 h] := (C131_continuous N p l0 b0).2 eigh X S eok sp X0 pS e t t0.
have [d' d1 h'] := hc d d0; exists d' => // q' le; have [hq' k1 k2] := h' q' le; split=> //; by have [_ _ hT] := h _ _ k1 k2.
Qed.
(* When the samples at a distance below lbda of the solution S for q span the space, the functions called with a parameter
   near q compute, after enough updates, matrices near S *)
Theorem C131_results ppf cdf N p (q : R) : chi2_ok ppf cdf -> 0 < q < 1 ->
  (forall eigh (X : 'M[real_sf]_(N, p.+1)) S init, let lbda := huber_lbda ppf q p.+1 in let beta := huber_beta ppf cdf q p.+1 in
     eigh_ok eigh -> (forall i, row i X != 0) -> pd S -> huber_step eigh X lbda beta S = Ok S -> core_spanning lbda X S ->
     (forall s0, init = Some s0 -> pd s0) -> forall t : R, 0 < t -> exists2 d : R, 0 < d & forall q' : R, `|q' - q| <= d -> exists n, forall tol m s e k,
       huber_m_estimator_fixed_point eigh ppf cdf X q' init tol m = Some (Ok (s, e, k)) -> (n <= k)%N -> fro (s - S) <= t * fro S) /\
  (forall eigh (X : 'M[complex_sf]_(N, p.+1)) S init, let lbda := complex_huber_lbda ppf q p.+1 in let beta := complex_huber_beta ppf cdf q p.+1 in
     eigh_ok eigh -> (forall i, row i X != 0) -> pd S -> complex_huber_step eigh X lbda beta S = Ok S -> core_spanning lbda X S ->
     (forall s0, init = Some s0 -> pd s0) -> forall t : R, 0 < t -> exists2 d : R, 0 < d & forall q' : R, `|q' - q| <= d -> exists n, forall tol m s e k,
       complex_huber_m_estimator_fixed_point eigh ppf cdf X q' init tol m = Some (Ok (s, e, k)) -> (n <= k)%N -> fro (s - S) <= t * fro S).
Proof.
move=> ok hq; split=> eigh X S init lb b eok X0 pS eS cs pi t t0.
  have sp : spanning X by move=> y h; apply: cs => i _; exact: h.
  have [l0 b0 hc] := real_constants p ok hq.
  have fS := (estimating_hub lb b X S).1 (((C37_equation_solved_partial N p.+1 l0 b0).1 _ _ _ eok pS).1 eS).
  have [d d0 h] := par_runs real_compact l0 b0 (spanning_N sp) X0 sp pS fS t0 cs.
  have [d' d1 h'] := hc d d0; exists d' => // q' le; have [hq' k1 k2] := h' q' le; have [l1 b1 hr] := h _ _ k1 k2.
  have [_ [_ [_ [_ [_ [_ _ pI _]]]]]] := real_huber_run (q := q') PInf 0 eok l1 b1 sp pi.
  have [n hn] := hr _ pI; exists n => tol m s e k hrun nk.
  have [s' [e' [k' [e1 [step [x y z sw]]]]]] := real_huber_run (q := q') tol m eok l1 b1 sp pi; move: hrun; rewrite e1 => -[es ed ek]; rewrite es ed ek in sw.
  by rewrite (run_iter x y z sw); exact: hn.
have sp : spanning X by move=> y h; apply: cs => i _; exact: h.
have [l0 b0 hc] := complex_constants p ok hq.
have fS := (estimating_hub lb b X S).1 (((C37_equation_solved_partial N p.+1 l0 b0).2 _ _ _ eok pS).1 eS).
have [d d0 h] := par_runs complex_compact l0 b0 (spanning_N sp) X0 sp pS fS t0 cs.
have [d' d1 h'] := hc d d0; exists d' => // q' le; have [hq' k1 k2] := h' q' le; have [l1 b1 hr] := h _ _ k1 k2.
have [_ [_ [_ [_ [_ [_ _ pI _]]]]]] := complex_huber_run (q := q') PInf 0 eok l1 b1 sp pi.
have [n hn] := hr _ pI; exists n => tol m s e k hrun nk.
have [s' [e' [k' [e1 [step [x y z sw]]]]]] := complex_huber_run (q := q') tol m eok l1 b1 sp pi; move: hrun; rewrite e1 => -[es ed ek]; rewrite es ed ek in sw.
by rewrite (run_iter x y z sw); exact: hn.
Qed.
(* The canonical basis of the plane with a level q near 1 *)
Lemma basis_sol (K : starField) (lb b : R) : 0 < b -> 2%:R < lb * b -> let S := @ofR K (b / 2%:R) *: (1%:M : 'M[K]_2) in
  [/\ pd S, estimating_eq (code_weight lb b) (1%:M : 'M[K]_2) S & core_spanning lb (1%:M : 'M[K]_2) S].
Proof.
move=> b0 lt; have h0 : 0 < b / 2%:R by rewrite divr_gt0 ?ltr0n.
have i2 : (b / 2%:R)^-1 < lb by rewrite invf_div ltr_pdivr_mulr.
have tX := basis_tight K 1; have E := tight_step lb b (ltn0Sn 1) tX h0; split.
- by apply: pdZ; [rewrite ofR_gt0 | exact: pd1].
- by apply/estimating_hub; rewrite E /code_weight ltW // mulr1.
- by move=> y hy; apply: (tight_spanning (ltn0Sn 1) tX) => i; apply: hy; rewrite (tight_maha tX).
Qed.
Lemma large_q ppf cdf (d d2 : nat) : chi2_ok ppf cdf -> (0 < d)%N -> (0 < d2)%N -> exists2 q : R, 0 < q < 1 & 4%:R < ppf q d%:R * cdf (ppf q d%:R) d2%:R.
Proof.
move=> ok d0 d20; have p4 : 0 < 4%:R :> R by rewrite ltr0n.
have [q [/RltP q0 /RltP q1] h] := large_quantile d d2 _ (elimT (RltP _ _) p4); have hq : 0 < q < 1 by rewrite q0.
by exists q => //; have [x0 Pq] := (ok d d0).2 q hq; apply/RltP; apply: h ((ok d2 d20).1 _ x0) => //; exact/RltP.
Qed.
Lemma large_arith (x F g : R) : 0 < x -> 0 <= g -> 4%:R < x * F -> 2%:R < x / 2%:R * (F + g).
Proof.
move=> x0 g0 h; apply: lt_le_trans (_ : x / 2%:R * F <= _); last by rewrite ler_pmul2l ?divr_gt0 ?ltr0n // ler_addl.
by rewrite mulrAC ltr_pdivl_mulr ?ltr0n // -natrM.
Qed.
Example C131_hypotheses : exists ppf cdf, [/\ chi2_ok ppf cdf,
  exists2 q : R, 0 < q < 1 & exists S : 'M[real_sf]_2, [/\ pd S, forall i, row i (1%:M : 'M[real_sf]_2) != 0, core_spanning (huber_lbda ppf q 2) (1%:M : 'M[real_sf]_2) S &
    forall eigh, eigh_ok eigh -> huber_step eigh (1%:M : 'M[real_sf]_2) (huber_lbda ppf q 2) (huber_beta ppf cdf q 2) S = Ok S] &
  exists2 q : R, 0 < q < 1 & exists S : 'M[complex_sf]_2, [/\ pd S, forall i, row i (1%:M : 'M[complex_sf]_2) != 0, core_spanning (complex_huber_lbda ppf q 2) (1%:M : 'M[complex_sf]_2) S &
    forall eigh, eigh_ok eigh -> complex_huber_step eigh (1%:M : 'M[complex_sf]_2) (complex_huber_lbda ppf q 2) (complex_huber_beta ppf cdf q 2) S = Ok S]].
Proof.
have [ppf [cdf ok]] := C82_hypotheses; exists ppf, cdf.
have nz (K : starField) i : row i (1%:M : 'M[K]_2) != 0.
  by apply/negP => /eqP /matrixP /(_ 0 i); rewrite !mxE eqxx => /eqP; rewrite oner_eq0.
split=> //.
  have [q hq lt] := @large_q ppf cdf 2 (2 + 1) ok isT isT; exists q => //; have [l0 b0 _] := real_constants 1 ok hq.
  have [x0 _] := (ok 2%N isT).2 q hq; have q1 : 0 <= 1 - q by rewrite subr_ge0; case/andP: hq => _ /ltW.
  have l2 : 2%:R < huber_lbda ppf q 2 * huber_beta ppf cdf q 2.
    rewrite /huber_beta /huber_lbda twohalf; apply: large_arith => //.
    by apply: divr_ge0; [apply: mulr_ge0 => //; exact: ltW | exact: ler0n].
  have [pS eS cs] := basis_sol real_sf b0 l2; eexists; split; [exact: pS | exact: nz | exact: cs |].
  by move=> eigh eok; apply/((C37_equation_solved_partial 2 2 l0 b0).1 _ _ _ eok pS).
have [q hq lt] := @large_q ppf cdf (2 * 2) (2 * 2 + 2) ok isT isT; exists q => //; have [l0 b0 _] := complex_constants 1 ok hq.
have [x0 _] := (ok (2 * 2)%N isT).2 q hq; have q1 : 0 <= 1 - q by rewrite subr_ge0; case/andP: hq => _ /ltW.
have l2 : 2%:R < complex_huber_lbda ppf q 2 * complex_huber_beta ppf cdf q 2.
  rewrite /complex_huber_beta /complex_huber_lbda twohalf; apply: large_arith => //.
  by apply: divr_ge0; [apply: mulr_ge0 => //; apply: divr_ge0; [exact: ltW | exact: ler0n] | exact: ler0n].
have [pS eS cs] := basis_sol complex_sf b0 l2; eexists; split; [exact: pS | exact: nz | exact: cs |].
by move=> eigh eok; apply/((C37_equation_solved_partial 2 2 l0 b0).2 _ _ _ eok pS).
Qed.
Print Assumptions C131_continuous.
Print Assumptions C131_q.
Print Assumptions C131_results.
Print Assumptions C131_hypotheses.
