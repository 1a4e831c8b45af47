(* Theorems about the constants of Huber's estimators: C82. *)
From Coq Require Import Reals Lra Epsilon.
From Coquelicot Require Import Coquelicot.
From mathcomp Require Import all_ssreflect all_algebra.
From Verif Require Import RealsMC RealTac RealTac2 Star StarInst Model_featurearray Model_covariance Spec_chi2 HuberNum.
Set Implicit Arguments.
Unset Strict Implicit.
Unset Printing Implicit Defensive.
Local Open Scope ring_scope.
Import GRing.Theory Num.Theory Order.TTheory.

(* the functions of scipy.stats.chi2 are those of the law *)
Definition chi2_ok (ppf cdf : R -> R -> R) := forall d : nat, (0 < d)%N ->
  (forall x : R, 0 < x -> chi2_probability d x (cdf x d%:R)) /\
  (forall q : R, 0 < q < 1 -> 0 < ppf q d%:R /\ chi2_probability d (ppf q d%:R) q).

Lemma huberE (lbda beta t : R) : 0 < lbda -> 0 <= t -> huber_u lbda beta t * t = Rmult (Rinv beta) (Rmin t lbda).
Proof.
move=> l0; rewrite le_eqVlt => /orP [/eqP <-|t0].
  rewrite mulr0 Rmin_left ?Rmult_0_r //; exact/RleP/ltW.
rewrite /huber_u gt_eqF // div1r -mulrA -Rinv_E; congr (_ * _); rewrite minElt; case: ltP => h.
  rewrite mul1r Rmin_left //; apply/RleP; by move: h; rewrite ltr_pdivl_mulr // mul1r => /ltW.
rewrite divfK ?gt_eqF // Rmin_right //; apply/RleP; by move: h; rewrite ler_pdivr_mulr // mul1r.
Qed.

Lemma INRE n : INR n = n%:R. Proof. by rewrite natIZR INR_IZR_INZ. Qed.
Lemma RdivE' (x y : R) : Rdiv x y = x / y. Proof. by rewrite /Rdiv Rinv_E. Qed.
Lemma twohalf (x : R) : 2%:R * (x / 2%:R) = x. Proof. by rewrite mulrC divfK // pnatr_eq0. Qed.
Lemma IZR2 : IZR 2 = 2%:R. Proof. by rewrite natIZR. Qed.
Lemma gt0_lt1 (q : R) : 0 < q < 1 -> Rlt 0 q /\ Rlt q 1. Proof. by move=> /andP [/RltP ? /RltP ?]. Qed.

(* Fisher consistency at the Gaussian model: the expectation of u(t) t is p, for t = |z|^2, z standard normal.
   Complex data: |z|^2 is half a chi-squared variable with 2p degrees of freedom. *)
Theorem C82_complex ppf cdf p (q : R) : chi2_ok ppf cdf -> (0 < p)%N -> 0 < q < 1 ->
  let lbda := complex_huber_lbda ppf q p in let beta := complex_huber_beta ppf cdf q p in
  chi2_expectation (2 * p) (fun t => huber_u lbda beta (t / 2%:R) * (t / 2%:R)) p%:R.
Proof.
move=> ok p0 hq; rewrite /= /complex_huber_beta /complex_huber_lbda twohalf; have p2 : (0 < 2 * p)%N by rewrite muln_gt0.
have [x0 Pq] := (ok _ p2).2 q hq; move: x0 Pq; set x := ppf q _ => x0 Pq.
have PF := (ok (2 * p + 2)%N (ltn_addr 2 p2)).1 x x0; pose h (t : R) : R := huber_u (x / 2%:R) (cdf x (2 * p + 2)%:R + x / 2%:R * (1 - q) / p%:R) (t / 2%:R) * (t / 2%:R).
suff: chi2_expectation (2 * p) h (INR p) by rewrite INRE.
have p0l : (0 < p)%coq_nat by exact/ssrnat.ltP.
apply: (huber_complex p x q (cdf x (2 * p + 2)%:R) h p0l (elimT (RltP _ _) x0) (gt0_lt1 hq) Pq PF).
move=> t t0; rewrite /h huberE; last 2 first.
- by rewrite divr_gt0 // ltr0n.
- by apply: divr_ge0; [exact/RleP | rewrite ler0n].
by rewrite !RdivE' IZR2 INRE RplusE RminusE !RmultE.
Qed.
Theorem C82_real_bias ppf cdf p (q : R) : chi2_ok ppf cdf -> (0 < p)%N -> 0 < q < 1 ->
  let lbda := huber_lbda ppf q p in let beta := huber_beta ppf cdf q p in
  exists2 e : R, chi2_expectation p (fun t => huber_u lbda beta t * t) e & e < p%:R.
Proof.
move=> ok p0 hq; rewrite /= /huber_beta /huber_lbda twohalf.
have [x0 Pq] := (ok _ p0).2 q hq; move: x0 Pq; set x := ppf q _ => x0 Pq.
have PF := (ok (p + 1)%N (ltn_addr 1 p0)).1 x x0.
have [||e He lt] := (huber_real p x q _ (fun t => huber_u (x / 2%:R) (cdf x (p + 1)%:R + x * (1 - q) / p%:R) t * t) _ (elimT (RltP _ _) x0) (gt0_lt1 hq) Pq PF).
- exact/ssrnat.ltP.
- move=> t t0; rewrite huberE; last 2 first.
  + by rewrite divr_gt0 // ltr0n.
  + exact/RleP.
  by rewrite !RdivE' IZR2 INRE RplusE RminusE !RmultE.
by exists e => //; apply/RltP; rewrite -INRE.
Qed.
Theorem C82_real_refuted ppf cdf p (q : R) : chi2_ok ppf cdf -> (0 < p)%N -> 0 < q < 1 ->
  let lbda := huber_lbda ppf q p in let beta := huber_beta ppf cdf q p in
  ~ chi2_expectation p (fun t => huber_u lbda beta t * t) p%:R.
Proof.
move=> ok p0 hq l b h; have [e h' lt] := C82_real_bias ok p0 hq.
by move: lt; rewrite (expectation_unique _ _ _ _ h' h) ltxx.
Qed.
(* the constants are accepted by the weight function, which returns the weights of the theorems *)
Theorem C82_weights ppf cdf p (q : R) n (x : 'rV[R]_n) : chi2_ok ppf cdf -> (0 < p)%N -> 0 < q < 1 ->
  _huber_m_estimator_function x (complex_huber_lbda ppf q p) (complex_huber_beta ppf cdf q p) =
    Ok (map_mx (huber_u (complex_huber_lbda ppf q p) (complex_huber_beta ppf cdf q p)) x) /\
  _huber_m_estimator_function x (huber_lbda ppf q p) (huber_beta ppf cdf q p) =
    Ok (map_mx (huber_u (huber_lbda ppf q p) (huber_beta ppf cdf q p)) x).
Proof.
move=> ok p0 hq; have p2 : (0 < 2 * p)%N by rewrite muln_gt0.
have G (l b : R) : 0 < l -> 0 <= b -> _huber_m_estimator_function x l b = Ok (map_mx (huber_u l b) x).
  by move=> l0 b0; rewrite /_huber_m_estimator_function leNgt l0 ltNge b0.
have q1 : 0 <= 1 - q by move: hq => /andP [_ /ltW]; rewrite subr_ge0.
have B d y : (0 < d)%N -> 0 < y -> 0 <= cdf y d%:R.
  move=> d0 y0; have [/RltP /ltW h _] := prob_gt0 _ _ _ ((ok d d0).1 y y0) (elimT (RltP _ _) y0); exact: h.
split; apply: G.
- by rewrite divr_gt0 ?ltr0n //; exact: ((ok _ p2).2 q hq).1.
- have [x0 _] := (ok _ p2).2 q hq; rewrite /complex_huber_beta /complex_huber_lbda twohalf addr_ge0 ?B ?ltn_addr //.
  by apply: divr_ge0; [apply: mulr_ge0 => //; apply: divr_ge0; [exact: ltW | exact: ler0n] | exact: ler0n].
- by rewrite divr_gt0 ?ltr0n //; case: ((ok _ p0).2 q hq).
- have [x0 _] := (ok _ p0).2 q hq; rewrite /huber_beta /huber_lbda twohalf addr_ge0 ?B ?ltn_addr //.
  by apply: divr_ge0; [apply: mulr_ge0 => //; exact: ltW | exact: ler0n].
Qed.
(* scipy's functions can be right: such ppf and cdf exist *)
Example C82_hypotheses : exists ppf cdf, chi2_ok ppf cdf.
Proof.
pose nat_of (x : R) := epsilon (inhabits 0%N) (fun n => x = n%:R).
have nK n : nat_of n%:R = n.
  have := epsilon_spec (inhabits 0%N) (fun m => n%:R = m%:R :> R) (ex_intro _ n erefl).
  by rewrite -/(nat_of _) => /eqP; rewrite eqr_nat => /eqP.
exists (fun q d => epsilon (inhabits 0) (fun x : R => 0 < x /\ chi2_probability (nat_of d) x q)).
exists (fun x d => epsilon (inhabits 0) (fun F : R => chi2_probability (nat_of d) x F)) => d d0; rewrite nK; split=> [x x0|q hq].
  apply: epsilon_spec; exact: prob_exists.
apply: (epsilon_spec (inhabits 0) (fun x : R => 0 < x /\ chi2_probability d x q)).
have [x /RltP x0 h] := quantile_exists d q (gt0_lt1 hq); by exists x.
Qed.

Print Assumptions C82_complex.
Print Assumptions C82_real_bias.
Print Assumptions C82_real_refuted.
Print Assumptions C82_weights.
