(* Huber's factor beta compared with 1: C133. *)
From Coq Require Import Reals Lra.
From mathcomp Require Import all_ssreflect all_algebra.
From mathcomp Require Import complex zify.
From Verif Require Import RealsMC RealTac RealTac2 Star StarInst FunCalc Compact Model_featurearray Model_linalg Proofs_linalg Props_linalg Model_covariance Model_estimators
  Spec_covariance Spec_fixedpoint Spec_exist Spec_hubiter Spec_chi2 HuberNum HuberNum2 Proofs_mest Proofs_estimators Proofs_cost Props_cost Props_covariance Props_robust Props_robust2
  Proofs_unique Proofs_unique2 Props_unique Proofs_converge Props_converge Props_huber Proofs_hubiter Proofs_hubiter2 Props_hubiter HuberNum3 HuberNum4 HuberNum5 Props_hubq Props_hubtop.
Set Implicit Arguments.
Unset Strict Implicit.
Unset Printing Implicit Defensive.
Local Open Scope ring_scope.
Import GRing.Theory Num.Theory Order.TTheory.

Lemma complex_betaE ppf cdf (q : R) p : complex_huber_beta ppf cdf q p.+1 =
  cdf (ppf q (2 * p.+1)%:R) (2 * p.+1 + 2)%:R + ppf q (2 * p.+1)%:R * (1 - q) / (2 * p.+1)%:R.
Proof.
rewrite /complex_huber_beta /complex_huber_lbda twohalf; congr (_ + _); rewrite natrM invfM !mulrA; congr (_ / _).
by rewrite mulrAC.
Qed.
(* What holds of "beta is at most 1": the complex function, for all q *)
Theorem C133_at_most_one_partial ppf cdf p (q : R) : chi2_ok ppf cdf -> 0 < q < 1 -> 0 < complex_huber_beta ppf cdf q p.+1 <= 1.
Proof.
move=> ok hq; have [_ -> _] := complex_constants p ok hq; rewrite complex_betaE.
have p2 : (0 < 2 * p.+1)%N by []; have p3 : (0 < 2 * p.+1 + 2)%N by rewrite addn2.
have [x0 Pq] := (ok _ p2).2 q hq.
have /RleP h := prob_tail (2 * p.+1)%N _ _ _ (elimT ssrnat.ltP p2) (elimT (RltP _ _) x0) Pq ((ok _ p3).1 _ x0).
rewrite -ler_subr_addl ler_pdivr_mulr ?ltr0n //.
by move: h; rewrite INRE => h; rewrite [(1 - cdf _ _) * _]mulrC.
Qed.
(* The real function: beta exceeds 1 for all q near 1, in every dimension, and the results are then, for any N samples,
   larger than the sample covariance matrix *)
Theorem C133_refuted ppf cdf N p : chi2_ok ppf cdf -> exists2 q0 : R, 0 < q0 < 1 & forall q : R, q0 <= q -> q < 1 ->
  1 < huber_beta ppf cdf q p.+1 /\
  forall eigh (X : 'M[real_sf]_(N, p.+1)) init tol m, eigh_ok eigh -> spanning X -> (forall s0, init = Some s0 -> pd s0) ->
  exists s d k, huber_m_estimator_fixed_point eigh ppf cdf X q init tol m = Some (Ok (s, d, k)) /\ ((2 <= k)%N -> pd (s - scm X)).
Proof.
move=> ok; have [q1 /andP[q10 q11] h1] := (C132_covariance N p ok ltr01).1.
have [q2 [/RltP q20 /RltP q21] h2] := above_real p.+1 (PeanoNat.Nat.lt_0_succ _).
exists (Num.max q1 q2) => [|q]; first by rewrite lt_maxr q10 lt_maxl q11.
rewrite le_maxl => /andP[le1 le2] lt; have hq : 0 < q < 1 by rewrite (lt_le_trans q10 le1).
have [x0 Pq] := (ok p.+1 isT).2 q hq; have p1 : (0 < p.+1 + 1)%N by rewrite addn1.
have b1 : 1 < huber_beta ppf cdf q p.+1.
  have /RltP := h2 q _ _ (elimT (RleP _ _) le2) (elimT (RltP _ _) x0) Pq ((ok _ p1).1 _ x0).
  by rewrite /huber_beta /huber_lbda twohalf INRE !RdivE'.
have [_ H] := h1 q le1 lt; split=> // eigh X init tol m eok sp pi; have [s [d [k [E hk _]]]] := H eigh X init tol m eok sp pi.
exists s, d, k; split=> // k2; have [-> _] := hk k2.
have -> : @ofR real_sf (huber_beta ppf cdf q p.+1) *: scm X - scm X = @ofR real_sf (huber_beta ppf cdf q p.+1 - 1) *: scm X.
  by rewrite rmorphB rmorph1 scalerBl scale1r.
by apply: pdZ; [rewrite ofR_gt0 subr_gt0 | exact: scm_pd].
Qed.
(* The complex function near q = 1: the results are at most the sample covariance matrix *)
Theorem C133_results_partial ppf cdf N p : chi2_ok ppf cdf -> exists2 q0 : R, 0 < q0 < 1 & forall q : R, q0 <= q -> q < 1 ->
  forall eigh (X : 'M[complex_sf]_(N, p.+1)) init tol m, eigh_ok eigh -> spanning X -> (forall s0, init = Some s0 -> pd s0) ->
  exists s d k, complex_huber_m_estimator_fixed_point eigh ppf cdf X q init tol m = Some (Ok (s, d, k)) /\ ((2 <= k)%N -> loewner s (scm X)).
Proof.
move=> ok; have [q1 /andP[q10 q11] h1] := (C132_covariance N p ok ltr01).2; exists q1 => [|q le1 lt]; first by rewrite q10.
have hq : 0 < q < 1 by rewrite (lt_le_trans q10 le1).
have [_ H] := h1 q le1 lt; move=> eigh X init tol m eok sp pi; have [s [d [k [E hk _]]]] := H eigh X init tol m eok sp pi.
exists s, d, k; split=> // k2; have [-> _] := hk k2; have /andP[_ b1] := C133_at_most_one_partial p ok hq.
rewrite scmZ /scm -[X in loewner _ X]scale1r -(rmorph1 (@Star.ofR complex_sf)); apply: wsum_loewner => i.
by rewrite mul1r ger_pmulr // invr_gt0 ltr0n (spanning_N sp).
Qed.
Example C133_hypotheses : exists ppf cdf, [/\ chi2_ok ppf cdf, exists eigh, @eigh_ok real_sf eigh, exists eigh, @eigh_ok complex_sf eigh,
  spanning (1%:M : 'M[real_sf]_2) & spanning (1%:M : 'M[complex_sf]_2)].
Proof. exact: C132_hypotheses. Qed.
Print Assumptions C133_at_most_one_partial.
Print Assumptions C133_refuted.
Print Assumptions C133_results_partial.
Print Assumptions C133_hypotheses.
