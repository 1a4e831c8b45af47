(* The Huber functions for q near 1: C132. *)
From Coq Require Import Reals Lra.
From mathcomp Require Import all_ssreflect all_algebra.
From mathcomp Require Import complex zify.
From Verif Require Import RealsMC RealTac RealTac2 Star StarInst FunCalc Compact Model_featurearray Model_linalg Proofs_linalg Props_linalg Model_covariance Model_estimators
  Spec_covariance Spec_fixedpoint Spec_exist Spec_hubiter Spec_chi2 HuberNum HuberNum2 Proofs_mest Proofs_estimators Proofs_cost Props_cost Props_covariance Props_robust Props_robust2
  Proofs_unique Proofs_unique2 Props_unique Proofs_converge Props_converge Props_huber Proofs_hubiter Proofs_hubiter2 Props_hubiter HuberNum3 HuberNum4 Props_hubq.
Set Implicit Arguments.
Unset Strict Implicit.
Unset Printing Implicit Defensive.
Local Open Scope ring_scope.
Import GRing.Theory Num.Theory Order.TTheory.

Definition top_q (lam be : R -> R) := forall C e : R, 0 < C -> 0 < e -> exists2 q0 : R, 0 < q0 < 1 & forall q : R, q0 <= q -> q < 1 ->
  [/\ 0 < lam q, 0 < be q, C <= lam q * be q & `|be q - 1| <= e].
Lemma top_arith (x F g C : R) : 0 < x -> 0 <= g -> 2%:R * C <= x * F -> C <= x / 2%:R * (F + g).
Proof.
move=> x0 g0 h; apply: le_trans (_ : x / 2%:R * F <= _); last by rewrite ler_pmul2l ?divr_gt0 ?ltr0n // ler_addl.
by rewrite mulrAC ler_pdivl_mulr ?ltr0n // [C * _]mulrC.
Qed.
Lemma real_top ppf cdf p : chi2_ok ppf cdf -> top_q (fun q => huber_lbda ppf q p.+1) (fun q => huber_beta ppf cdf q p.+1).
Proof.
move=> ok C e C0 e0; have C2 : 0 < 2%:R * C by rewrite mulr_gt0 ?ltr0n.
have [q0 [/RltP q00 /RltP q01] h] := top_real p.+1 e _ (PeanoNat.Nat.lt_0_succ p) (elimT (RltP _ _) C2) (elimT (RltP _ _) e0).
exists q0 => [|q le lt]; first by rewrite q00.
have hq : 0 < q < 1 by rewrite (lt_le_trans q00 le).
have [l0 b0 _] := real_constants p ok hq; have [x0 Pq] := (ok p.+1 isT).2 q hq; have p1 : (0 < p.+1 + 1)%N by rewrite addn1.
have [/RleP h1 /RleP h2] := h q _ _ (conj (elimT (RleP _ _) le) (elimT (RltP _ _) lt)) (elimT (RltP _ _) x0) Pq ((ok _ p1).1 _ x0).
have g0 : 0 <= ppf q p.+1%:R * (1 - q) / p.+1%:R.
  by apply: divr_ge0; [apply: mulr_ge0; [exact: ltW | by rewrite subr_ge0 ltW] | exact: ler0n].
split=> //; rewrite /huber_beta /huber_lbda twohalf; first exact: top_arith.
by move: h2; rewrite INRE !RdivE'.
Qed.
Lemma complex_top ppf cdf p : chi2_ok ppf cdf -> top_q (fun q => complex_huber_lbda ppf q p.+1) (fun q => complex_huber_beta ppf cdf q p.+1).
Proof.
move=> ok C e C0 e0; have C2 : 0 < 2%:R * C by rewrite mulr_gt0 ?ltr0n.
have [q0 [/RltP q00 /RltP q01] h] := top_complex p.+1 e _ (PeanoNat.Nat.lt_0_succ p) (elimT (RltP _ _) C2) (elimT (RltP _ _) e0).
exists q0 => [|q le lt]; first by rewrite q00.
have hq : 0 < q < 1 by rewrite (lt_le_trans q00 le).
have p2 : (0 < 2 * p.+1)%N by []; have p3 : (0 < 2 * p.+1 + 2)%N by rewrite addn2.
have [l0 b0 _] := complex_constants p ok hq; have [x0 Pq] := (ok _ p2).2 q hq.
have [/RleP h1 /RleP h2] := h q _ _ (conj (elimT (RleP _ _) le) (elimT (RltP _ _) lt)) (elimT (RltP _ _) x0) Pq ((ok _ p3).1 _ x0).
have E : ppf q (2 * p.+1)%:R / 2%:R * (1 - q) / p.+1%:R = ppf q (2 * p.+1)%:R * (1 - q) / (2 * p.+1)%:R.
  by rewrite natrM invfM !mulrA; congr (_ / _); rewrite mulrAC.
have g0 : 0 <= ppf q (2 * p.+1)%:R * (1 - q) / (2 * p.+1)%:R.
  by apply: divr_ge0; [apply: mulr_ge0; [exact: ltW | by rewrite subr_ge0 ltW] | exact: ler0n].
split=> //; rewrite /complex_huber_beta /complex_huber_lbda twohalf E; first exact: top_arith.
by move: h2; rewrite INRE !RdivE'.
Qed.
Lemma scm_near (K : starField) n (S : 'M[K]_n) (b e : R) : `|b - 1| <= e -> fro (@ofR K b *: S - S) <= e * fro S.
Proof.
move=> h; have -> : @ofR K b *: S - S = @ofR K (b - 1) *: S by rewrite rmorphB rmorph1 scalerBl scale1r.
apply: le_trans (_ : `|b - 1| * fro S <= _); last by apply: ler_wpmul2r => //; exact: fro_ge0.
case: (leP 0 (b - 1)) => c; first by rewrite froZ ?ger0_norm.
have -> : @ofR K (b - 1) *: S = - (@ofR K (- (b - 1)) *: S) by rewrite rmorphN scaleNr opprK.
rewrite {1}/fro fro2N -/(fro _).
by rewrite froZ ?ltr0_norm // oppr_ge0 ltW.
Qed.
(* lbda tends to infinity and beta to 1 as q tends to 1 *)
Lemma top_lim (lam be : R -> R) : top_q lam be -> forall C e : R, 0 < C -> 0 < e -> exists2 q0 : R, 0 < q0 < 1 & forall q : R, q0 <= q -> q < 1 ->
  C <= lam q /\ `|be q - 1| <= e.
Proof.
move=> h C e C0 e0; have e1 : 0 < 1 + e by rewrite addr_gt0 ?ltr01.
have [q0 h0 hq] := h (C * (1 + e)) e (mulr_gt0 C0 e1) e0; exists q0 => // q le lt; have [l0 b0 lb be1] := hq q le lt; split=> //.
rewrite -(ler_pmul2r e1); apply: le_trans lb _; rewrite ler_pmul2l //.
by move: be1; rewrite ler_norml => /andP[_]; rewrite ler_subl_addl.
Qed.
Theorem C132_constants ppf cdf p (C e : R) : chi2_ok ppf cdf -> 0 < C -> 0 < e ->
  (exists2 q0 : R, 0 < q0 < 1 & forall q : R, q0 <= q -> q < 1 -> C <= huber_lbda ppf q p.+1 /\ `|huber_beta ppf cdf q p.+1 - 1| <= e) /\
  (exists2 q0 : R, 0 < q0 < 1 & forall q : R, q0 <= q -> q < 1 -> C <= complex_huber_lbda ppf q p.+1 /\ `|complex_huber_beta ppf cdf q p.+1 - 1| <= e).
Proof. by move=> ok C0 e0; split; [exact: (top_lim (real_top p ok)) | exact: (top_lim (complex_top p ok))]. Qed.
(* When q is close enough to 1, for N samples whatever they are, the functions return beta times the sample covariance
   matrix from the second iteration on, where beta is close to 1, and stop after at most three iterations *)
Theorem C132_covariance ppf cdf N p (e : R) : chi2_ok ppf cdf -> 0 < e ->
  (exists2 q0 : R, 0 < q0 < 1 & forall q : R, q0 <= q -> q < 1 -> let beta := huber_beta ppf cdf q p.+1 in `|beta - 1| <= e /\
     forall eigh (X : 'M[real_sf]_(N, p.+1)) init tol m, eigh_ok eigh -> spanning X -> (forall s0, init = Some s0 -> pd s0) ->
     exists s d k, [/\ huber_m_estimator_fixed_point eigh ppf cdf X q init tol m = Some (Ok (s, d, k)),
       (2 <= k)%N -> s = @ofR real_sf beta *: scm X /\ fro (s - scm X) <= e * fro (scm X) & forall t, tol = Fin t -> 0 <= t -> (k <= 3)%N]) /\
  (exists2 q0 : R, 0 < q0 < 1 & forall q : R, q0 <= q -> q < 1 -> let beta := complex_huber_beta ppf cdf q p.+1 in `|beta - 1| <= e /\
     forall eigh (X : 'M[complex_sf]_(N, p.+1)) init tol m, eigh_ok eigh -> spanning X -> (forall s0, init = Some s0 -> pd s0) ->
     exists s d k, [/\ complex_huber_m_estimator_fixed_point eigh ppf cdf X q init tol m = Some (Ok (s, d, k)),
       (2 <= k)%N -> s = @ofR complex_sf beta *: scm X /\ fro (s - scm X) <= e * fro (scm X) & forall t, tol = Fin t -> 0 <= t -> (k <= 3)%N]).
Proof.
move=> ok e0; have C0 : 0 < N%:R + 1 :> R by rewrite ltr_paddl ?ler0n ?ltr01. have N1 : N%:R <= N%:R + 1 :> R by rewrite ler_addl ler01.
split.
  have [q0 h0 h] := real_top p ok C0 e0; exists q0 => // q le lt b; have [l0 b0 lb be] := h q le lt; split=> // eigh X init tol m eok sp pi.
  have [s [d [k [E _]]]] := real_huber_run (ppf := ppf) (cdf := cdf) (q := q) tol m eok l0 b0 sp pi; exists s, d, k.
  have [_ _ hN] := (C88_bounds ppf cdf N p q tol m).1 eigh X init s d k eok l0 b0 sp pi E.
  have [h2 h3] := hN (le_trans N1 lb); split=> // k2; rewrite (h2 k2); split=> //; exact: scm_near.
have [q0 h0 h] := complex_top p ok C0 e0; exists q0 => // q le lt b; have [l0 b0 lb be] := h q le lt; split=> // eigh X init tol m eok sp pi.
have [s [d [k [E _]]]] := complex_huber_run (ppf := ppf) (cdf := cdf) (q := q) tol m eok l0 b0 sp pi; exists s, d, k.
have [_ _ hN] := (C88_bounds ppf cdf N p q tol m).2 eigh X init s d k eok l0 b0 sp pi E.
have [h2 h3] := hN (le_trans N1 lb); split=> // k2; rewrite (h2 k2); split=> //; exact: scm_near.
Qed.
Example C132_hypotheses : exists ppf cdf, [/\ chi2_ok ppf cdf, exists eigh, @eigh_ok real_sf eigh, exists eigh, @eigh_ok complex_sf eigh,
  spanning (1%:M : 'M[real_sf]_2) & spanning (1%:M : 'M[complex_sf]_2)].
Proof.
have [ppf [cdf ok]] := C82_hypotheses; exists ppf, cdf; split=> //.
- exact: (C61_eigensolver_exists real_sf).
- exact: (C61_eigensolver_exists complex_sf).
- exact: (tight_spanning (ltn0Sn 1) (basis_tight real_sf 1)).
- exact: (tight_spanning (ltn0Sn 1) (basis_tight complex_sf 1)).
Qed.
Print Assumptions C132_constants.
Print Assumptions C132_covariance.
Print Assumptions C132_hypotheses.
