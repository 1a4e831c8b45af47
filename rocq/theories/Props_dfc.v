(* Student's estimate depends continuously on the degrees of freedom: C129. *)
From Coq Require Import Reals Lra.
From mathcomp Require Import all_ssreflect all_algebra.
From mathcomp Require Import complex zify.
From Verif Require Import RealsMC RealTac RealTac2 Star StarInst FunCalc Model_featurearray Model_linalg Proofs_linalg Props_linalg
  Model_covariance Spec_covariance Spec_fixedpoint Spec_exist Model_estimators Proofs_mest Proofs_loop Proofs_covariance Proofs_estimators
  Props_covariance Proofs_cost Props_cost Props_robust Proofs_unique Proofs_unique2 Props_unique Compact Proofs_converge Props_converge
  Proofs_exist Proofs_exist2 Props_exist Proofs_hubiter2 Proofs_stable Props_kron.
Set Implicit Arguments.
Unset Strict Implicit.
Unset Printing Implicit Defensive.
Local Open Scope ring_scope.
Import GRing.Theory Num.Theory Order.TTheory.

Lemma dfarith (x y p q e : R) : 0 < x -> 0 < y -> 0 <= p -> 0 <= q -> 0 <= e -> x <= (1 + e) * y -> y <= (1 + e) * x ->
  (x + p) * (y + q) <= (1 + e) * (y + p) * (x + q).
Proof.
move=> x0 y0 p0 q0 e0 h1 h2; have e1 : 1 <= 1 + e by rewrite ler_addl.
have le1 z : 0 <= z -> z <= (1 + e) * z by move=> z0; rewrite ler_pemull.
case: (leP x y) => xy.
  have k1 : x + p <= y + p by rewrite ler_add2r.
  have k2 : y + q <= (1 + e) * (x + q) by rewrite mulrDr; apply: ler_add => //; exact: le1.
  by rewrite [(1 + e) * _]mulrC -mulrA; apply: ler_pmul => //; rewrite addr_ge0 // ltW.
have k1 : x + p <= (1 + e) * (y + p) by rewrite mulrDr; apply: ler_add => //; exact: le1.
have k2 : y + q <= x + q by rewrite ler_add2r ltW.
by apply: ler_pmul => //; rewrite addr_ge0 // ltW.
Qed.
Lemma radius (a Q t : R) : 0 < a -> 0 <= Q -> 0 < t -> exists2 d : R, 0 < d & forall x, `|x - a| <= d ->
  0 < x /\ exists e : R, [/\ 0 <= e, x <= (1 + e) * a, a <= (1 + e) * x, e * Q < x & e * (x + Q) / (x - e * Q) <= t].
Proof.
move=> a0 Q0 t0; have h0 : 0 < a / 2%:R by rewrite divr_gt0 ?ltr0n.
have h2 : a / 2%:R + a / 2%:R = a by rfield.
have D0 : 0 < a + a + Q + t * Q by rewrite !ltr_spaddl ?addr_ge0 ?mulr_ge0 // ltW.
pose e : R := t * (a / 2%:R) / (a + a + Q + t * Q); have e0 : 0 < e by apply: divr_gt0 => //; exact: mulr_gt0.
have eD : e * (a + a + Q + t * Q) = t * (a / 2%:R) by rewrite divfK ?gt_eqF.
have ea0 : 0 < e * (a / 2%:R) by rewrite mulr_gt0.
exists (Num.min (a / 2%:R) (e * (a / 2%:R))); first by rewrite lt_minr h0.
move=> x; rewrite le_minr !ler_norml => /andP[/andP[l1 l2] /andP[l3 l4]].
have x1 : a / 2%:R <= x by move: l1 h2; move: (a / 2%:R) => z l1 h2; rewrite -h2 in l1; rlra2.
have x2 : x <= a + a by move: l2 h2 h0; move: (a / 2%:R) => z l2 h2 h0; rewrite -h2 in l2 *; rlra2.
have x0 : 0 < x by exact: lt_le_trans x1.
split=> //; exists e.
have e00 := ltW e0; have ex : e * (a / 2%:R) <= e * x by apply: ler_wpmul2l.
have ea : e * (a / 2%:R) <= e * a by apply: ler_wpmul2l => //; rewrite -{2}h2 ler_addl ltW.
have b1 : x <= (1 + e) * a by rewrite mulrDl mul1r; move: l4 ea; move: (e * a) (e * _) => y z l4 ea; rlra2.
have b2 : a <= (1 + e) * x by rewrite mulrDl mul1r; move: l3 ex; move: (e * x) (e * _) => y z l3 ex; rlra2.
have key : e * (x + Q + t * Q) <= t * x.
  apply: (@le_trans _ _ (t * (a / 2%:R))); last by apply: ler_wpmul2l => //; exact: ltW.
  by rewrite -eD; apply: ler_wpmul2l => //; rewrite !ler_add2r.
have eQ : e * Q < x.
  rewrite -(ltr_pmul2l t0); apply: lt_le_trans key; rewrite mulrCA ltr_pmul2l // ltr_addr; exact: ltr_spaddl.
split=> //; rewrite ler_pdivr_mulr ?subr_gt0 // mulrBr ler_subr_addr; move: key; rewrite mulrDr => key.
by rewrite [t * (e * Q)]mulrCA.
Qed.

Section Gen.
Variables (K : starField) (cK : compactK K) (N p : nat) (X : 'M[K]_(N, p.+1)).
Hypothesis X0 : forall i, row i X != 0.
Lemma wsum_mono (u v : 'I_N -> R) (c : R) : (forall i, u i <= c * v i) -> loewner (wsum u X) (@ofR K c *: wsum v X).
Proof.
move=> h; rewrite wsum_scale; have -> : wsum (fun i => c * v i) X = wsum (fun i => u i + 1 * (c * v i - u i)) X.
  by apply: eq_wsum => i; rewrite mul1r addrC subrK.
rewrite wsumD rmorph1 scale1r /loewner addrC addKr; apply: wsum_psd => i; by rewrite subr_ge0.
Qed.
Lemma df_close (a c e : R) S : 0 < a -> 0 < c -> 0 <= e -> c <= (1 + e) * a -> a <= (1 + e) * c -> student_solution a X S ->
  close e (mstep (stu_w N p.+1 c) X S) S.
Proof.
move=> a0 c0 e0 h1 h2 [pS eS]; have p0 : 0 <= p.+1%:R :> R := ler0n _ _.
have m0 i : 0 <= maha S (samp X i) by exact: maha_ge0 (_ : pd S).
have w (x y : R) i : 0 < x -> 0 < y -> x <= (1 + e) * y -> y <= (1 + e) * x -> stu_w N p.+1 x (maha S (samp X i)) <= (1 + e) * stu_w N p.+1 y (maha S (samp X i)).
  move=> x0 y0 k1 k2; rewrite /stu_w; move: (maha _ _) (m0 i) => q q0.
  have xq : 0 < x + q by rewrite ltr_spaddl. have yq : 0 < y + q by rewrite ltr_spaddl.
  rewrite ler_pdivr_mulr // !mulrA mulrAC ler_pdivl_mulr //.
  have -> : (x + p.+1%:R) / N%:R * (y + q) = N%:R^-1 * ((x + p.+1%:R) * (y + q)) by rewrite mulrAC mulrC.
  have -> : (1 + e) * (y + p.+1%:R) / N%:R * (x + q) = N%:R^-1 * ((1 + e) * (y + p.+1%:R) * (x + q)) by rewrite mulrAC mulrC.
  by apply: ler_wpmul2l; [rewrite invr_ge0 ler0n | exact: dfarith].
by split; [rewrite {2}eS | rewrite {1}eS]; apply: wsum_mono => i; exact: w.
Qed.
Lemma df_bound (a c e Q : R) S : (0 < N)%N -> 0 < a -> 0 < c -> 0 <= e -> c <= (1 + e) * a -> a <= (1 + e) * c -> student_solution a X S ->
  (forall i, maha S (samp X i) <= Q) -> e * Q < c ->
  exists T, [/\ student_solution c X T, forall T', student_solution c X T' -> T' = T & fro (T - S) <= e * (c + Q) / (c - e * Q) * fro S].
Proof.
move=> N0 a0 c0 e0 h1 h2 sS bQ eQ; have pS := sS.1; have res := df_close a0 c0 e0 h1 h2 sS.
have [T sT [k1 k2]] := post_exists N0 c0 pS bQ e0 res eQ cK X0; exists T; split=> // [T' sT'|].
  exact: (stu_unique N0 X0 c0 sT' sT).
by apply: loewner_fro => //; [case: sT | exact: (post_ge0 N0 c0 pS bQ e0 eQ)].
Qed.
Lemma df_cont (a : R) S : (0 < N)%N -> 0 < a -> student_solution a X S -> forall t : R, 0 < t -> exists2 d : R, 0 < d & forall c, `|c - a| <= d ->
  0 < c /\ exists T, [/\ student_solution c X T, forall T', student_solution c X T' -> T' = T & fro (T - S) <= t * fro S].
Proof.
move=> N0 a0 sS t t0; pose Q : R := \sum_i maha S (samp X i); have m0 i : 0 <= maha S (samp X i) by apply: maha_ge0; case: sS.
have Q0 : 0 <= Q by apply: sumr_ge0.
have bQ i : maha S (samp X i) <= Q by rewrite /Q (bigD1 i) //= ler_addl sumr_ge0.
have [d d0 hd] := radius a0 Q0 t0; exists d => // c /hd [c0 [e [e0 h1 h2 eQ le]]]; split=> //.
have [T [sT un h]] := df_bound N0 a0 c0 e0 h1 h2 sS bQ eQ; exists T; split=> //.
by apply: le_trans h _; apply: ler_wpmul2r => //; exact: fro_ge0.
Qed.
End Gen.

(* ------------------------------------------------------------------ C129 *)
(* S is the solution of Student's equation for a, Q bounds the Mahalanobis distances of the samples to S, a and c differ by
   a factor of at most 1 + e: there is one solution for c and its distance to S is bounded explicitly. *)
Definition df_explicit (K : starField) N p (X : 'M[K]_(N, p)) := forall (a c e Q : R) S, 0 < a -> 0 < c -> 0 <= e -> c <= (1 + e) * a -> a <= (1 + e) * c ->
  student_solution a X S -> (forall i, maha S (samp X i) <= Q) -> e * Q < c ->
  exists T, [/\ student_solution c X T, forall T', student_solution c X T' -> T' = T & fro (T - S) <= e * (c + Q) / (c - e * Q) * fro S].
Theorem C129_explicit N p : (0 < N)%N ->
  (forall X : 'M[real_sf]_(N, p.+1), (forall i, row i X != 0) -> df_explicit X) /\
  (forall X : 'M[complex_sf]_(N, p.+1), (forall i, row i X != 0) -> df_explicit X).
Proof. by move=> N0; split=> X X0 a c e Q S; [exact: (df_bound real_compact) | exact: (df_bound complex_compact)]. Qed.
(* Hence the solution is a continuous function of a ... *)
Definition df_continuous (K : starField) N p (X : 'M[K]_(N, p)) := forall (a : R) S, 0 < a -> student_solution a X S -> forall t : R, 0 < t ->
  exists2 d : R, 0 < d & forall c, `|c - a| <= d ->
    0 < c /\ exists T, [/\ student_solution c X T, forall T', student_solution c X T' -> T' = T & fro (T - S) <= t * fro S].
Theorem C129_continuous N p : (0 < N)%N ->
  (forall X : 'M[real_sf]_(N, p.+1), (forall i, row i X != 0) -> df_continuous X) /\
  (forall X : 'M[complex_sf]_(N, p.+1), (forall i, row i X != 0) -> df_continuous X).
Proof. by move=> N0; split=> X X0 a S; [exact: (df_cont real_compact) | exact: (df_cont complex_compact)]. Qed.
(* ... and the functions called with degrees of freedom near df compute, for a small tolerance and enough iterations, a
   matrix near the estimate S for df; a is df/2 for the real function. *)
Lemma tri_close (K : starField) n (s S T : 'M[K]_n) (e f : R) : 0 <= f -> (1 + f) * (1 + f) - 1 <= e -> fro (s - S) <= f * fro S -> fro (S - T) <= f * fro T ->
  fro (s - T) <= e * fro T.
Proof.
move=> f0 fe h1 h2; have -> : s - T = (s - S) + (S - T) by rewrite addrA subrK.
apply: le_trans (froD _ _) _; have h3 : fro S <= (1 + f) * fro T.
  rewrite mulrDl mul1r addrC -{1}[S](subrK T); apply: le_trans (froD _ _) _; by rewrite ler_add2r.
apply: le_trans (ler_add h1 h2) _; apply: le_trans (_ : ((1 + f) * (1 + f) - 1) * fro T <= _); last by apply: ler_wpmul2r => //; exact: fro_ge0.
have h4 : f * fro S <= f * ((1 + f) * fro T) by apply: ler_wpmul2l.
move: h4; move: (fro S) (fro T) => x y h4; rlra2.
Qed.
Theorem C129_results N p (df : R) : (0 < N)%N -> 0 < df ->
  (forall (X : 'M[real_sf]_(N, p.+1)) S, (forall i, row i X != 0) -> student_solution (df / 2%:R) X S -> forall e : R, 0 < e -> exists2 d0 : R, 0 < d0 & forall df', `|df' - df| <= d0 ->
     forall eigh init, eigh_ok eigh -> (forall s0, init = Some s0 -> pd s0) -> exists2 t : R, 0 < t & forall tol : R, 0 < tol <= t -> exists n, forall m s d k, (n <= m)%N ->
       student_t_mle_fixed_point eigh X df' init (Fin tol) m = Some (Ok (s, d, k)) -> fro (s - S) <= e * fro S) /\
  (forall (X : 'M[complex_sf]_(N, p.+1)) S, (forall i, row i X != 0) -> student_solution df X S -> forall e : R, 0 < e -> exists2 d0 : R, 0 < d0 & forall df', `|df' - df| <= d0 ->
     forall eigh init, eigh_ok eigh -> (forall s0, init = Some s0 -> pd s0) -> exists2 t : R, 0 < t & forall tol : R, 0 < tol <= t -> exists n, forall m s d k, (n <= m)%N ->
       complex_student_t_mle_fixed_point eigh X df' init (Fin tol) m = Some (Ok (s, d, k)) -> fro (s - S) <= e * fro S).
Proof.
move=> N0 d0; split=> X S X0 sS e e0; have [f f0 hf] := small_close e0.
  have a0 : 0 < df / 2%:R by rewrite divr_gt0 ?ltr0n.
  have [d d1 hd] := (C129_continuous p N0).1 X X0 _ S a0 sS f f0; exists (d * 2%:R); first by rewrite mulr_gt0 ?ltr0n.
  move=> df' le eigh init ok pi.
  have le' : `|df' / 2%:R - df / 2%:R| <= d.
    by rewrite -mulrBl normrM [X in _ * X]gtr0_norm ?invr_gt0 ?ltr0n // ler_pdivr_mulr ?ltr0n.
  have [c0 [T [sT un h]]] := hd _ le'; have d0' : 0 < df' by move: c0; rewrite pmulr_lgt0 ?invr_gt0 ?ltr0n.
  have [T' sT' hT] := (C86_computed N p d0').1 X X0 (student_necessary X0 c0 sT); rewrite (un _ sT') in hT.
  have [t t0 ht] := hT eigh init f ok pi f0; exists t => // tol tt; have [n hn] := ht tol tt; exists n => m s dd k nm r.
  exact: (tri_close (ltW f0) hf (hn _ _ _ _ nm r) h).
have [d d1 hd] := (C129_continuous p N0).2 X X0 _ S d0 sS f f0; exists d => // df' le eigh init ok pi.
have [c0 [T [sT un h]]] := hd _ le.
have [T' sT' hT] := (C86_computed N p c0).2 X X0 (student_necessary X0 c0 sT); rewrite (un _ sT') in hT.
have [t t0 ht] := hT eigh init f ok pi f0; exists t => // tol tt; have [n hn] := ht tol tt; exists n => m s dd k nm r.
exact: (tri_close (ltW f0) hf (hn _ _ _ _ nm r) h).
Qed.
(* the samples of C78 have an estimate for every number of degrees of freedom *)
Example C129_hypotheses (K : starField) (df : R) : 0 < df -> exists (X : 'M[K]_(3, 2)) S, (forall i, row i X != 0) /\ student_solution df X S.
Proof. by move=> d0; have [X [S [[_ X0] _ _ sol _]]] := C77_C79_hypotheses K d0; exists X, S. Qed.

Print Assumptions C129_explicit.
Print Assumptions C129_continuous.
Print Assumptions C129_results.
