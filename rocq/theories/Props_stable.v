(* How far a result of the Student functions is from the estimate, and how the estimate depends on the data: C101, C102. *)
From Coq Require Import Reals String Lra Classical_Prop.
From mathcomp Require Import all_ssreflect all_algebra.
From mathcomp Require Import complex zify.
From Verif Require Import RealsMC RealTac RealTac2 Star StarInst FunCalc Model_featurearray Model_linalg Proofs_linalg Props_linalg
  Model_covariance Spec_covariance Spec_fixedpoint Spec_exist Model_estimators Proofs_mest Proofs_loop Proofs_covariance Proofs_estimators
  Props_covariance Proofs_cost Props_cost Props_robust Proofs_unique Proofs_unique2 Props_unique Compact Proofs_converge Props_converge
  Proofs_exist Proofs_exist2 Props_exist Proofs_stable Proofs_stable2.
Set Implicit Arguments.
Unset Strict Implicit.
Unset Printing Implicit Defensive.
Local Open Scope ring_scope.
Import GRing.Theory Num.Theory Order.TTheory.

(* ------------------------------------------------------------------ C101 *)
Section Run.
Variable K : starField.
Hypothesis cK : compactK K.
Variables (N p : nat) (X : 'M[K]_(N, p.+1)) (a : R).
Hypotheses (a0 : 0 < a) (sp : spanning X) (X0 : forall i, row i X != 0).
Local Notation F := (mstep (stu_w N p.+1 a) X).
Lemma run_posterior step tol m s0 s (d : R) k (l Q n e : R) : (forall S, pd S -> step S = Ok (F S)) -> pd s0 ->
  stops_with gtf PInf step (@rel_change K _) tol m s0 s (Fin d) k ->
  d < 1 -> loewner (@ofR K l *: 1%:M) s -> (forall i, maha s (samp X i) <= Q) -> n = d * fro s / (1 - d) -> n < l -> e = n / (l - n) -> e * Q < a ->
  exists2 T, student_solution a X T & fro (T - s) <= e * (a + Q) / (a - e * Q) * fro s.
Proof.
move=> st p0 sw d1 lo bQ en nl ee eQ; have N0 := spanning_N sp; have Fpd S : pd S -> pd (F S) by exact: student_mstep_pd.
have es := run_iter st Fpd p0 sw; have ed := run_change st Fpd p0 sw; have pk j : pd (iter j F s0) by elim: j => //= j; exact: Fpd.
case: k es ed sw => [|k] es ed sw; first by [].
have ps : pd s by rewrite es; exact: pk.
set u := iter k F s0 in ed; have pu : pd u by exact: pk.
have eu : s = F u by rewrite es.
have fu : 0 < fro u by rewrite lt_def fro_ge0 andbT; exact: pd_fro.
case: ed => ed; have d0 : 0 <= d by rewrite ed divr_ge0 ?fro_ge0.
have d1' : 0 < 1 - d by rewrite subr_gt0.
have c : close e s u.
  by rewrite ee en; apply: change_close => //; rewrite -?en // ed divfK ?gt_eqF.
have n0 : 0 <= n by rewrite en divr_ge0 ?mulr_ge0 ?fro_ge0 // ltW.
have e0 : 0 <= e by rewrite ee divr_ge0 // ltW // subr_gt0.
have res : close e (F s) s by rewrite {2}eu; apply: (F_close X0 (@stu_subhom N p a a0 N0)).
have [T sT cT] := post_exists N0 a0 ps bQ e0 res eQ cK X0; exists T => //.
by case: cT => c1 c2; apply: loewner_fro => //; [case: sT | exact: (post_ge0 N0 a0 ps bQ e0 eQ)].
Qed.
End Run.
(* s, d, k is a result; l is at most its least eigenvalue, Q at least the Mahalanobis distances of the samples to it, a is
   df/2 (real data) or df (complex data).  The solution of Student's equation (unique by C78) is at a distance of s that is
   computed from the result. *)
Theorem C101_distance_to_estimate N p (df l Q d n e : R) m tol k : 0 < df -> d < 1 -> n < l -> e = n / (l - n) ->
  (forall eigh (X : 'M[real_sf]_(N, p.+1)) init s, eigh_ok eigh -> \rank X = p.+1 -> (forall i, row i X != 0) -> (forall s0, init = Some s0 -> pd s0) ->
     student_t_mle_fixed_point eigh X df init tol m = Some (Ok (s, Fin d, k)) ->
     loewner (@ofR real_sf l *: 1%:M) s -> (forall i, maha s (samp X i) <= Q) -> n = d * fro s / (1 - d) -> e * Q < df / 2%:R ->
     exists2 T, student_solution (df / 2%:R) X T & fro (T - s) <= e * (df / 2%:R + Q) / (df / 2%:R - e * Q) * fro s) /\
  (forall eigh (X : 'M[complex_sf]_(N, p.+1)) init s, eigh_ok eigh -> \rank X = p.+1 -> (forall i, row i X != 0) -> (forall s0, init = Some s0 -> pd s0) ->
     complex_student_t_mle_fixed_point eigh X df init tol m = Some (Ok (s, Fin d, k)) ->
     loewner (@ofR complex_sf l *: 1%:M) s -> (forall i, maha s (samp X i) <= Q) -> n = d * fro s / (1 - d) -> e * Q < df ->
     exists2 T, student_solution df X T & fro (T - s) <= e * (df + Q) / (df - e * Q) * fro s).
Proof.
move=> d0 d1 nl ee; split=> eigh X init s ok rX X0 pi h bs bQ en eQ; have sp := spanning_rank rX.
  have [st [x y c sw]] := real_student_run ok d0 sp pi h.
  exact: (run_posterior real_compact (half_pos d0) sp X0 x c sw d1 bs bQ en nl ee eQ).
have [st [x y c sw]] := complex_student_run ok d0 sp pi h.
exact: (run_posterior complex_compact d0 sp X0 x c sw d1 bs bQ en nl ee eQ).
Qed.
(* the bound vanishes with the returned error *)
Theorem C101_bound_small (a l f Q t : R) : 0 < a -> 0 < l -> 0 <= f -> 0 <= Q -> 0 < t -> exists2 d0 : R, 0 < d0 <= 1 & forall d n e : R, 0 <= d < d0 ->
  n = d * f / (1 - d) -> e = n / (l - n) -> [/\ n < l, e * Q < a & e * (a + Q) / (a - e * Q) <= t].
Proof.
move=> a0 l0 f0 Q0 t0; pose E := Num.min (a / (Q + 1) / 2%:R) (a * t / (a + Q + t * Q)).
have den : 0 < a + Q + t * Q by rewrite ltr_spaddl ?mulr_ge0 ?ltr_spaddl // ?(ltW t0).
have Q1 : 0 < Q + 1 by rewrite ltr_paddl ?ltr01.
have E0 : 0 < E by rewrite lt_minr !divr_gt0 ?mulr_gt0 ?ltr0n.
pose n0 := E * l / (1 + E); have n00 : 0 < n0 by rewrite divr_gt0 ?mulr_gt0 // addr_gt0 ?ltr01.
pose d0 := n0 / (f + n0); have fn : 0 < f + n0 by rewrite ltr_paddl.
exists d0.
  by rewrite divr_gt0 //= ler_pdivr_mulr // mul1r ler_addr.
move=> d n e /andP[d0' dd] en ee.
have d1 : 0 < 1 - d.
  rewrite subr_gt0; apply: lt_le_trans dd _; by rewrite ler_pdivr_mulr // mul1r ler_addr.
have nn : 0 <= n by rewrite en divr_ge0 ?mulr_ge0 // ltW.
have nn0 : n <= n0.
  rewrite en ler_pdivr_mulr // mulrBr mulr1 ler_subr_addr [n0 * d]mulrC -mulrDr; apply: ltW.
  by rewrite -ltr_pdivl_mulr.
have E1 : 0 < 1 + E by rewrite addr_gt0 ?ltr01.
have nE : n * (1 + E) <= E * l by rewrite -ler_pdivl_mulr.
have nl : n < l.
  rewrite -(ltr_pmul2r E1); apply: le_lt_trans nE _; by rewrite mulrC mulrDr mulr1 ltr_addr.
have ln0 : 0 < l - n by rewrite subr_gt0.
have eE : e <= E by rewrite ee ler_pdivr_mulr // mulrBr ler_subr_addr; move: nE; rewrite mulrDr mulr1 [n * E]mulrC.
have e0 : 0 <= e by rewrite ee divr_ge0 // ltW.
have eQ : e * Q < a.
  apply: le_lt_trans (_ : E * (Q + 1) < _); first by apply: ler_pmul => //; rewrite ler_addl ler01.
  apply: le_lt_trans (_ : a / (Q + 1) / 2%:R * (Q + 1) < _); first by rewrite ler_pmul2r // le_minl lexx.
  by rewrite mulrAC divfK ?gt_eqF // ltr_pdivr_mulr ?ltr0n // ltr_pmulr // ltr1n.
split=> //; rewrite ler_pdivr_mulr ?subr_gt0 // mulrBr ler_subr_addr mulrCA -mulrDr mulrC.
have := le_trans eE (_ : E <= a * t / (a + Q + t * Q)); rewrite le_minl lexx orbT => /(_ isT).
by rewrite ler_pdivl_mulr // mulrC [t * a]mulrC.
Qed.
(* a run with a nonzero error that meets the hypotheses: one update from 9/10 of the solution *)
Section Example.
Variable K : starField.
Local Notation ofR := (@ofR K).
Lemma exS_scaled (c : R) i : 0 < c -> maha (ofR c *: exS K) (samp (exX K) i) = 2%:R / c.
Proof. by move=> c0; rewrite maha_scale ?ex_maha //; exact: ex_pd. Qed.
Lemma exS_arith (c : R) : c + 2%:R <> 0 -> c <> 0 -> (1 + 2%:R) / 3%:R / (1 + 2%:R / c) = c * 3%:R / (c + 2%:R) * 3%:R^-1.
Proof.
move=> d1 d2; have d3 : Rplus c 2 <> R0 by move=> h; apply: d1; rewrite -[RHS]h natIZR -RplusE.
rfield; do ?split=> //; lra.
Qed.
Lemma exS_step (c : R) : 0 < c -> mstep (stu_w 3 2 1) (exX K) (ofR c *: exS K) = ofR (c * 3%:R / (c + 2%:R)) *: exS K.
Proof.
move=> c0; rewrite [RHS]wsum_scale /mstep; apply: eq_wsum => i; rewrite exS_scaled // /stu_w.
have d1 : c + 2%:R <> 0 by apply/eqP; rewrite gt_eqF // addr_gt0 ?ltr0n.
have d2 : c <> 0 by apply/eqP; rewrite gt_eqF.
exact: exS_arith.
Qed.
Lemma exS_lower : loewner (ofR 3%:R^-1 *: 1%:M) (exS K).
Proof.
rewrite /loewner ex_S fmorphV rmorph_nat -scalerBr.
apply: psdZ; first by rewrite invr_ge0 ler0n.
have -> : \matrix_(i, j) (if i == j then 2%:R else 1) - 1%:M = const_mx 1 *m (const_mx 1 : 'cV[K]_2)^H.
  apply/matrixP => i j; rewrite !mxE big_ord1 !mxE rmorph1 mulr1; case: eqP => _; by rewrite ?subr0 // -[2%:R]/(1 + 1) addrK.
exact: psd_outer.
Qed.
Lemma exS_fro : fro (exS K) <= 9%:R / 8%:R.
Proof.
have n2 (k : nat) : sq (k%:R : K) = (k * k)%:R by apply: (@ofR_inj K); rewrite ofR_sq !rmorph_nat -natrM.
rewrite -ler_sqr ?nnegrE ?fro_ge0 ?divr_ge0 ?ler0n // fro_sq ex_S fro2E !big_ord_recl !big_ord0 !mxE /= !sqM sqV (n2 2%N) (n2 3%N) sq1.
by rewrite !addr0 expr2 -[(3 * 3)%N]/9%N -[(2 * 2)%N]/4%N; rlra2.
Qed.
(* the numbers of the example *)
Definition ex_c : R := 9%:R / 10%:R.
Definition ex_s : 'M[K]_2 := ofR (27%:R / 29%:R) *: exS K.
Definition ex_n : R := 28%:R^-1 * fro ex_s.
Definition ex_l : R := 9%:R / 29%:R.
Lemma ex_c_gt0 : 0 < ex_c. Proof. by rewrite divr_gt0 ?ltr0n. Qed.
Lemma ex_next : mstep (stu_w 3 2 1) (exX K) (ofR ex_c *: exS K) = ex_s.
Proof. rewrite exS_step ?ex_c_gt0 // /ex_s; congr (ofR _ *: _); rewrite /ex_c; by rfield. Qed.
Lemma ex_start : pd (ofR ex_c *: exS K). Proof. by apply: pdZ; [rewrite ofR_gt0 ex_c_gt0 | exact: ex_pd]. Qed.
Lemma ex_error : fro (ex_s - ofR ex_c *: exS K) / fro (ofR ex_c *: exS K) = 29%:R^-1.
Proof.
have f0 : fro (exS K) <> 0 by apply/eqP/pd_fro; exact: ex_pd.
have h : 0 <= 27%:R / 29%:R - ex_c by rewrite /ex_c; rlra2.
have -> : ex_s - ofR ex_c *: exS K = ofR (27%:R / 29%:R - ex_c) *: exS K by rewrite rmorphB scalerBl.
rewrite (froZ _ h) (froZ _ (ltW ex_c_gt0)).
rewrite /ex_c; move: (fro _) f0 => f f0; by rfield.
Qed.
Lemma ex_bounds i : [/\ loewner (ofR ex_l *: 1%:M) ex_s, maha ex_s (samp (exX K) i) <= 58%:R / 27%:R, ex_n = 29%:R^-1 * fro ex_s / (1 - 29%:R^-1),
  ex_n < ex_l & ex_n / (ex_l - ex_n) * (58%:R / 27%:R) < 1].
Proof.
have nl : ex_n <= 27%:R / 29%:R * (9%:R / 8%:R) / 28%:R.
  by rewrite /ex_n mulrC froZ ?divr_ge0 ?ler0n // ler_pmul2r ?invr_gt0 ?ltr0n // ler_pmul2l ?divr_gt0 ?ltr0n //; exact: exS_fro.
have le : ex_n < ex_l by apply: le_lt_trans nl _; rewrite /ex_l; rlra2.
split=> //.
- have -> : ofR ex_l *: 1%:M = ofR (27%:R / 29%:R) *: (ofR 3%:R^-1 *: (1%:M : 'M[K]_2)).
    by rewrite scalerA -rmorphM; congr (ofR _ *: _); rewrite /ex_l; rfield.
  by apply: loewnerZ; [rewrite divr_ge0 ?ler0n | exact: exS_lower].
- rewrite exS_scaled ?divr_gt0 ?ltr0n // le_eqVlt; apply/orP; left; apply/eqP; by rfield.
- rewrite /ex_n; move: (fro _) => f; by rfield.
- rewrite mulrAC ltr_pdivr_mulr ?subr_gt0 // mul1r; move: nl; rewrite /ex_l => nl; by rlra2.
Qed.
End Example.
(* ... for real and complex data *)
Lemma ex_run (K : starField) step s d k : (forall S, pd S -> step S = Ok (mstep (stu_w 3 2 1) (exX K) S)) ->
  stops_with gtf PInf step (@rel_change K _) (Fin 1) 1 (@ofR K ex_c *: exS K) s d k -> s = ex_s K /\ d = Fin 29%:R^-1.
Proof.
move=> st sw; have Fpd S : pd S -> pd (mstep (stu_w 3 2 1) (exX K) S).
  by apply: student_mstep_pd; [exact: ltr01 | exact: ex_spanning].
have es := run_iter st Fpd (ex_start K) sw; have ed := run_change st Fpd (ex_start K) sw; move: sw => [_ _ k1 g _].
case: k k1 g es ed => [|[|//]] _ g es ed; first by have := g; rewrite ed => /(_ isT).
by rewrite ed es /= ex_next ex_error.
Qed.
Example C101_hypotheses : (forall eigh, eigh_ok eigh -> exists (X : 'M[real_sf]_(3, 2)) s0 s k, [/\ \rank X = 2%N, forall i, row i X != 0, pd s0,
    student_t_mle_fixed_point eigh X 2%:R (Some s0) (Fin 1) 1 = Some (Ok (s, Fin 29%:R^-1, k)) &
    exists l Q n, [/\ loewner (@ofR real_sf l *: 1%:M) s, forall i, maha s (samp X i) <= Q, n = 29%:R^-1 * fro s / (1 - 29%:R^-1), n < l & n / (l - n) * Q < 2%:R / 2%:R]]) /\
  (forall eigh, eigh_ok eigh -> exists (X : 'M[complex_sf]_(3, 2)) s0 s k, [/\ \rank X = 2%N, forall i, row i X != 0, pd s0,
    complex_student_t_mle_fixed_point eigh X 1 (Some s0) (Fin 1) 1 = Some (Ok (s, Fin 29%:R^-1, k)) &
    exists l Q n, [/\ loewner (@ofR complex_sf l *: 1%:M) s, forall i, maha s (samp X i) <= Q, n = 29%:R^-1 * fro s / (1 - 29%:R^-1), n < l & n / (l - n) * Q < 1]]).
Proof.
pose z (_ _ : R) : R := 0; have e1 : 2%:R / 2%:R = 1 :> R by rewrite divff // pnatr_eq0.
split=> eigh ok.
  have v : 0 < 2%:R :> R by rewrite ltr0n.
  have [s [d [k [e sw]]]] := (C29_estimators_follow_contract z z 3 1 (StudentMLE 2%:R) (Fin 1) 1).1 eigh (exX real_sf) (Some (@ofR real_sf ex_c *: exS real_sf)) v.
  have st S : pd S -> real_step eigh z z (StudentMLE 2%:R) (exX real_sf) S = Ok (mstep (stu_w 3 2 (2%:R / 2%:R)) (exX real_sf) S).
    by move=> pS; rewrite (real_run _ _ ok).
  rewrite e1 in st; have [es ed] := ex_run st sw; exists (exX real_sf), (@ofR real_sf ex_c *: exS real_sf), s, k; split; [exact: ex_rank | exact: ex_nz | exact: ex_start | |].
    by rewrite -ed; exact: e.
  exists ex_l, (58%:R / 27%:R), (ex_n real_sf); rewrite es e1; split; try by case: (ex_bounds real_sf 0).
  by move=> i; case: (ex_bounds real_sf i).
have v : 0 < 1 :> R by exact: ltr01.
have [s [d [k [e sw]]]] := (C29_estimators_follow_contract z z 3 1 (StudentMLE 1) (Fin 1) 1).2 eigh (exX complex_sf) (Some (@ofR complex_sf ex_c *: exS complex_sf)) v.
have st S : pd S -> complex_step eigh z z (StudentMLE 1) (exX complex_sf) S = Ok (mstep (stu_w 3 2 1) (exX complex_sf) S).
  by move=> pS; rewrite (complex_run _ _ ok).
have [es ed] := ex_run st sw; exists (exX complex_sf), (@ofR complex_sf ex_c *: exS complex_sf), s, k; split; [exact: ex_rank | exact: ex_nz | exact: ex_start | |].
  by rewrite -ed; exact: e.
exists ex_l, (58%:R / 27%:R), (ex_n complex_sf); rewrite es; split; try by case: (ex_bounds complex_sf 0).
by move=> i; case: (ex_bounds complex_sf i).
Qed.

(* ------------------------------------------------------------------ C102 *)
Theorem C102_continuous N p (a : R) : 0 < a ->
  (forall (X : 'M[real_sf]_(N, p.+1)) S, (forall i, row i X != 0) -> student_solution a X S -> forall t : R, 0 < t ->
     exists2 d : R, 0 < d & forall Y, fro (Y - X) <= d -> exists2 T, (forall T', student_solution a Y T' <-> T' = T) & fro (T - S) <= t * fro S) /\
  (forall (X : 'M[complex_sf]_(N, p.+1)) S, (forall i, row i X != 0) -> student_solution a X S -> forall t : R, 0 < t ->
     exists2 d : R, 0 < d & forall Y, fro (Y - X) <= d -> exists2 T, (forall T', student_solution a Y T' <-> T' = T) & fro (T - S) <= t * fro S).
Proof.
move=> a0.
have G (K : starField) (cK : compactK K) (X : 'M[K]_(N, p.+1)) S : (forall i, row i X != 0) -> student_solution a X S -> forall t : R, 0 < t ->
     exists2 d : R, 0 < d & forall Y, fro (Y - X) <= d -> exists2 T, (forall T', student_solution a Y T' <-> T' = T) & fro (T - S) <= t * fro S.
  move=> X0 sol t t0; have N0 := spanning_N (student_spanning sol).
  have [d d0 h] := near_and (near_nonzero X0) (student_near a0 cK X0 sol t0); exists (R_sqrt.sqrt d); first by apply/RltP/R_sqrt.sqrt_lt_R0/RltP.
  move=> Y le; have {}le : fro2 (Y - X) <= d.
    rewrite -fro_sq; have -> : d = R_sqrt.sqrt d ^+ 2 by rewrite -RpowE R_sqrt.pow2_sqrt //; apply/RleP/ltW.
    by rewrite ler_sqr ?nnegrE ?fro_ge0 //; apply/RleP; exact: R_sqrt.sqrt_pos.
  have [Y0 [T sT [c1 c2]]] := h Y le; exists T; last by apply: loewner_fro => //; [exact: sT.1 | exact: sol.1 | exact: ltW].
  by move=> T'; split=> [sT'|-> //]; exact: (C78_unique a0 N0 Y0 sT' sT).
split=> X; [exact: (G _ real_compact) | exact: (G _ complex_compact)].
Qed.
(* the same for the results of the functions, from a given starting matrix, after enough updates; how many does not depend
   on the perturbation *)
Theorem C102_results N p (df : R) : 0 < df ->
  (forall (X : 'M[real_sf]_(N, p.+1)) S s0, (forall i, row i X != 0) -> student_solution (df / 2%:R) X S -> pd s0 -> forall t : R, 0 < t ->
     exists n, exists2 e : R, 0 < e & forall eigh Y tol m s d k, eigh_ok eigh -> fro (Y - X) <= e ->
       student_t_mle_fixed_point eigh Y df (Some s0) tol m = Some (Ok (s, d, k)) -> (n <= k)%N -> fro (s - S) <= t * fro S) /\
  (forall (X : 'M[complex_sf]_(N, p.+1)) S s0, (forall i, row i X != 0) -> student_solution df X S -> pd s0 -> forall t : R, 0 < t ->
     exists n, exists2 e : R, 0 < e & forall eigh Y tol m s d k, eigh_ok eigh -> fro (Y - X) <= e ->
       complex_student_t_mle_fixed_point eigh Y df (Some s0) tol m = Some (Ok (s, d, k)) -> (n <= k)%N -> fro (s - S) <= t * fro S).
Proof.
move=> d0.
have G (K : starField) (cK : compactK K) (a : R) (X : 'M[K]_(N, p.+1)) S s0 : 0 < a -> (forall i, row i X != 0) -> student_solution a X S -> pd s0 -> forall t : R, 0 < t ->
    exists n, exists2 e : R, 0 < e & forall Y, fro (Y - X) <= e -> spanning Y /\ forall k, (n <= k)%N -> fro (iter k (mstep (stu_w N p.+1 a) Y) s0 - S) <= t * fro S.
  move=> a0 X0 sol p0 t t0; have [n nr] := student_near_runs a0 X0 sol t0 p0; exists n.
  have [d d0' h] := near_and (student_near a0 cK X0 sol t0) nr; exists (R_sqrt.sqrt d); first by apply/RltP/R_sqrt.sqrt_lt_R0/RltP.
  move=> Y le; have {}le : fro2 (Y - X) <= d.
    rewrite -fro_sq; have -> : d = R_sqrt.sqrt d ^+ 2 by rewrite -RpowE R_sqrt.pow2_sqrt //; apply/RleP/ltW.
    by rewrite ler_sqr ?nnegrE ?fro_ge0 //; apply/RleP; exact: R_sqrt.sqrt_pos.
  have [[T sT _] hk] := h Y le; have sp := student_spanning sT; split=> // k nk; have [c1 c2] := hk k nk.
  apply: loewner_fro => //; [|exact: sol.1 | exact: ltW].
  by elim: k {nk c1 c2} => //= k; exact: student_mstep_pd.
split=> X S s0 X0 sol p0 t t0.
  have [n [e e0 h]] := G _ real_compact _ X S s0 (half_pos d0) X0 sol p0 t t0; exists n, e => // eigh Y tol m s d k ok /h [sp hk] r nk.
  have pi s1 : Some s0 = Some s1 -> pd s1 by move=> [<-].
  have [st [x y c sw]] := real_student_run ok d0 sp pi r; rewrite (run_iter x y p0 sw); exact: hk.
have [n [e e0 h]] := G _ complex_compact _ X S s0 d0 X0 sol p0 t t0; exists n, e => // eigh Y tol m s d k ok /h [sp hk] r nk.
have pi s1 : Some s0 = Some s1 -> pd s1 by move=> [<-].
have [st [x y c sw]] := complex_student_run ok d0 sp pi r; rewrite (run_iter x y p0 sw); exact: hk.
Qed.
Example C102_hypotheses (K : starField) (a : R) : 0 < a -> exists (X : 'M[K]_(3, 2)) S, (forall i, row i X != 0) /\ student_solution a X S.
Proof. by move=> a0; have [X [S [[_ X0] _ _ sol _]]] := C77_C79_hypotheses K a0; exists X, S. Qed.

Print Assumptions C101_distance_to_estimate.
Print Assumptions C101_bound_small.
Print Assumptions C101_hypotheses.
Print Assumptions C102_continuous.
Print Assumptions C102_results.
Print Assumptions C102_hypotheses.
