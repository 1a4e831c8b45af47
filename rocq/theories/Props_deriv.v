(* The estimates of Student and Tyler are differentiable functions of the samples: C124. *)
From Coq Require Import Reals String Lra.
From mathcomp Require Import all_ssreflect all_algebra.
From mathcomp Require Import complex zify.
From Verif Require Import RealsMC RealTac RealTac2 Star StarInst FunCalc Compact Model_featurearray Model_linalg Proofs_linalg Props_linalg Model_covariance Model_estimators
  Spec_covariance Spec_fixedpoint Spec_exist Spec_deriv Proofs_mest Proofs_estimators Props_covariance Props_robust Proofs_unique Proofs_unique2 Props_unique Proofs_converge Props_converge
  Proofs_exist Proofs_exist2 Props_exist Proofs_stable Proofs_stable2 Proofs_tycont Proofs_tylip Props_tylip Proofs_deriv Proofs_deriv2.
Set Implicit Arguments.
Unset Strict Implicit.
Unset Printing Implicit Defensive.
Local Open Scope ring_scope.
Import GRing.Theory Num.Theory Order.TTheory.

(* The linearised equation has exactly one solution D for every displacement U of the samples, D is linear in U, and the
   solution for the samples Y is S + D up to an error that is negligible before the distance of Y to X *)
Theorem C124_student N p (a : R) : 0 < a ->
  (forall (X : 'M[real_sf]_(N, p.+1)) S, (forall i, row i X != 0) -> student_solution a X S ->
     [/\ forall U, exists D, forall D', student_change a X S U D' <-> D' = D,
         forall (r : R) U U' D D', student_change a X S U D -> student_change a X S U' D' -> student_change a X S (@ofR real_sf r *: U + U') (@ofR real_sf r *: D + D') &
         forall e : R, 0 < e -> exists2 d : R, 0 < d & forall Y T D, fro (Y - X) <= d -> student_solution a Y T -> student_change a X S (Y - X) D ->
           fro (T - S - D) <= e * fro (Y - X)]) /\
  (forall (X : 'M[complex_sf]_(N, p.+1)) S, (forall i, row i X != 0) -> student_solution a X S ->
     [/\ forall U, exists D, forall D', student_change a X S U D' <-> D' = D,
         forall (r : R) U U' D D', student_change a X S U D -> student_change a X S U' D' -> student_change a X S (@ofR complex_sf r *: U + U') (@ofR complex_sf r *: D + D') &
         forall e : R, 0 < e -> exists2 d : R, 0 < d & forall Y T D, fro (Y - X) <= d -> student_solution a Y T -> student_change a X S (Y - X) D ->
           fro (T - S - D) <= e * fro (Y - X)]).
Proof.
move=> a0.
have G (K : starField) (cK : compactK K) (X : 'M[K]_(N, p.+1)) S : (forall i, row i X != 0) -> student_solution a X S ->
    [/\ forall U, exists D, forall D', student_change a X S U D' <-> D' = D,
        forall (r : R) U U' D D', student_change a X S U D -> student_change a X S U' D' -> student_change a X S (@ofR K r *: U + U') (@ofR K r *: D + D') &
        forall e : R, 0 < e -> exists2 d : R, 0 < d & forall Y T D, fro (Y - X) <= d -> student_solution a Y T -> student_change a X S (Y - X) D ->
          fro (T - S - D) <= e * fro (Y - X)].
  move=> X0 sol; have N0 := spanning_N (student_spanning sol); have [t0 [C0 [t00 t01 C00 res exi]]] := student_deriv cK X0 a0 sol.
  have c0 : 0 <= (a + p.+1%:R) / N%:R by rewrite divr_ge0 ?ler0n // addr_ge0 ?ler0n // ltW.
  have fS : mstep (ratio ((a + p.+1%:R) / N%:R) a) X S = S by case: (sol) => _ {2}->.
  split=> [U|r U U' D D' /student_changeE h /student_changeE h'|e e0].
  - have [D hD] := deriv_ex cK c0 (ltW a0) X0 sol.1 fS t01 C00 res exi U; exists D => D'; split=> [/student_changeE h|->]; last exact/student_changeE.
    exact: (deriv_uniq (ltW a0) X0 sol.1 fS t00 t01 C00 res h hD).
  - by apply/student_changeE; exact: deriv_lin.
  have [d d0 h] := deriv_main cK c0 (ltW a0) X0 sol.1 fS t00 t01 C00 res e0.
  have [d1 d10 h1] := near_fro' (near_and (near_nonzero X0) (student_near a0 cK X0 sol t00)).
  exists (Num.min d d1); first by rewrite lt_minr d0.
  move=> Y T D; rewrite le_minr => /andP[y1 y2] sT /student_changeE hD; have [Y0 [T' sT' cl]] := h1 Y y2; have e' := C78_unique a0 N0 Y0 sT' sT; rewrite e' in cl.
  apply: h => //; [exact: sT.1 | by rewrite mul0r |].
  have -> : mstep (ratio ((a + p.+1%:R) / N%:R) a) Y T = T by case: (sT) => _ {2}->.
  by rewrite subrr fro0 mulr_ge0 ?fro_ge0 // ltW.
split=> X S; [exact: (G _ real_compact) | exact: (G _ complex_compact)].
Qed.
(* the same for the results of the functions whose last relative change is negligible before the displacement *)
Theorem C124_student_results N p (df : R) : 0 < df ->
  (forall (X : 'M[real_sf]_(N, p.+1)) S init, (forall i, row i X != 0) -> student_solution (df / 2%:R) X S -> (forall s0, init = Some s0 -> pd s0) ->
     forall e : R, 0 < e -> exists n, exists2 d : R, 0 < d & forall eigh Y tol m s x k D, eigh_ok eigh -> fro (Y - X) <= d ->
       student_t_mle_fixed_point eigh Y df init tol m = Some (Ok (s, Fin x, k)) -> (n <= k)%N -> x <= d * fro (Y - X) -> student_change (df / 2%:R) X S (Y - X) D ->
       fro (s - S - D) <= e * fro (Y - X)) /\
  (forall (X : 'M[complex_sf]_(N, p.+1)) S init, (forall i, row i X != 0) -> student_solution df X S -> (forall s0, init = Some s0 -> pd s0) ->
     forall e : R, 0 < e -> exists n, exists2 d : R, 0 < d & forall eigh Y tol m s x k D, eigh_ok eigh -> fro (Y - X) <= d ->
       complex_student_t_mle_fixed_point eigh Y df init tol m = Some (Ok (s, Fin x, k)) -> (n <= k)%N -> x <= d * fro (Y - X) -> student_change df X S (Y - X) D ->
       fro (s - S - D) <= e * fro (Y - X)).
Proof.
move=> d0.
have G (K : starField) (cK : compactK K) (a : R) (X : 'M[K]_(N, p.+1)) S s0 (e : R) : 0 < a -> (forall i, row i X != 0) -> student_solution a X S -> start X s0 -> 0 < e ->
    exists n, exists2 d : R, 0 < d & forall Y, fro (Y - X) <= d -> spanning Y /\ forall k, (n <= k)%N -> forall v s D, v = iter k (mstep (stu_w N p.+1 a) Y) (s0 Y) ->
      s = iter k.+1 (mstep (stu_w N p.+1 a) Y) (s0 Y) -> fro (s - v) / fro v <= d * fro (Y - X) -> student_change a X S (Y - X) D -> fro (s - S - D) <= e * fro (Y - X).
  move=> a0 X0 sol st e0; have N0 := spanning_N (student_spanning sol); have [t0 [C0 [t00 t01 C00 res exi]]] := student_deriv cK X0 a0 sol.
  have c0 : 0 <= (a + p.+1%:R) / N%:R by rewrite divr_ge0 ?ler0n // addr_ge0 ?ler0n // ltW.
  have fS : mstep (ratio ((a + p.+1%:R) / N%:R) a) X S = S by case: (sol) => _ {2}->.
  have [d dp h] := deriv_main cK c0 (ltW a0) X0 sol.1 fS t00 t01 C00 res e0.
  have [n hn] := student_start_runs X0 a0 sol t00 st; have [C Cp hC] := next_change N (@stu_subhom N p a a0 N0) sol.1 t00 t01.
  have [d1 d1p h1] := near_fro' (near_and (near_nonzero X0) (near_and st.1 (near_and (student_near a0 cK X0 sol t00) hn))).
  have C1 : 0 < C + 1 by rewrite ltr_spaddr ?ltr01.
  exists n, (Num.min (Num.min d d1) (d / (C + 1))); first by rewrite !lt_minr dp d1p divr_gt0.
  move=> Y; rewrite !le_minr => /andP[/andP[y1 y2] y3]; have [Y0 [pY [[T sT _] hk]]] := h1 Y y2; have sp := student_spanning sT.
  have pk k : pd (iter k (mstep (stu_w N p.+1 a) Y) (s0 Y)) by elim: k => //= j; exact: student_mstep_pd.
  split=> // k nk v s D ev es le /student_changeE hD; have nk' := leq_trans nk (leqnSn k).
  have ps : pd s by rewrite es. have pv : pd v by rewrite ev.
  have cs : close t0 s S by rewrite es; apply: hk.
  have cv : close t0 v S by rewrite ev; apply: hk.
  apply: h => //; first by rewrite mul0r.
  have es' : s = mstep (stu_w N p.+1 a) Y v by rewrite es ev.
  apply: le_trans (hC Y v s Y0 pv ps cv cs es') _; apply: le_trans (ler_wpmul2l Cp le) _.
  rewrite mulrA; apply: ler_wpmul2r; first exact: fro_ge0.
  apply: le_trans (_ : (C + 1) * (d / (C + 1)) <= _); last by rewrite mulrCA divff ?mulr1 // gt_eqF.
  apply: ler_pmul => //; [by rewrite !le_minr !ltW //= divr_gt0 | by rewrite ler_addl ler01 | by rewrite !le_minl lexx !orbT].
have sl (K : starField) (cK : compactK K) (a : R) (X : 'M[K]_(N, p.+1)) S init : 0 < a -> (forall i, row i X != 0) -> student_solution a X S ->
    (forall s0, init = Some s0 -> pd s0) -> start X (fun Y => if init is Some s0 then s0 else wsum (fun=> N%:R^-1) Y).
  case: init => [s0|] a0 X0 sol pi; first exact/start_const/pi.
  apply: start_mean_of; first exact: spanning_N (student_spanning sol).
  by apply: near_imp (student_near a0 cK X0 sol ltr01) => Y [T sT _]; exact: student_spanning sT.
split=> X S init X0 sol pi e e0.
  have [n [d dp h]] := G _ real_compact _ X S _ e (half_pos d0) X0 sol (sl _ real_compact _ X S init (half_pos d0) X0 sol pi) e0; exists n.+1, d => // eigh Y tol m s x [//|k] D ok /h [sp hk].
  move=> /(real_student_run ok d0 sp pi) [step [a b c sw]] nk; have := run_change a b c sw; have := hk k nk _ _ D (erefl _) (erefl _); rewrite (run_iter a b c sw) => hh [->].
  by move: hh; case: (init) => [s1|] //; rewrite /real_init real_init_none.
have [n [d dp h]] := G _ complex_compact _ X S _ e d0 X0 sol (sl _ complex_compact _ X S init d0 X0 sol pi) e0; exists n.+1, d => // eigh Y tol m s x [//|k] D ok /h [sp hk].
move=> /(complex_student_run ok d0 sp pi) [step [a b c sw]] nk; have := run_change a b c sw; have := hk k nk _ _ D (erefl _) (erefl _); rewrite (run_iter a b c sw) => hh [->].
by move: hh; case: (init) => [s1|] //; rewrite /complex_init complex_init_none.
Qed.
(* Tyler's estimate is defined up to a factor; with the trace fixed it is differentiable too *)
Theorem C124_tyler N p : (0 < N)%N ->
  (forall (X : 'M[real_sf]_(N, p.+1)) S, (forall i, row i X != 0) -> tyler_condition X -> tyler_solution X S ->
     [/\ forall U, exists D, forall D', tyler_change X S U D' <-> D' = D,
         forall (r : R) U U' D D', tyler_change X S U D -> tyler_change X S U' D' -> tyler_change X S (@ofR real_sf r *: U + U') (@ofR real_sf r *: D + D') &
         forall e : R, 0 < e -> exists2 d : R, 0 < d & forall Y T D, fro (Y - X) <= d -> tyler_solution Y T -> \tr T = \tr S -> tyler_change X S (Y - X) D ->
           fro (T - S - D) <= e * fro (Y - X)]) /\
  (forall (X : 'M[complex_sf]_(N, p.+1)) S, (forall i, row i X != 0) -> tyler_condition X -> tyler_solution X S ->
     [/\ forall U, exists D, forall D', tyler_change X S U D' <-> D' = D,
         forall (r : R) U U' D D', tyler_change X S U D -> tyler_change X S U' D' -> tyler_change X S (@ofR complex_sf r *: U + U') (@ofR complex_sf r *: D + D') &
         forall e : R, 0 < e -> exists2 d : R, 0 < d & forall Y T D, fro (Y - X) <= d -> tyler_solution Y T -> \tr T = \tr S -> tyler_change X S (Y - X) D ->
           fro (T - S - D) <= e * fro (Y - X)]).
Proof.
move=> N0.
have G (K : starField) (cK : compactK K) (X : 'M[K]_(N, p.+1)) S : (forall i, row i X != 0) -> tyler_condition X -> tyler_solution X S ->
    [/\ forall U, exists D, forall D', tyler_change X S U D' <-> D' = D,
        forall (r : R) U U' D D', tyler_change X S U D -> tyler_change X S U' D' -> tyler_change X S (@ofR K r *: U + U') (@ofR K r *: D + D') &
        forall e : R, 0 < e -> exists2 d : R, 0 < d & forall Y T D, fro (Y - X) <= d -> tyler_solution Y T -> \tr T = \tr S -> tyler_change X S (Y - X) D ->
          fro (T - S - D) <= e * fro (Y - X)].
  move=> X0 cond sol; have [t0 [C0 [t00 t01 C00 res exi]]] := tyler_deriv cK X0 N0 cond sol.
  have c0 : 0 <= p.+1%:R / N%:R :> R by rewrite divr_ge0 ?ler0n.
  have fS : mstep (ratio (p.+1%:R / N%:R) 0) X S = S by rewrite -tylE; case: (sol) => _ {2}->.
  split=> [U|r U U' D D' /tyler_changeE h /tyler_changeE h'|e e0].
  - have [D hD] := deriv_ex cK c0 (lexx 0) X0 sol.1 fS t01 C00 res exi U; exists D => D'; split=> [/tyler_changeE h|->]; last exact/tyler_changeE.
    exact: (deriv_uniq (lexx 0) X0 sol.1 fS t00 t01 C00 res h hD).
  - by apply/tyler_changeE; exact: deriv_lin.
  have [d d0 h] := deriv_main cK c0 (lexx 0) X0 sol.1 fS t00 t01 C00 res e0; have [f f0 hf] := small2 t00.
  have [d1 d10 h1] := near_fro' (tyler_near cK X0 N0 sol cond f0).
  exists (Num.min d d1); first by rewrite lt_minr d0.
  move=> Y T D; rewrite le_minr => /andP[y1 y2] sT eT /tyler_changeE hD; have [c cp cl] := h1 Y y2 T sT.
  apply: h => //; [exact: sT.1 | | by rewrite mul1r raddfB /= eT subrr |].
    apply: close_le hf _; [exact: pd_psd sT.1 | exact: pd_psd sol.1 |]; have ci : 0 < c^-1 by rewrite invr_gt0.
    apply: (close_unit sT.1 sol.1 ci (ltW f0) _ eT); have := close_scale (ltW ci) cl.
    by rewrite scalerA -rmorphM mulVf ?gt_eqF // (rmorph1 (@Star.ofR K)) scale1r.
  have -> : mstep (ratio (p.+1%:R / N%:R) 0) Y T = T by rewrite -tylE; case: (sT) => _ {2}->.
  by rewrite subrr fro0 mulr_ge0 ?fro_ge0 // ltW.
split=> X S; [exact: (G _ real_compact) | exact: (G _ complex_compact)].
Qed.
(* the same for the results normalised by their trace *)
Theorem C124_tyler_results N p : (0 < N)%N ->
  (forall (X : 'M[real_sf]_(N, p.+1)) S init, (forall i, row i X != 0) -> tyler_condition X -> tyler_solution X S -> \tr S = p.+1%:R -> (forall s0, init = Some s0 -> pd s0) ->
     forall e : R, 0 < e -> exists n, exists2 d : R, 0 < d & forall eigh Y tol m s x k D, eigh_ok eigh -> fro (Y - X) <= d ->
       tyler_shape_matrix_fixedpoint eigh Y init tol m "trace" = Some (Ok (s, Fin x, k)) -> (n <= k)%N -> x <= d * fro (Y - X) -> tyler_change X S (Y - X) D ->
       fro (s - S - D) <= e * fro (Y - X)) /\
  (forall (X : 'M[complex_sf]_(N, p.+1)) S init, (forall i, row i X != 0) -> tyler_condition X -> tyler_solution X S -> \tr S = p.+1%:R -> (forall s0, init = Some s0 -> pd s0) ->
     forall e : R, 0 < e -> exists n, exists2 d : R, 0 < d & forall eigh Y tol m s x k D, eigh_ok eigh -> fro (Y - X) <= d ->
       complex_tyler_shape_matrix_fixedpoint eigh Y init tol m "trace" = Some (Ok (s, Fin x, k)) -> (n <= k)%N -> x <= d * fro (Y - X) -> tyler_change X S (Y - X) D ->
       fro (s - S - D) <= e * fro (Y - X)).
Proof.
move=> N0.
have G (K : starField) (cK : compactK K) (X : 'M[K]_(N, p.+1)) S s0 (e : R) : (forall i, row i X != 0) -> tyler_condition X -> tyler_solution X S -> \tr S = p.+1%:R ->
    start X s0 -> 0 < e -> exists n, exists2 d : R, 0 < d & forall Y, fro (Y - X) <= d -> [/\ spanning Y, forall i, row i Y != 0 & forall k, (n <= k)%N -> forall v s D,
      v = iter k (mstep (tyl_w N p.+1) Y) (s0 Y) -> s = iter k.+1 (mstep (tyl_w N p.+1) Y) (s0 Y) -> fro (s - v) / fro v <= d * fro (Y - X) ->
      tyler_change X S (Y - X) D -> fro (normalised "trace" s - S - D) <= e * fro (Y - X)].
  move=> X0 cond sol eS st e0; have [t0 [C0 [t00 t01 C00 res exi]]] := tyler_deriv cK X0 N0 cond sol.
  have c0 : 0 <= p.+1%:R / N%:R :> R by rewrite divr_ge0 ?ler0n.
  have fS : mstep (ratio (p.+1%:R / N%:R) 0) X S = S by rewrite -tylE; case: (sol) => _ {2}->.
  have [d dp h] := deriv_main cK c0 (lexx 0) X0 sol.1 fS t00 t01 C00 res e0.
  have [f f0 hf] := small2 t00; have f1 : f <= 1.
    apply: le_trans t01; apply: le_trans hf; rewrite ler_subr_addl; apply: ler_pemull; by rewrite ?ler_addl ?addr_ge0 ?ler01 ?(ltW f0).
  have [L sL hL] := tyler_near_runs cK X0 N0 sol cond st; have [n hn] := hL f f0; have [c cp eL] := tyler_unique N0 X0 (tyler_irreducible X0 N0 cond) sol sL.
  have [C Cp hC] := next_change N (tyl_subhom p N0) sL.1 f0 f1.
  have [d1 d1p h1] := near_fro' (near_and st.1 (near_and (near_spanning X0 N0 cond) hn)).
  pose B := 2%:R * tau S L; have Bp : 0 <= B by rewrite mulr_ge0 ?ler0n // ltW //; exact: (tau_gt0 sol sL.1).
  have C1 : 0 < B * C + 1 by rewrite ltr_spaddr ?ltr01 // mulr_ge0.
  exists n, (Num.min (Num.min d d1) (d / (B * C + 1))); first by rewrite !lt_minr dp d1p divr_gt0.
  move=> Y; rewrite !le_minr => /andP[/andP[y1 y2] y3]; have [pY [[Y0 sp] hk]] := h1 Y y2.
  have pk k : pd (iter k (mstep (tyl_w N p.+1) Y) (s0 Y)) by elim: k => //= j; exact: tyl_pd.
  split=> // k nk v s D ev es le /tyler_changeE hD; have nk' := leq_trans nk (leqnSn k).
  have ps : pd s by rewrite es. have pv : pd v by rewrite ev.
  have cs : close f s L by rewrite es; apply: hk.
  have cv : close f v L by rewrite ev; apply: hk.
  have kp := tau_gt0 sol ps; have pn : pd (@ofR K (tau S s) *: s) by apply: pdZ => //; rewrite ofR_gt0.
  rewrite (tau_normalised eS ps); apply: h => //.
  + apply: close_le hf _; [exact: pd_psd | exact: pd_psd sol.1 |]; by apply: (tau_close sol ps cp (ltW f0)); rewrite -eL.
  + by rewrite mul1r raddfB /= (tau_tr sol ps) subrr.
  have es' : s = mstep (tyl_w N p.+1) Y v by rewrite es ev.
  rewrite -tylE (tylZ _ kp ps) -scalerBr froZ ?(ltW kp) //.
  have h2 : fro (mstep (tyl_w N p.+1) Y s - s) <= C * (Num.min (Num.min d d1) (d / (B * C + 1)) * fro (Y - X)).
    apply: le_trans (hC Y v s Y0 pv ps cv cs es') _; exact: (ler_wpmul2l Cp le).
  apply: le_trans (ler_pmul (ltW kp) (fro_ge0 _) (tau_le sol ps sL.1 f1 cs) h2) _; rewrite -/B !mulrA; apply: ler_wpmul2r; first exact: fro_ge0.
  apply: le_trans (_ : (B * C + 1) * (d / (B * C + 1)) <= _); last by rewrite mulrCA divff ?mulr1 // gt_eqF.
  apply: ler_pmul => //; [exact: mulr_ge0 | by rewrite !le_minr !ltW //= divr_gt0 | by rewrite ler_addl ler01 | by rewrite !le_minl lexx !orbT].
have sl (K : starField) (X : 'M[K]_(N, p.+1)) init : (forall i, row i X != 0) -> tyler_condition X -> (forall s0, init = Some s0 -> pd s0) ->
    start X (fun Y => if init is Some s0 then s0 else wsum (fun=> N%:R^-1) Y).
  by case: init => [s0|] X0 cond pi; [apply/start_const/pi | exact: start_mean].
split=> X S init X0 cond sol eS pi e e0.
  have [n [d dp h]] := G _ real_compact X S _ e X0 cond sol eS (sl _ X init X0 cond pi) e0; exists n.+1, d => // eigh Y tol m s x [//|k] D ok /h [sp Y0 hk].
  move=> /(real_tyler_run ok Y0 sp pi) [step [v [-> a b c sw]]] nk; have := run_change a b c sw; have := hk k nk _ _ D (erefl _) (erefl _); rewrite (run_iter a b c sw) => hh [->].
  by move: hh; case: (init) => [s1|] //; rewrite /real_init real_init_none.
have [n [d dp h]] := G _ complex_compact X S _ e X0 cond sol eS (sl _ X init X0 cond pi) e0; exists n.+1, d => // eigh Y tol m s x [//|k] D ok /h [sp Y0 hk].
move=> /(complex_tyler_run ok Y0 sp pi) [step [v [-> a b c sw]]] nk; have := run_change a b c sw; have := hk k nk _ _ D (erefl _) (erefl _); rewrite (run_iter a b c sw) => hh [->].
by move: hh; case: (init) => [s1|] //; rewrite /complex_init complex_init_none.
Qed.
Example C124_hypotheses (K : starField) (a : R) : 0 < a -> exists (X : 'M[K]_(3, 2)) S T,
  [/\ forall i, row i X != 0, tyler_condition X, tyler_solution X S /\ \tr S = 2%:R & student_solution a X T].
Proof.
move=> a0; have [X [S [T [X0 cond sS sT]]]] := C109_hypotheses K a0.
exists X, (@ofR K (2%:R / @toR K (\tr S)) *: S), T; have g := toR_gt0 (pd_tr_gt0 sS.1); split=> //; split.
  by apply: tyler_solution_scale => //; rewrite divr_gt0 ?ltr0n.
rewrite mxtraceZ -{2}(toR_ofR_gt0 (pd_tr_gt0 sS.1)) -rmorphM divfK ?gt_eqF //; exact: ofR_nat.
Qed.
Print Assumptions C124_student.
Print Assumptions C124_student_results.
Print Assumptions C124_tyler.
Print Assumptions C124_tyler_results.
Print Assumptions C124_hypotheses.
