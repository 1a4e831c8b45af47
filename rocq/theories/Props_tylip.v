(* The estimates of Tyler and Student move at most proportionally to a perturbation of the samples: C109. *)
From Coq Require Import Reals String Lra Classical_Prop.
From mathcomp Require Import all_ssreflect all_algebra.
From mathcomp Require Import complex zify.
From Verif Require Import RealsMC RealTac RealTac2 Star StarInst FunCalc Model_featurearray Model_linalg Proofs_linalg Props_linalg
  Model_covariance Spec_covariance Spec_fixedpoint Spec_exist Model_estimators Proofs_mest Proofs_loop Proofs_covariance Proofs_estimators
  Props_covariance Proofs_cost Props_cost Props_robust Proofs_unique Proofs_unique2 Props_unique Compact Proofs_converge Props_converge
  Proofs_exist Proofs_exist2 Props_exist Proofs_stable Proofs_stable2 Props_stable Proofs_tycont Props_tycont Proofs_tyrate Props_tyrate Proofs_tylip.
Set Implicit Arguments.
Unset Strict Implicit.
Unset Printing Implicit Defensive.
Local Open Scope ring_scope.
Import GRing.Theory Num.Theory Order.TTheory.

Section Core.
Variable K : starField.
Local Notation ofR := (@ofR K).
Variables (N p : nat).
Implicit Types (X Y : 'M[K]_(N, p.+1)) (S T v s : 'M[K]_p.+1).
(* the changes between matrices near S *)
Lemma change_le v s S (t : R) : pd v -> pd s -> pd S -> 0 <= t <= 1 -> close t v S -> close t s S -> fro (s - v) / fro v <= 4%:R.
Proof.
move=> pv ps pS t01 cv cs; have /andP[t0 t1] := t01; have fv : 0 < fro v by rewrite lt_def (pd_fro pv) fro_ge0.
rewrite ler_pdivr_mulr //; apply: le_trans (close_fro_sum ps pv pS t0 cs cv) _; have h := close_froS pS pv t01 (close_sym cv).
apply: le_trans (_ : 2%:R * fro S <= _).
  by apply: ler_wpmul2r; [exact: fro_ge0 | apply: ler_pimulr => //; exact: ler0n].
have -> : 4%:R * fro v = 2%:R * (2%:R * fro v) by rewrite mulrA -natrM.
by apply: ler_wpmul2l => //; exact: ler0n.
Qed.
Section Tyler.
Variables (X : 'M[K]_(N, p.+1)) (Sol : 'M[K]_p.+1).
Hypotheses (cK : compactK K) (X0 : forall i, row i X != 0) (N0 : (0 < N)%N) (cond : tyler_condition X) (sol : tyler_solution X Sol).
Lemma tyl_lip : exists t0 C : R, [/\ 0 < t0, t0 <= 1, 0 <= C & near_data X (fun Y => forall v s nrm, scaling_norm nrm -> pd v -> pd s -> close t0 v Sol -> close t0 s Sol ->
  s = mstep (tyl_w N p.+1) Y v -> near (C * (fro (Y - X) + fro (s - v) / fro v)) (normalised nrm Sol) (normalised nrm s))].
Proof.
have irr := tyler_irreducible X0 N0 cond; have pS := sol.1.
have c0 : 0 <= p.+1%:R / N%:R :> R by rewrite divr_ge0 ?ler0n.
have ew q : tyl_w N p.+1 q = ratio (p.+1%:R / N%:R) 0 q by rewrite /ratio add0r /tyl_w.
have [t0 [C [t00 t01 C0 h]]] := lip_generic ew c0 (lexx 0) (tyl_subhom p N0) X0 pS (fun l h => h) (tyl_resid cK X0 irr sol).
exists t0, (2%:R * C + C * C * 5%:R); split=> //; first by rewrite addr_ge0 ?mulr_ge0 ?ler0n.
have n1 : near_data X (fun Y => fro (Y - X) <= 1).
  by exists 1 => [|Y]; [exact: ltr01 | rewrite -fro_sq -[X in _ <= X](expr1n _ 2) ler_sqr ?nnegrE ?fro_ge0 ?ler01].
apply: near_imp (near_and n1 h) => Y [d1 {}h] v s nrm hn pv ps cv cs es; have [l l0 cl] := h v s pv ps cv cs es.
have pl : pd (ofR l *: Sol) by apply: pdZ => //; rewrite ofR_gt0.
have t0' : 0 <= t0 <= 1 by rewrite ltW.
pose z := fro (Y - X) + fro (s - v) / fro v; have z0 : 0 <= z by rewrite addr_ge0 ?divr_ge0 ?fro_ge0.
have z5 : z <= 5%:R by rewrite -[5%:R]/((1 + 4)%:R) natrD; apply: ler_add => //; exact: change_le t0' cv cs.
have -> : normalised nrm Sol = normalised nrm (ofR l *: Sol) by rewrite (same_normalised hn pS (T := ofR l *: Sol)) //; exists l.
apply: near_le (close_near nrm _ ps pl cl); last by rewrite mulr_ge0.
exact: quad_bound.
Qed.
End Tyler.
Section Student.
Variables (a : R) (X : 'M[K]_(N, p.+1)) (Sol : 'M[K]_p.+1).
Hypotheses (cK : compactK K) (X0 : forall i, row i X != 0) (a0 : 0 < a) (sol : student_solution a X Sol).
Lemma stu_lip : exists t0 C : R, [/\ 0 < t0, t0 <= 1, 0 <= C & near_data X (fun Y => forall v s, pd v -> pd s -> close t0 v Sol -> close t0 s Sol ->
  s = mstep (stu_w N p.+1 a) Y v -> near (C * (fro (Y - X) + fro (s - v) / fro v)) Sol s)].
Proof.
have N0 := spanning_N (student_spanning sol); have pS := sol.1.
have c0 : 0 <= (a + p.+1%:R) / N%:R by rewrite divr_ge0 ?ler0n // addr_ge0 ?ler0n // ltW.
have ew q : stu_w N p.+1 a q = ratio ((a + p.+1%:R) / N%:R) a q by rewrite /ratio /stu_w mulrAC.
have h1 (l : R) : l = 1 -> 0 < l by move=> ->; exact: ltr01.
have [t0 [C [t00 t01 C0 h]]] := lip_generic ew c0 (ltW a0) (@stu_subhom N p a a0 N0) X0 pS h1 (stu_resid cK X0 a0 sol).
exists t0, C; split=> //; apply: near_imp h => Y h v s pv ps cv cs es; have [l -> cl] := h v s pv ps cv cs es.
move: cl; rewrite (rmorph1 (@Star.ofR K)) scale1r => -[u1 u2]; apply: loewner_fro => //.
by rewrite mulr_ge0 // addr_ge0 ?divr_ge0 ?fro_ge0.
Qed.
End Student.
End Core.

(* The normalised solutions of Tyler's equation for samples near X differ from those for X by at most C times the
   distance of the samples *)
Theorem C109_tyler_lipschitz N p nrm : (0 < N)%N -> scaling_norm nrm ->
  (forall (X : 'M[real_sf]_(N, p.+1)) S, (forall i, row i X != 0) -> tyler_condition X -> tyler_solution X S ->
     exists2 d : R, 0 < d & exists2 C : R, 0 <= C & forall Y T, fro (Y - X) <= d -> tyler_solution Y T ->
       fro (normalised nrm T - normalised nrm S) <= C * fro (Y - X) * fro (normalised nrm S)) /\
  (forall (X : 'M[complex_sf]_(N, p.+1)) S, (forall i, row i X != 0) -> tyler_condition X -> tyler_solution X S ->
     exists2 d : R, 0 < d & exists2 C : R, 0 <= C & forall Y T, fro (Y - X) <= d -> tyler_solution Y T ->
       fro (normalised nrm T - normalised nrm S) <= C * fro (Y - X) * fro (normalised nrm S)).
Proof.
move=> N0 hn.
have G (K : starField) (cK : compactK K) (X : 'M[K]_(N, p.+1)) S : (forall i, row i X != 0) -> tyler_condition X -> tyler_solution X S ->
     exists2 d : R, 0 < d & exists2 C : R, 0 <= C & forall Y T, fro (Y - X) <= d -> tyler_solution Y T ->
       fro (normalised nrm T - normalised nrm S) <= C * fro (Y - X) * fro (normalised nrm S).
  move=> X0 cond sol; have [t0 [C [t00 t01 C0 h]]] := tyl_lip cK X0 N0 cond sol.
  have [d d0 hd] := near_fro (near_and (near_nonzero X0) (near_and h (tyler_near cK X0 N0 sol cond t00))); exists d => //; exists C => // Y T le sT.
  have [Y0 [{}h nT]] := hd Y le; have [c c0 cl] := nT T sT; have sc := tyler_solution_scale c0 sT.
  have -> : normalised nrm T = normalised nrm (@ofR K c *: T) by rewrite (same_normalised hn sT.1 (T := @ofR K c *: T)) //; exists c.
  have := h _ _ nrm hn sc.1 sc.1 cl cl sc.2; by rewrite subrr fro0 mul0r addr0.
split=> X; [exact: (G _ real_compact) | exact: (G _ complex_compact)].
Qed.
(* so do the results of the functions, up to the change reported with them, after enough updates; how many does not
   depend on the perturbation *)
Theorem C109_tyler_results N p : (0 < N)%N ->
  (forall (X : 'M[real_sf]_(N, p.+1)) init, (forall i, row i X != 0) -> tyler_condition X -> (forall s0, init = Some s0 -> pd s0) ->
     exists2 L, tyler_solution X L & exists n (e C : R), [/\ 0 < e, 0 <= C & forall nrm eigh Y tol m s x k, scaling_norm nrm -> eigh_ok eigh -> fro (Y - X) <= e ->
       tyler_shape_matrix_fixedpoint eigh Y init tol m nrm = Some (Ok (s, Fin x, k)) -> (n <= k)%N ->
       fro (s - normalised nrm L) <= C * (fro (Y - X) + x) * fro (normalised nrm L)]) /\
  (forall (X : 'M[complex_sf]_(N, p.+1)) init, (forall i, row i X != 0) -> tyler_condition X -> (forall s0, init = Some s0 -> pd s0) ->
     exists2 L, tyler_solution X L & exists n (e C : R), [/\ 0 < e, 0 <= C & forall nrm eigh Y tol m s x k, scaling_norm nrm -> eigh_ok eigh -> fro (Y - X) <= e ->
       complex_tyler_shape_matrix_fixedpoint eigh Y init tol m nrm = Some (Ok (s, Fin x, k)) -> (n <= k)%N ->
       fro (s - normalised nrm L) <= C * (fro (Y - X) + x) * fro (normalised nrm L)]).
Proof.
move=> N0.
have G (K : starField) (cK : compactK K) (X : 'M[K]_(N, p.+1)) s0 : (forall i, row i X != 0) -> tyler_condition X -> start X s0 ->
    exists2 L, tyler_solution X L & exists n (e C : R), [/\ 0 < e, 0 <= C & forall Y, fro (Y - X) <= e ->
      [/\ spanning Y, forall i, row i Y != 0 & forall nrm k, scaling_norm nrm -> (n <= k)%N -> forall v s, v = iter k (mstep (tyl_w N p.+1) Y) (s0 Y) -> s = iter k.+1 (mstep (tyl_w N p.+1) Y) (s0 Y) ->
       
         fro (normalised nrm s - normalised nrm L) <= C * (fro (Y - X) + fro (s - v) / fro v) * fro (normalised nrm L)]].
  move=> X0 cond st; have [S sol] := tyler_exists cK X0 N0 cond; have [L sL hL] := tyler_near_runs cK X0 N0 sol cond st; exists L => //.
  have [t0 [C [t00 t01 C0 h]]] := tyl_lip cK X0 N0 cond sL; have [n hn] := hL t0 t00.
  have [e e0 he] := near_fro (near_and st.1 (near_and (near_spanning X0 N0 cond) (near_and h hn))); exists n, e, C; split=> // Y /he [pY [[Y0 sp] [{}h hk]]].
  have pk k : pd (iter k (mstep (tyl_w N p.+1) Y) (s0 Y)) by elim: k => //= j; exact: tyl_pd.
  split=> // nrm k sn nk v s -> ->; apply: (h _ _ nrm sn (pk k) (pk k.+1) _ _ (erefl _)); first exact: hk.
  by apply: hk; exact: leq_trans nk (leqnSn k).
have sl (K : starField) (X : 'M[K]_(N, p.+1)) init : (forall i, row i X != 0) -> tyler_condition X -> (forall s0, init = Some s0 -> pd s0) ->
    start X (fun Y => if init is Some s0 then s0 else wsum (fun=> N%:R^-1) Y).
  by case: init => [s0|] X0 cond pi; [apply/start_const/pi | exact: start_mean].
split=> X init X0 cond pi.
  have [L sL [n [e [C [e0 C0 h]]]]] := G _ real_compact X _ X0 cond (sl _ X init X0 cond pi); exists L => //; exists n.+1, e, C; split=> // nrm eigh Y tol m s x [//|k] sn ok /h [sp Y0 hk].
  move=> /(real_tyler_run ok Y0 sp pi) [step [v [-> a b c sw]]] nk; have := run_change a b c sw; have := hk nrm k sn nk _ _ (erefl _) (erefl _); rewrite (run_iter a b c sw) => hh [->].
  by move: hh; case: (init) => [s1|] //; rewrite /real_init real_init_none.
have [L sL [n [e [C [e0 C0 h]]]]] := G _ complex_compact X _ X0 cond (sl _ X init X0 cond pi); exists L => //; exists n.+1, e, C; split=> // nrm eigh Y tol m s x [//|k] sn ok /h [sp Y0 hk].
move=> /(complex_tyler_run ok Y0 sp pi) [step [v [-> a b c sw]]] nk; have := run_change a b c sw; have := hk nrm k sn nk _ _ (erefl _) (erefl _); rewrite (run_iter a b c sw) => hh [->].
by move: hh; case: (init) => [s1|] //; rewrite /complex_init complex_init_none.
Qed.
(* Student's estimate is not defined up to a factor, and no normalisation is needed *)
Theorem C109_student_lipschitz N p (a : R) : 0 < a ->
  (forall (X : 'M[real_sf]_(N, p.+1)) S, (forall i, row i X != 0) -> student_solution a X S ->
     exists2 d : R, 0 < d & exists2 C : R, 0 <= C & forall Y T, fro (Y - X) <= d -> student_solution a Y T -> fro (T - S) <= C * fro (Y - X) * fro S) /\
  (forall (X : 'M[complex_sf]_(N, p.+1)) S, (forall i, row i X != 0) -> student_solution a X S ->
     exists2 d : R, 0 < d & exists2 C : R, 0 <= C & forall Y T, fro (Y - X) <= d -> student_solution a Y T -> fro (T - S) <= C * fro (Y - X) * fro S).
Proof.
move=> a0.
have G (K : starField) (cK : compactK K) (X : 'M[K]_(N, p.+1)) S : (forall i, row i X != 0) -> student_solution a X S ->
     exists2 d : R, 0 < d & exists2 C : R, 0 <= C & forall Y T, fro (Y - X) <= d -> student_solution a Y T -> fro (T - S) <= C * fro (Y - X) * fro S.
  move=> X0 sol; have [t0 [C [t00 t01 C0 h]]] := stu_lip cK X0 a0 sol; have N0 := spanning_N (student_spanning sol).
  have [d d0 hd] := near_fro (near_and (near_nonzero X0) (near_and h (student_near a0 cK X0 sol t00))); exists d => //; exists C => // Y T le sT.
  have [Y0 [{}h [T' sT' cl]]] := hd Y le; have e := C78_unique a0 N0 Y0 sT' sT; rewrite e in cl.
  have := h _ _ sT.1 sT.1 cl cl sT.2; by rewrite subrr fro0 mul0r addr0.
split=> X; [exact: (G _ real_compact) | exact: (G _ complex_compact)].
Qed.
Theorem C109_student_results N p (df : R) : 0 < df ->
  (forall (X : 'M[real_sf]_(N, p.+1)) S init, (forall i, row i X != 0) -> student_solution (df / 2%:R) X S -> (forall s0, init = Some s0 -> pd s0) ->
     exists n (e C : R), [/\ 0 < e, 0 <= C & forall eigh Y tol m s x k, eigh_ok eigh -> fro (Y - X) <= e ->
       student_t_mle_fixed_point eigh Y df init tol m = Some (Ok (s, Fin x, k)) -> (n <= k)%N -> fro (s - S) <= C * (fro (Y - X) + x) * fro S]) /\
  (forall (X : 'M[complex_sf]_(N, p.+1)) S init, (forall i, row i X != 0) -> student_solution df X S -> (forall s0, init = Some s0 -> pd s0) ->
     exists n (e C : R), [/\ 0 < e, 0 <= C & forall eigh Y tol m s x k, eigh_ok eigh -> fro (Y - X) <= e ->
       complex_student_t_mle_fixed_point eigh Y df init tol m = Some (Ok (s, Fin x, k)) -> (n <= k)%N -> fro (s - S) <= C * (fro (Y - X) + x) * fro S]).
Proof.
move=> d0.
have G (K : starField) (cK : compactK K) (a : R) (X : 'M[K]_(N, p.+1)) S s0 : 0 < a -> (forall i, row i X != 0) -> student_solution a X S -> start X s0 ->
    exists n (e C : R), [/\ 0 < e, 0 <= C & forall Y, fro (Y - X) <= e -> spanning Y /\ forall k, (n <= k)%N -> forall v s, v = iter k (mstep (stu_w N p.+1 a) Y) (s0 Y) -> s = iter k.+1 (mstep (stu_w N p.+1 a) Y) (s0 Y) ->
        fro (s - S) <= C * (fro (Y - X) + fro (s - v) / fro v) * fro S].
  move=> a0 X0 sol st; have [t0 [C [t00 t01 C0 h]]] := stu_lip cK X0 a0 sol; have [n hn] := student_start_runs X0 a0 sol t00 st.
  have [e e0 he] := near_fro (near_and st.1 (near_and (student_near a0 cK X0 sol t00) (near_and h hn))); exists n, e, C; split=> // Y /he [pY [[T sT _] [{}h hk]]].
  have sp := student_spanning sT; have pk k : pd (iter k (mstep (stu_w N p.+1 a) Y) (s0 Y)) by elim: k => //= j; exact: student_mstep_pd.
  split=> // k nk v s -> ->; apply: (h _ _ (pk k) (pk k.+1) _ _ (erefl _)); first exact: hk.
  by apply: hk; exact: leq_trans nk (leqnSn k).
have sl (K : starField) (cK : compactK K) (a : R) (X : 'M[K]_(N, p.+1)) S init : 0 < a -> (forall i, row i X != 0) -> student_solution a X S ->
    (forall s0, init = Some s0 -> pd s0) -> start X (fun Y => if init is Some s0 then s0 else wsum (fun=> N%:R^-1) Y).
  case: init => [s0|] a0 X0 sol pi; first exact/start_const/pi.
  apply: start_mean_of; first exact: spanning_N (student_spanning sol).
  by apply: near_imp (student_near a0 cK X0 sol ltr01) => Y [T sT _]; exact: student_spanning sT.
split=> X S init X0 sol pi.
  have [n [e [C [e0 C0 h]]]] := G _ real_compact _ X S _ (half_pos d0) X0 sol (sl _ real_compact _ X S init (half_pos d0) X0 sol pi); exists n.+1, e, C; split=> // eigh Y tol m s x [//|k] ok /h [sp hk].
  move=> /(real_student_run ok d0 sp pi) [step [a b c sw]] nk; have := run_change a b c sw; have := hk k nk _ _ (erefl _) (erefl _); rewrite (run_iter a b c sw) => hh [->].
  by move: hh; case: (init) => [s1|] //; rewrite /real_init real_init_none.
have [n [e [C [e0 C0 h]]]] := G _ complex_compact _ X S _ d0 X0 sol (sl _ complex_compact _ X S init d0 X0 sol pi); exists n.+1, e, C; split=> // eigh Y tol m s x [//|k] ok /h [sp hk].
move=> /(complex_student_run ok d0 sp pi) [step [a b c sw]] nk; have := run_change a b c sw; have := hk k nk _ _ (erefl _) (erefl _); rewrite (run_iter a b c sw) => hh [->].
by move: hh; case: (init) => [s1|] //; rewrite /complex_init complex_init_none.
Qed.
Example C109_hypotheses (K : starField) (a : R) : 0 < a -> exists (X : 'M[K]_(3, 2)) S T,
  [/\ forall i, row i X != 0, tyler_condition X, tyler_solution X S & student_solution a X T].
Proof.
move=> a0; have [X [Sol [[_ X0] irr sol sol' _]]] := C77_C79_hypotheses K a0; exists X, Sol, Sol; split=> //; exact: (tyler_necessary X0 sol irr).
Qed.

Print Assumptions C109_tyler_lipschitz.
Print Assumptions C109_tyler_results.
Print Assumptions C109_student_lipschitz.
Print Assumptions C109_student_results.
Print Assumptions C109_hypotheses.
