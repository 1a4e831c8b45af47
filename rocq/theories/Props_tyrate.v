(* Tyler's fixed point converges at a linear rate, its error is proportional to the tolerance: C108. *)
From Coq Require Import Reals String Lra Classical_Prop.
From mathcomp Require Import all_ssreflect all_algebra.
From mathcomp Require Import complex zify.
From Verif Require Import RealsMC RealTac RealTac2 Star StarInst FunCalc Model_featurearray Model_linalg Proofs_linalg Props_linalg
  Model_covariance Spec_covariance Spec_fixedpoint Model_estimators Proofs_mest Proofs_loop Proofs_covariance Proofs_estimators Props_covariance
  Proofs_cost Props_cost Props_robust Proofs_unique Proofs_unique2 Props_unique Compact Proofs_converge Props_converge Proofs_stable Proofs_stable2 Proofs_tyrate.
Set Implicit Arguments.
Unset Strict Implicit.
Unset Printing Implicit Defensive.
Local Open Scope ring_scope.
Import GRing.Theory Num.Theory Order.TTheory.

Section Core.
Variable K : starField.
Local Notation ofR := (@ofR K).
Variables (N p : nat) (X : 'M[K]_(N, p.+1)) (Sol : 'M[K]_p.+1).
Hypothesis (cK : compactK K) (X0 : forall i, row i X != 0) (irr : irreducible X) (sol : tyler_solution X Sol).
Let F := mstep (tyl_w N p.+1) X.
Let N0 : (0 < N)%N := spanning_N (tyler_spanning sol).
Let ipd k S : pd S -> pd (iter k F S).
Proof. by move=> pS; elim: k => //= k; apply: tyl_pd => //; exact: tyler_spanning sol. Qed.
Definition ch S k : R := fro (iter k.+1 F S - iter k F S) / fro (iter k F S).
Lemma close_near nrm (S L : 'M[K]_p.+1) (c : R) : 0 <= c -> pd S -> pd L -> close c S L ->
  near ((1 + c) * (1 + c) - 1) (normalised nrm L) (normalised nrm S).
Proof.
move=> c0 pS pL cl; have [h1 h2] := normalised_close nrm c0 pS pL cl; apply: loewner_fro => //; try exact: normalised_pd.
by rewrite subr_ge0 -[X in X <= _]mulr1; apply: ler_pmul; rewrite ?ler01 // ler_addl.
Qed.
Lemma near_le (e f : R) (S T : 'M[K]_p.+1) : e <= f -> near e T S -> near f T S.
Proof. by move=> ef /le_trans; apply; apply: ler_wpmul2r => //; exact: fro_ge0. Qed.
Lemma quad_bound (C x M : R) : 0 <= C -> 0 <= x -> x <= M -> (1 + C * x) * (1 + C * x) - 1 <= (2%:R * C + C * C * M) * x.
Proof.
move=> C0 x0 xM; have h : C * C * (x * x) <= C * C * (M * x) by rewrite ler_wpmul2l ?mulr_ge0 // ler_wpmul2r.
have -> : (1 + C * x) * (1 + C * x) - 1 = 2%:R * C * x + C * C * (x * x) by rfield.
by rewrite mulrDl -(mulrA (C * C)) ler_add2l.
Qed.
Lemma core : exists r : R, [/\ 0 < r, r < 1 & forall S, pd S -> exists L (C : R), [/\ tyler_solution X L, 0 <= C,
  forall k nrm, near (C * r ^+ k) (normalised nrm L) (normalised nrm (iter k F S)),
  forall k nrm, near (C * ch S k) (normalised nrm L) (normalised nrm (iter k.+1 F S)) &
  forall k, ch S k <= C * r ^+ k]].
Proof.
have [r [r0 r1 hr]] := tyl_rate cK X0 irr sol; exists r; split=> // S pS; have [L [C [sL C0 h1 h2]]] := hr S pS; have pL := sL.1.
have rk k : 0 <= r ^+ k <= 1 by rewrite exprn_ge0 ?exprn_ile1 // ltW.
have ck k : 0 <= C * r ^+ k by rewrite mulr_ge0 //; case/andP: (rk k).
have fL : 0 < fro L by rewrite lt_neqAle eq_sym (pd_fro pL) fro_ge0.
have fk k : 0 < fro (iter k F S) by rewrite lt_neqAle eq_sym (pd_fro (ipd k pS)) fro_ge0.
have ch0 k : 0 <= ch S k by rewrite divr_ge0 ?fro_ge0.
pose M := 2%:R * C * (1 + C).
have M0 : 0 <= M by rewrite !mulr_ge0 ?ler0n // addr_ge0 ?ler01.
have hc k : ch S k <= M * r ^+ k.
  rewrite /ch ler_pdivr_mulr //; have [a1 b1] := h1 k; have [a2 b2] := h1 k.+1.
  have n1 := loewner_fro (ipd k pS) pL (ck k) a1 b1; have n2 := loewner_fro (ipd k.+1 pS) pL (ck k.+1) a2 b2.
  have n3 := loewner_fro pL (ipd k pS) (ck k) b1 a1.
  have kk : C * r ^+ k.+1 * fro L <= C * r ^+ k * fro L.
    have /andP[u _] := rk k; rewrite ler_pmul2r // ler_wpmul2l // exprS; apply: ler_pimull => //; exact: ltW.
  have nL : fro L <= (1 + C) * fro (iter k F S).
    have tri : fro L <= fro (L - iter k F S) + fro (iter k F S) by rewrite -{1}[L](subrK (iter k F S)) froD.
    apply: le_trans tri _; rewrite [1 + C]addrC mulrDl mul1r ler_add2r.
    by apply: le_trans n3 _; rewrite ler_wpmul2r ?fro_ge0 // ler_pimulr //; case/andP: (rk k).
  have -> : iter k.+1 F S - iter k F S = (iter k.+1 F S - L) - (iter k F S - L) by rewrite opprB addrA subrK.
  apply: le_trans (froD _ _) _; rewrite froN.
  have : fro (iter k.+1 F S - L) + fro (iter k F S - L) <= 2%:R * (C * r ^+ k) * fro L.
    by rewrite -[2%:R]/(1 + 1) !mulrDl !mul1r; apply: ler_add => //; exact: le_trans n2 kk.
  move/le_trans; apply; have -> : M * r ^+ k * fro (iter k F S) = 2%:R * (C * r ^+ k) * ((1 + C) * fro (iter k F S)).
    by rewrite /M; move: (r ^+ k) (fro _) => u v; rfield.
  by rewrite ler_wpmul2l // mulr_ge0 ?ler0n.
have cM k : ch S k <= M.
  by apply: le_trans (hc k) _; rewrite ler_pimulr //; case/andP: (rk k).
pose C1 := 2%:R * C + C * C * (1 + M).
have C10 : 0 <= C1 by rewrite addr_ge0 ?mulr_ge0 ?ler0n // addr_ge0 ?ler01.
exists L, (C1 + M); split=> //; first exact: addr_ge0.
- move=> k nrm; apply: near_le (close_near nrm (ck k) (ipd k pS) pL (h1 k)); have /andP[u v] := rk k.
  apply: le_trans (quad_bound C0 u (_ : r ^+ k <= 1 + M)) _; first by rewrite (le_trans v) // ler_addl.
  by rewrite ler_wpmul2r // ler_addl.
- move=> k nrm; have e0 : 0 <= C * ch S k by rewrite mulr_ge0.
  have cl : close (C * ch S k) (iter k.+1 F S) L.
    have [a b] := h2 k; have e1 : 0 < 1 + C * ch S k by rewrite ltr_spaddl ?ltr01.
    by split; [exact: (tyl_above X0 sL (ipd k pS) e1 a) | exact: (tyl_below X0 sL (ipd k pS) e1 b)].
  apply: near_le (close_near nrm e0 (ipd k.+1 pS) pL cl).
  apply: le_trans (quad_bound C0 (ch0 k) (_ : ch S k <= 1 + M)) _; first by rewrite (le_trans (cM k)) // ler_addr ler01.
  by rewrite ler_wpmul2r // ler_addl.
- move=> k; apply: le_trans (hc k) _; by rewrite ler_wpmul2r ?ler_addr //; case/andP: (rk k).
Qed.
Lemma log_bound (C r t : R) k : 0 < r -> r < 1 -> 0 < C -> 0 < t -> t < C * r ^+ k -> k%:R <= ln C / - ln r + (- ln r)^-1 * ln (1 / t).
Proof.
move=> r0 r1 C0 t0 lt; have l0 : 0 < - ln r by rewrite oppr_gt0 -ln1; apply: ln_lt.
have := ln_lt t0 lt; rewrite lnM ?exprn_gt0 // lnX // => h.
rewrite lnD ?ltr01 // ln1 sub0r [_^-1 * _]mulrC -mulrDl ler_pdivl_mulr //; apply: ltW.
by move: (ln r) (ln t) (ln C) (k%:R) h => u v w x; clear; move=> h; rewrite mulrN; rlra2.
Qed.
Lemma runs : exists r b : R, [/\ 0 < r, r < 1, 0 <= b & forall s0, pd s0 -> exists L (C a : R), [/\ tyler_solution X L, 0 <= C &
  forall step nrm tol m v d k, (forall S, pd S -> step S = Ok (mstep (tyl_w N p.+1) X S)) -> (forall S, pd S -> pd (mstep (tyl_w N p.+1) X S)) ->
    stops_with gtf PInf step (@rel_change _ _) tol m s0 v d k ->
    [/\ near (C * r ^+ k) (normalised nrm L) (normalised nrm v), forall x, d = Fin x -> near (C * x) (normalised nrm L) (normalised nrm v) &
        forall t, tol = Fin t -> 0 < t <= 1 -> k%:R <= a + b * ln (1 / t)]]].
Proof.
have [r [r0 r1 hr]] := core; have l0 : 0 < - ln r by rewrite oppr_gt0 -ln1; apply: ln_lt.
exists r, (- ln r)^-1; split=> //; first by rewrite invr_ge0 ltW.
move=> s0 p0; have [L [C [sL C0 h1 h2 h3]]] := hr s0 p0; pose C2 := C + 1.
have C20 : 0 < C2 by rewrite ltr_spaddr ?ltr01.
exists L, C, (2%:R + `|ln C2 / - ln r|); split=> // step nrm tol m v d k st stp sw; have ev := run_iter st stp p0 sw.
have hd := run_change st stp p0 sw; split.
- by rewrite ev; exact: h1.
- by case: k ev hd {sw} => [_ -> //|k] ev -> x [<-]; rewrite ev; exact: h2.
- move=> t et /andP[t0 t1]; have lt0 : 0 <= (- ln r)^-1 * ln (1 / t).
    rewrite mulr_ge0 ?invr_ge0 ?(ltW l0) // -ln1; apply: ln_le; first exact: ltr01.
    by rewrite mul1r invf_ge1.
  have [_ _ _ _ big] := sw; case: k ev hd sw big => [|[|k]] ev hd sw big.
  + by apply: addr_ge0 => //; apply: addr_ge0; [exact: ler0n | exact: normr_ge0].
  + rewrite -[X in X <= _]addr0; apply: ler_add => //; rewrite -[X in X <= _]addr0; apply: ler_add; last exact: normr_ge0.
    by rewrite ler1n.
  have rep : reported PInf step (@rel_change _ _) s0 k.+1 (Fin (ch s0 k)).
    exists (iter k F s0), (iter k.+1 F s0); rewrite !(updates_iter st stp) //; split=> //.
    by rewrite /rel_change /divf (negbTE (pd_fro (ipd k p0))).
  have := big k.+1 _ (ltnSn _) rep; rewrite et /= => lt.
  have {}lt : t < C2 * r ^+ k.
    apply: lt_le_trans lt _; apply: le_trans (h3 k) _; rewrite ler_wpmul2r ?exprn_ge0 ?(ltW r0) // ler_addl ler01 //.
  have := log_bound r0 r1 C20 t0 lt; move=> h; rewrite -addn2 natrD [X in X <= _]addrC -[X in _ <= X]addrA ler_add2l; apply: le_trans h _.
  by rewrite ler_add2r ler_norm.
Qed.
End Core.

(* The error of the estimate returned after k iterations is at most C r^k, relatively; r < 1 depends on the samples only *)
Theorem C108_linear N p :
  (forall (X : 'M[real_sf]_(N, p.+1)) Sol, (forall i, row i X != 0) -> irreducible X -> tyler_solution X Sol -> exists r : R, [/\ 0 < r, r < 1 &
     forall init, (forall s0, init = Some s0 -> pd s0) -> exists L (C : R), [/\ tyler_solution X L, 0 <= C &
       forall eigh nrm tol m s d k, eigh_ok eigh -> tyler_shape_matrix_fixedpoint eigh X init tol m nrm = Some (Ok (s, d, k)) ->
         fro (s - normalised nrm L) <= C * r ^+ k * fro (normalised nrm L)]]) /\
  (forall (X : 'M[complex_sf]_(N, p.+1)) Sol, (forall i, row i X != 0) -> irreducible X -> tyler_solution X Sol -> exists r : R, [/\ 0 < r, r < 1 &
     forall init, (forall s0, init = Some s0 -> pd s0) -> exists L (C : R), [/\ tyler_solution X L, 0 <= C &
       forall eigh nrm tol m s d k, eigh_ok eigh -> complex_tyler_shape_matrix_fixedpoint eigh X init tol m nrm = Some (Ok (s, d, k)) ->
         fro (s - normalised nrm L) <= C * r ^+ k * fro (normalised nrm L)]]).
Proof.
split=> X Sol X0 irr sol; have sp := tyler_spanning sol.
  have [r [b [r0 r1 _ H]]] := runs real_compact X0 irr sol; exists r; split=> // init pi.
  have [L [C [a [sL C0 h]]]] := H _ (real_init_pd sp pi); exists L, C; split=> // eigh nrm tol m s d k ok.
  by move=> /(real_tyler_run ok X0 sp pi) [st [v [-> x y _ sw]]]; have [h1 _ _] := h st nrm tol m v d k x y sw.
have [r [b [r0 r1 _ H]]] := runs complex_compact X0 irr sol; exists r; split=> // init pi.
have [L [C [a [sL C0 h]]]] := H _ (complex_init_pd sp pi); exists L, C; split=> // eigh nrm tol m s d k ok.
by move=> /(complex_tyler_run ok X0 sp pi) [st [v [-> x y _ sw]]]; have [h1 _ _] := h st nrm tol m v d k x y sw.
Qed.
(* The error of the estimate is at most a multiple of the change reported with it *)
Theorem C108_error N p :
  (forall (X : 'M[real_sf]_(N, p.+1)) Sol init, (forall i, row i X != 0) -> irreducible X -> tyler_solution X Sol ->
     (forall s0, init = Some s0 -> pd s0) -> exists L (C : R), [/\ tyler_solution X L, 0 <= C &
       forall eigh nrm tol m s x k, eigh_ok eigh -> tyler_shape_matrix_fixedpoint eigh X init tol m nrm = Some (Ok (s, Fin x, k)) ->
         fro (s - normalised nrm L) <= C * x * fro (normalised nrm L)]) /\
  (forall (X : 'M[complex_sf]_(N, p.+1)) Sol init, (forall i, row i X != 0) -> irreducible X -> tyler_solution X Sol ->
     (forall s0, init = Some s0 -> pd s0) -> exists L (C : R), [/\ tyler_solution X L, 0 <= C &
       forall eigh nrm tol m s x k, eigh_ok eigh -> complex_tyler_shape_matrix_fixedpoint eigh X init tol m nrm = Some (Ok (s, Fin x, k)) ->
         fro (s - normalised nrm L) <= C * x * fro (normalised nrm L)]).
Proof.
split=> X Sol init X0 irr sol pi; have sp := tyler_spanning sol.
  have [r [b [r0 r1 _ H]]] := runs real_compact X0 irr sol.
  have [L [C [a [sL C0 h]]]] := H _ (real_init_pd sp pi); exists L, C; split=> // eigh nrm tol m s z k ok.
  by move=> /(real_tyler_run ok X0 sp pi) [st [v [-> x y _ sw]]]; have [_ h1 _] := h st nrm tol m v _ k x y sw; exact: h1.
have [r [b [r0 r1 _ H]]] := runs complex_compact X0 irr sol.
have [L [C [a [sL C0 h]]]] := H _ (complex_init_pd sp pi); exists L, C; split=> // eigh nrm tol m s z k ok.
by move=> /(complex_tyler_run ok X0 sp pi) [st [v [-> x y _ sw]]]; have [_ h1 _] := h st nrm tol m v _ k x y sw; exact: h1.
Qed.
(* The number of iterations grows at most like the logarithm of the inverse of the tolerance: a + b ln (1 / tol), where b
   depends on the samples only *)
Theorem C108_iterations N p :
  (forall (X : 'M[real_sf]_(N, p.+1)) Sol, (forall i, row i X != 0) -> irreducible X -> tyler_solution X Sol -> exists2 b : R, 0 <= b &
     forall init, (forall s0, init = Some s0 -> pd s0) -> exists a : R, forall eigh nrm (tol : R) m s d k, eigh_ok eigh -> 0 < tol <= 1 ->
       tyler_shape_matrix_fixedpoint eigh X init (Fin tol) m nrm = Some (Ok (s, d, k)) -> k%:R <= a + b * ln (1 / tol)) /\
  (forall (X : 'M[complex_sf]_(N, p.+1)) Sol, (forall i, row i X != 0) -> irreducible X -> tyler_solution X Sol -> exists2 b : R, 0 <= b &
     forall init, (forall s0, init = Some s0 -> pd s0) -> exists a : R, forall eigh nrm (tol : R) m s d k, eigh_ok eigh -> 0 < tol <= 1 ->
       complex_tyler_shape_matrix_fixedpoint eigh X init (Fin tol) m nrm = Some (Ok (s, d, k)) -> k%:R <= a + b * ln (1 / tol)).
Proof.
split=> X Sol X0 irr sol; have sp := tyler_spanning sol.
  have [r [b [r0 r1 b0 H]]] := runs real_compact X0 irr sol; exists b => // init pi.
  have [L [C [a [sL C0 h]]]] := H _ (real_init_pd sp pi); exists a => eigh nrm tol m s d k ok t01.
  by move=> /(real_tyler_run ok X0 sp pi) [st [v [_ x y _ sw]]]; have [_ _ h1] := h st nrm _ m v d k x y sw; exact: h1.
have [r [b [r0 r1 b0 H]]] := runs complex_compact X0 irr sol; exists b => // init pi.
have [L [C [a [sL C0 h]]]] := H _ (complex_init_pd sp pi); exists a => eigh nrm tol m s d k ok t01.
by move=> /(complex_tyler_run ok X0 sp pi) [st [v [_ x y _ sw]]]; have [_ _ h1] := h st nrm _ m v d k x y sw; exact: h1.
Qed.
(* so that, given that many iterations, the estimate is reached up to a multiple of the tolerance *)
Theorem C108_accuracy N p nrm : scaling_norm nrm ->
  (forall (X : 'M[real_sf]_(N, p.+1)) Sol, (forall i, row i X != 0) -> irreducible X -> tyler_solution X Sol -> exists2 b : R, 0 <= b &
     forall init, (forall s0, init = Some s0 -> pd s0) -> exists a C : R, forall eigh (tol : R) m s d k, eigh_ok eigh -> 0 < tol <= 1 ->
       a + b * ln (1 / tol) < m%:R -> tyler_shape_matrix_fixedpoint eigh X init (Fin tol) m nrm = Some (Ok (s, d, k)) ->
       fro (s - normalised nrm Sol) <= C * tol * fro (normalised nrm Sol)) /\
  (forall (X : 'M[complex_sf]_(N, p.+1)) Sol, (forall i, row i X != 0) -> irreducible X -> tyler_solution X Sol -> exists2 b : R, 0 <= b &
     forall init, (forall s0, init = Some s0 -> pd s0) -> exists a C : R, forall eigh (tol : R) m s d k, eigh_ok eigh -> 0 < tol <= 1 ->
       a + b * ln (1 / tol) < m%:R -> complex_tyler_shape_matrix_fixedpoint eigh X init (Fin tol) m nrm = Some (Ok (s, d, k)) ->
       fro (s - normalised nrm Sol) <= C * tol * fro (normalised nrm Sol)).
Proof.
move=> hn.
have G (K : starField) (cK : compactK K) (X : 'M[K]_(N, p.+1)) Sol : (forall i, row i X != 0) -> irreducible X -> tyler_solution X Sol ->
    exists2 b : R, 0 <= b & forall s0, pd s0 -> exists a C : R, forall step (tol : R) m v d k,
      (forall S, pd S -> step S = Ok (mstep (tyl_w N p.+1) X S)) -> (forall S, pd S -> pd (mstep (tyl_w N p.+1) X S)) ->
      stops_with gtf PInf step (@rel_change _ _) (Fin tol) m s0 v d k -> 0 < tol <= 1 -> a + b * ln (1 / tol) < m%:R ->
      near (C * tol) (normalised nrm Sol) (normalised nrm v).
  move=> X0 irr sol; have [r [b [_ _ b0 H]]] := runs cK X0 irr sol; exists b => // s0 p0; have [L [C [a [sL C0 h]]]] := H _ p0.
  exists a, C => step tol m v d k st stp sw t01 am; have [_ h2 h3] := h step nrm (Fin tol) m v d k st stp sw.
  have km := le_lt_trans (h3 tol erefl t01) am; rewrite ltr_nat in km.
  have eL := same_normalised hn sol.1 (tyler_unique (spanning_N (tyler_spanning sol)) X0 irr sol sL).
  have := run_change st stp p0 sw; have [_ _ _ gt _] := sw.
  have ng : ~~ gtf d (Fin tol) by apply/negP => /gt e; rewrite e ltnn in km.
  case: k sw h3 gt km => [|k] sw h3 gt km e; first by rewrite e in ng.
  have := h2 _ e; rewrite eL; apply: near_le; apply: ler_wpmul2l => //; by move: ng; rewrite e /= -leNgt.
split=> X Sol X0 irr sol; have sp := tyler_spanning sol.
  have [b b0 H] := G _ real_compact X Sol X0 irr sol; exists b => // init pi; have [a [C h]] := H _ (real_init_pd sp pi).
  exists a, C => eigh tol m s d k ok t01 am /(real_tyler_run ok X0 sp pi) [st [v [-> x y _ sw]]]; exact: (h _ _ _ _ _ _ x y sw).
have [b b0 H] := G _ complex_compact X Sol X0 irr sol; exists b => // init pi; have [a [C h]] := H _ (complex_init_pd sp pi).
exists a, C => eigh tol m s d k ok t01 am /(complex_tyler_run ok X0 sp pi) [st [v [-> x y _ sw]]]; exact: (h _ _ _ _ _ _ x y sw).
Qed.
(* the hypotheses are met: three plane vectors in general position *)
Example C108_hypotheses (K : starField) : exists (X : 'M[K]_(3, 2)) (Sol : 'M[K]_2),
  [/\ forall i, row i X != 0, irreducible X & tyler_solution X Sol].
Proof. by have [X [Sol [[_ X0] a b c _]]] := C77_C79_hypotheses K ltr01; exists X, Sol. Qed.

Print Assumptions C108_linear.
Print Assumptions C108_error.
Print Assumptions C108_iterations.
Print Assumptions C108_accuracy.
Print Assumptions C108_hypotheses.
