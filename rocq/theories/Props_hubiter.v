(* Theorems about the iterations of the Huber functions: C88. *)
From Coq Require Import Reals Lra.
From Coquelicot Require Import Coquelicot.
From mathcomp Require Import all_ssreflect all_algebra.
From mathcomp Require Import complex zify.
From Verif Require Import RealsMC RealTac RealTac2 Star StarInst FunCalc Compact Model_featurearray Model_linalg Proofs_linalg Props_linalg Spec_chi2 HuberNum HuberNum2 Model_covariance Model_estimators Spec_covariance Spec_fixedpoint Spec_hubiter Proofs_mest Proofs_estimators
  Proofs_cost Props_cost Props_covariance Props_robust Props_robust2 Proofs_unique Proofs_unique2 Props_unique Proofs_converge Props_converge Props_huber Proofs_hubiter Proofs_hubiter2.
Set Implicit Arguments.
Unset Strict Implicit.
Unset Printing Implicit Defensive.
Local Open Scope ring_scope.
Import GRing.Theory Num.Theory Order.TTheory.

Section Fixed.
Variable K : starField.
Lemma estimating_hub lb b N p (X : 'M[K]_(N, p)) S : estimating_eq (code_weight lb b) X S <-> mstep (hub_w lb b N) X S = S.
Proof. by split=> h; exact: esym. Qed.
Lemma objectiveE lb b N p (X : 'M[K]_(N, p)) S : huber_objective lb b X S = mcost (hrho lb b) X S.
Proof. by []. Qed.
Lemma hub_solution lb b N p (X : 'M[K]_(N, p.+1)) : compactK K -> 0 < lb -> 0 < b -> spanning X -> (forall i, row i X != 0) ->
  exists S, [/\ pd S, estimating_eq (code_weight lb b) X S, forall T, pd T -> huber_objective lb b X S <= huber_objective lb b X T &
    forall T, pd T -> estimating_eq (code_weight lb b) X T -> T = S].
Proof.
move=> cK l0 b0 sp X0; have N0 := spanning_N sp; have [S pS mn] := hub_attained l0 b0 N0 sp cK.
have fS := hub_stationary l0 b0 N0 sp pS mn; exists S; split=> //.
by move=> T pT /estimating_hub fT; apply: (hub_unique l0 b0 N0 X0).
Qed.
End Fixed.
(* The equation solved by the Huber functions, as they are written, has exactly one solution; it minimises a cost. *)
Theorem C88_solution N p lbda beta : 0 < lbda -> 0 < beta ->
  (forall eigh (X : 'M[real_sf]_(N, p.+1)), eigh_ok eigh -> spanning X -> (forall i, row i X != 0) ->
     exists S, [/\ pd S, huber_step eigh X lbda beta S = Ok S, forall T, pd T -> huber_objective lbda beta X S <= huber_objective lbda beta X T &
       forall T, pd T -> huber_step eigh X lbda beta T = Ok T -> T = S]) /\
  (forall eigh (X : 'M[complex_sf]_(N, p.+1)), eigh_ok eigh -> spanning X -> (forall i, row i X != 0) ->
     exists S, [/\ pd S, complex_huber_step eigh X lbda beta S = Ok S, forall T, pd T -> huber_objective lbda beta X S <= huber_objective lbda beta X T &
       forall T, pd T -> complex_huber_step eigh X lbda beta T = Ok T -> T = S]).
Proof.
move=> l0 b0; have [H1 H2] := C37_equation_solved_partial N p.+1 l0 b0; split=> eigh X ok sp X0.
  have [S [pS eS mn un]] := hub_solution real_compact l0 b0 sp X0; exists S; split=> //; first exact/(H1 _ _ _ ok pS).
  by move=> T pT /(H1 _ _ _ ok pT); exact: un.
have [S [pS eS mn un]] := hub_solution complex_compact l0 b0 sp X0; exists S; split=> //; first exact/(H2 _ _ _ ok pS).
by move=> T pT /(H2 _ _ _ ok pT); exact: un.
Qed.

(* what the functions run *)
Section Run.
Variables (ppf cdf : R -> R -> R).
Lemma hub_w_eq (K : starField) lb b N p (X : 'M[K]_(N, p)) (S : 'M[K]_p) : 0 < lb -> 0 < b -> pd S ->
  mstep (fun q => N%:R^-1 / huber_u lb b q) X S = mstep (hub_w lb b N) X S.
Proof. by move=> l0 b0 pS; apply: eq_wsum => i; rewrite huber_u_inv // maha_ge0. Qed.
Lemma real_huber_run eigh N p (q : R) (X : 'M[real_sf]_(N, p.+1)) init tol m :
  let lb := huber_lbda ppf q p.+1 in let b := huber_beta ppf cdf q p.+1 in
  eigh_ok eigh -> 0 < lb -> 0 < b -> spanning X -> (forall s0, init = Some s0 -> pd s0) ->
  exists s d k, huber_m_estimator_fixed_point eigh ppf cdf X q init tol m = Some (Ok (s, d, k)) /\
  exists step, [/\ forall S, pd S -> step S = Ok (mstep (hub_w lb b N) X S), forall S, pd S -> pd (mstep (hub_w lb b N) X S), pd (real_init X init) &
    stops_with gtf PInf step (@rel_change _ _) tol m (real_init X init) s d k].
Proof.
move=> lb b ok l0 b0 sp pi; have va : real_valid ppf cdf p (HuberM q) by [].
have [s [d [k [e sw]]]] := (C29_estimators_follow_contract ppf cdf N p (HuberM q) tol m).1 eigh X init va.
exists s, d, k; split=> //; exists (real_step eigh ppf cdf (HuberM q) X); split=> //.
- by move=> S pS; rewrite (real_run _ va ok) // -(hub_w_eq X l0 b0 pS).
- by move=> S pS; apply: hub_pd => //; exact: spanning_N sp.
- exact: real_init_pd.
Qed.
Lemma complex_huber_run eigh N p (q : R) (X : 'M[complex_sf]_(N, p.+1)) init tol m :
  let lb := complex_huber_lbda ppf q p.+1 in let b := complex_huber_beta ppf cdf q p.+1 in
  eigh_ok eigh -> 0 < lb -> 0 < b -> spanning X -> (forall s0, init = Some s0 -> pd s0) ->
  exists s d k, complex_huber_m_estimator_fixed_point eigh ppf cdf X q init tol m = Some (Ok (s, d, k)) /\
  exists step, [/\ forall S, pd S -> step S = Ok (mstep (hub_w lb b N) X S), forall S, pd S -> pd (mstep (hub_w lb b N) X S), pd (complex_init X init) &
    stops_with gtf PInf step (@rel_change _ _) tol m (complex_init X init) s d k].
Proof.
move=> lb b ok l0 b0 sp pi; have va : complex_valid ppf cdf p (HuberM q) by [].
have [s [d [k [e sw]]]] := (C29_estimators_follow_contract ppf cdf N p (HuberM q) tol m).2 eigh X init va.
exists s, d, k; split=> //; exists (complex_step eigh ppf cdf (HuberM q) X); split.
- by move=> S pS; rewrite (complex_run _ va ok) // -(hub_w_eq X l0 b0 pS).
- by move=> S pS; apply: hub_pd => //; exact: spanning_N sp.
- exact: complex_init_pd.
- exact: sw.
Qed.
End Run.

(* a run stops at the first small change *)
Section Stop.
Variable K : starField.
Variables (N p : nat) (X : 'M[K]_(N, p.+1)) (w : R -> R) (step : 'M[K]_p.+1 -> res 'M[K]_p.+1).
Let F := mstep w X.
Hypothesis stepE : forall s, pd s -> step s = Ok (F s).
Hypothesis step_pd : forall s, pd s -> pd (F s).
Definition chg s0 j := fro (iter j.+1 F s0 - iter j F s0) / fro (iter j F s0).
Lemma run_chg tol m s0 s d k : pd s0 -> stops_with gtf PInf step (@rel_change K _) tol m s0 s d k ->
  match k with 0 => d = PInf | j.+1 => d = Fin (chg s0 j) end.
Proof. by move=> p0 sw; have := run_change stepE step_pd p0 sw; rewrite (run_iter stepE step_pd p0 sw); case: k {sw}. Qed.
Lemma reported_iter s0 j : pd s0 -> reported PInf step (@rel_change K _) s0 j.+1 (Fin (chg s0 j)).
Proof.
move=> p0; exists (iter j F s0), (iter j.+1 F s0); rewrite (updates_iter stepE step_pd _ p0) (updates_iter stepE step_pd j.+1 p0); split=> //.
have pj := iter_pd step_pd j p0; by rewrite /rel_change /divf (negbTE (pd_fro pj)).
Qed.
Lemma stops_small (t : R) m s0 s d k j : pd s0 -> stops_with gtf PInf step (@rel_change K _) (Fin t) m s0 s d k ->
  chg s0 j <= t -> (k <= j.+1)%N /\ ((j.+1 < m)%N -> exists2 x, d = Fin x & x <= t).
Proof.
move=> p0 sw h; have := run_chg p0 sw; case: sw => u r km st bf ek.
have kj : (k <= j.+1)%N.
  rewrite leqNgt; apply/negP => lt; have := bf j.+1 _ lt (reported_iter j p0); by rewrite /= ltNge h.
split=> // jm; case: k ek km st kj {u r bf} => [->|k ->] km st kj.
  by have := st isT; lia.
exists (chg s0 k) => //; rewrite leNgt; apply/negP => gt; have := st gt; lia.
Qed.
Lemma never_stops (t : R) m s0 s d k : pd s0 -> stops_with gtf PInf step (@rel_change K _) (Fin t) m s0 s d k ->
  (forall j, t < chg s0 j) -> k = m.
Proof.
move=> p0 sw h; have := run_chg p0 sw; case: sw => u r km st bf ek; apply: st.
by case: k ek {u r km bf} => [->|k ->] //=.
Qed.
(* the run only depends on the update *)
Lemma stops_ext tol m s0 s d k : pd s0 -> stops_with gtf PInf step (@rel_change K _) tol m s0 s d k ->
  stops_with gtf PInf (fun S => Ok (F S)) (@rel_change K _) tol m s0 s d k.
Proof.
move=> p0 [u r km st bf]; have e j : updates step j s0 = updates (fun S => Ok (F S)) j s0.
  by rewrite (updates_iter stepE step_pd _ p0); elim: j => //= j <-.
have er j dj : reported PInf step (@rel_change K _) s0 j dj <-> reported PInf (fun S => Ok (F S)) (@rel_change K _) s0 j dj.
  by case: j => [|j] //; rewrite /reported !e.
by split=> //; [rewrite -e | exact/er | move=> j dj jk /er; exact: bf].
Qed.
End Stop.

Section Converges.
Variable K : starField.
Variables (lb b : R) (N p : nat) (X : 'M[K]_(N, p.+1)) (Sol : 'M[K]_p.+1).
Hypotheses (l0 : 0 < lb) (b0 : 0 < b) (sp : spanning X) (pSol : pd Sol) (fSol : mstep (hub_w lb b N) X Sol = Sol) (spc : core_spanning lb X Sol).
Let F := mstep (hub_w lb b N) X.
Let Fpd S : pd S -> pd (F S). Proof. exact: (hub_pd l0 b0 (spanning_N sp) sp). Qed.
Lemma hub_rate : exists r : R, [/\ 0 <= r, r < 1 & forall T, pd T -> exists2 M : R, 0 <= M & forall j, close (r ^+ j * M) (iter j F T) Sol].
Proof. exact: (hub_converges l0 b0 (spanning_N sp) pSol fSol spc). Qed.
Lemma hub_close T e : pd T -> 0 < e -> exists k0, forall k, (k0 <= k)%N -> close e (iter k F T) Sol.
Proof.
move=> pT e0; have [r [r0 r1 h]] := hub_rate; have [M M0 hM] := h T pT; have [k0 hk] := geometric r0 r1 M0 e0.
by exists k0 => k kk; apply: close_le (hk k kk) (hM k); [exact/pd_psd/iter_pd | exact: pd_psd].
Qed.
Lemma hub_near T e : pd T -> 0 < e -> exists k0, forall k, (k0 <= k)%N -> near e Sol (iter k F T).
Proof.
move=> pT e0; have [k0 h] := hub_close pT e0; exists k0 => k kk; have [a c] := h k kk.
by apply: loewner_fro => //; [exact: iter_pd | exact: ltW].
Qed.
Lemma hub_chg T t : pd T -> 0 < t -> exists j, chg X (hub_w lb b N) T j <= t.
Proof.
move=> pT t0; have [e e0 he] := small3 t0; have [j h] := hub_close pT e0; exists j.
have pj := iter_pd Fpd j pT; have pj1 := iter_pd Fpd j.+1 pT; rewrite /chg ler_pdivr_mulr; last by rewrite lt_neqAle eq_sym pd_fro // fro_ge0.
have c1 := close_trans (ltW e0) (ltW e0) (h j.+1 (leqnSn j)) (close_sym (h j (leqnn j))).
have e1 : 1 <= 1 + e by rewrite ler_addl ltW.
have ee0 : 0 <= (1 + e) * (1 + e) - 1 by rewrite subr_ge0 mulr_ege1.
have [a c] := c1; apply: le_trans (loewner_fro pj1 pj ee0 a c) _; apply: ler_wpmul2r; first exact: fro_ge0.
apply: le_trans he; rewrite ler_add2r [1 + (_ - 1)]addrC subrK ler_pemull //; exact: le_trans ler01 (mulr_ege1 e1 e1).
Qed.
(* runs of the loop *)
Variable step : 'M[K]_p.+1 -> res 'M[K]_p.+1.
Hypothesis stepE : forall s, pd s -> step s = Ok (F s).
Local Notation stops := (stops_with gtf PInf step (@rel_change K _)).
Lemma hub_run_accuracy s0 e : pd s0 -> 0 < e -> exists2 t : R, 0 < t & forall tol : R, 0 < tol <= t -> exists n, forall m s d k, (n <= m)%N ->
  stops (Fin tol) m s0 s d k -> fro (s - Sol) <= e * fro Sol /\ exists2 x, d = Fin x & x <= tol.
Proof.
move=> p0 e0; have [t t0 ht] := tolerance (P := near e Sol) p0 Fpd (hub_near p0 e0).
exists t => // tol /andP[tol0 tt]; have [j hj] := hub_chg p0 tol0; exists j.+2 => m s d k jm sw.
have [_ /(_ jm) [x ex xt]] := stops_small stepE Fpd p0 sw hj; split; last by exists x.
rewrite ex in sw; exact: (run_tolerance (P := near e Sol) stepE Fpd p0 ht tt sw xt).
Qed.
End Converges.

(* When the samples below the threshold, for the solution of the equation, span the space: the iterates converge to the
   solution at a linear rate, so the functions stop on the tolerance and return the solution up to any accuracy. *)
Theorem C88_converges_partial ppf cdf N p (q : R) :
  (forall eigh (X : 'M[real_sf]_(N, p.+1)) Sol, let lbda := huber_lbda ppf q p.+1 in let beta := huber_beta ppf cdf q p.+1 in
     eigh_ok eigh -> 0 < lbda -> 0 < beta -> pd Sol -> huber_step eigh X lbda beta Sol = Ok Sol -> core_spanning lbda X Sol ->
     exists r : R, [/\ 0 <= r, r < 1 & forall init, (forall s0, init = Some s0 -> pd s0) ->
       (exists2 M : R, 0 <= M & forall tol m s d k, huber_m_estimator_fixed_point eigh ppf cdf X q init tol m = Some (Ok (s, d, k)) ->
          fro (s - Sol) <= r ^+ k * M * fro Sol) /\
       (forall e : R, 0 < e -> exists2 t : R, 0 < t & forall tol : R, 0 < tol <= t -> exists n, forall m s d k, (n <= m)%N ->
          huber_m_estimator_fixed_point eigh ppf cdf X q init (Fin tol) m = Some (Ok (s, d, k)) ->
          fro (s - Sol) <= e * fro Sol /\ exists2 x, d = Fin x & x <= tol)]) /\
  (forall eigh (X : 'M[complex_sf]_(N, p.+1)) Sol, let lbda := complex_huber_lbda ppf q p.+1 in let beta := complex_huber_beta ppf cdf q p.+1 in
     eigh_ok eigh -> 0 < lbda -> 0 < beta -> pd Sol -> complex_huber_step eigh X lbda beta Sol = Ok Sol -> core_spanning lbda X Sol ->
     exists r : R, [/\ 0 <= r, r < 1 & forall init, (forall s0, init = Some s0 -> pd s0) ->
       (exists2 M : R, 0 <= M & forall tol m s d k, complex_huber_m_estimator_fixed_point eigh ppf cdf X q init tol m = Some (Ok (s, d, k)) ->
          fro (s - Sol) <= r ^+ k * M * fro Sol) /\
       (forall e : R, 0 < e -> exists2 t : R, 0 < t & forall tol : R, 0 < tol <= t -> exists n, forall m s d k, (n <= m)%N ->
          complex_huber_m_estimator_fixed_point eigh ppf cdf X q init (Fin tol) m = Some (Ok (s, d, k)) ->
          fro (s - Sol) <= e * fro Sol /\ exists2 x, d = Fin x & x <= tol)]).
Proof.
split=> eigh X Sol lb b ok l0 b0 pS eS spc; have sp : spanning X by move=> y hy; apply: spc => i _.
  have {eS} fS : mstep (hub_w lb b N) X Sol = Sol by apply/estimating_hub/((C37_equation_solved_partial N p.+1 l0 b0).1 _ _ _ ok pS).
  have [r [r0 r1 hr]] := hub_rate l0 b0 sp pS fS spc; exists r; split=> // init pi; have p0 := real_init_pd sp pi.
  have run tol m s d k : huber_m_estimator_fixed_point eigh ppf cdf X q init tol m = Some (Ok (s, d, k)) ->
    exists step, [/\ forall S, pd S -> step S = Ok (mstep (hub_w lb b N) X S), forall S, pd S -> pd (mstep (hub_w lb b N) X S), pd (real_init X init) &
      stops_with gtf PInf step (@rel_change _ _) tol m (real_init X init) s d k].
    by have [s' [d' [k' [-> hh]]]] := real_huber_run tol m ok l0 b0 sp pi => -[<- <- <-].
  split.
    have [M M0 hM] := hr _ p0; exists M => // tol m s d k /run [step [a c _ sw]]; rewrite (run_iter a c p0 sw).
    have [h1 h2] := hM k; apply: loewner_fro => //; [exact: iter_pd | by rewrite mulr_ge0 ?exprn_ge0].
  move=> e e0; pose st S : res 'M[real_sf]_p.+1 := Ok (mstep (hub_w lb b N) X S).
  have [t t0 ht] := hub_run_accuracy l0 b0 sp pS fS spc (step := st) (fun s _ => erefl) p0 e0; exists t => // tol tt.
  have [n hn] := ht tol tt; exists n => m s d k nm /run [step [a c _ sw]]; apply: (hn m s d k nm).
  exact: (stops_ext a c p0 sw).
have {eS} fS : mstep (hub_w lb b N) X Sol = Sol by apply/estimating_hub/((C37_equation_solved_partial N p.+1 l0 b0).2 _ _ _ ok pS).
have [r [r0 r1 hr]] := hub_rate l0 b0 sp pS fS spc; exists r; split=> // init pi; have p0 := complex_init_pd sp pi.
have run tol m s d k : complex_huber_m_estimator_fixed_point eigh ppf cdf X q init tol m = Some (Ok (s, d, k)) ->
  exists step, [/\ forall S, pd S -> step S = Ok (mstep (hub_w lb b N) X S), forall S, pd S -> pd (mstep (hub_w lb b N) X S), pd (complex_init X init) &
    stops_with gtf PInf step (@rel_change _ _) tol m (complex_init X init) s d k].
  by have [s' [d' [k' [-> hh]]]] := complex_huber_run tol m ok l0 b0 sp pi => -[<- <- <-].
split.
  have [M M0 hM] := hr _ p0; exists M => // tol m s d k /run [step [a c _ sw]]; rewrite (run_iter a c p0 sw).
  have [h1 h2] := hM k; apply: loewner_fro => //; [exact: iter_pd | by rewrite mulr_ge0 ?exprn_ge0].
move=> e e0; pose st S : res 'M[complex_sf]_p.+1 := Ok (mstep (hub_w lb b N) X S).
have [t t0 ht] := hub_run_accuracy l0 b0 sp pS fS spc (step := st) (fun s _ => erefl) p0 e0; exists t => // tol tt.
have [n hn] := ht tol tt; exists n => m s d k nm /run [step [a c _ sw]]; apply: (hn m s d k nm).
exact: (stops_ext a c p0 sw).
Qed.

(* ------------------------------------------------------------------ bounds *)
Section Band.
Variable K : starField.
Local Notation ofR := (@ofR K).
Variables (lb b : R) (N p : nat) (X : 'M[K]_(N, p.+1)).
Hypotheses (l0 : 0 < lb) (b0 : 0 < b) (sp : spanning X).
Let F := mstep (hub_w lb b N) X.
Let n0 : 0 < N%:R^-1 :> R. Proof. by rewrite invr_gt0 ltr0n (spanning_N sp). Qed.
Let Fpd S : pd S -> pd (F S). Proof. exact: (hub_pd l0 b0 (spanning_N sp) sp). Qed.
Lemma scm_pd : pd (scm X). Proof. by apply: wsum_pd. Qed.
Lemma scmZ c : ofR c *: scm X = wsum (fun=> N%:R^-1 * c) X.
Proof. by rewrite /scm /wsum scaler_sumr; apply: eq_bigr => i _; rewrite scalerA -rmorphM mulrC. Qed.
Lemma hub_ge S : loewner (ofR b *: scm X) (F S).
Proof.
rewrite scmZ -[F S]scale1r -(rmorph1 (@Star.ofR K)); apply: wsum_loewner => i; rewrite mul1r /hub_w ler_pmul2l //; exact: u_ge.
Qed.
Lemma maha_scm i : maha (scm X) (samp X i) <= N%:R.
Proof.
have := maha_own i (fun=> ltW n0) scm_pd; by rewrite -/(scm X) ler_pdivr_mull ?mulr1 // ltr0n (spanning_N sp).
Qed.
Lemma maha_above S i : pd S -> loewner (ofR b *: scm X) S -> maha S (samp X i) <= N%:R / b.
Proof.
move=> pS le; have h : loewner (scm X) (ofR b^-1 *: S).
  by have := loewnerZ (ltW (etrans (invr_gt0 _) b0)) le; rewrite scalerA -rmorphM mulVf ?gt_eqF // rmorph1 scale1r.
apply: le_trans (maha_loewner (samp X i) scm_pd pS h) _; rewrite mulrC ler_pmul2r ?invr_gt0 //; exact: maha_scm.
Qed.
Lemma hub_le S : pd S -> loewner (ofR b *: scm X) S -> loewner (F S) (ofR (Num.max b (N%:R / lb)) *: scm X).
Proof.
move=> pS le; apply: wsum_loewner => i; rewrite mulrC /hub_w ler_pmul2l //; apply: le_trans (u_mono l0 b0 (maha_above i pS le)) _.
rewrite /code_weight; case: (leP (N%:R / b) lb) => h; first by rewrite mulr1 le_maxr lexx.
by rewrite mulrA mulrCA divff ?gt_eqF // mulr1 le_maxr lexx orbT.
Qed.
Lemma hub_const S : pd S -> loewner (ofR b *: scm X) S -> N%:R <= lb * b -> F S = ofR b *: scm X.
Proof.
move=> pS le nl; rewrite scmZ; apply: eq_wsum => i; congr (_ * _); rewrite /code_weight (le_trans (maha_above i pS le)) ?mulr1 //.
by rewrite ler_pdivr_mulr.
Qed.
End Band.
Section BandRun.
Variable K : starField.
Local Notation ofR := (@ofR K).
Variables (lb b : R) (N p : nat) (X : 'M[K]_(N, p.+1)) (step : 'M[K]_p.+1 -> res 'M[K]_p.+1).
Hypotheses (l0 : 0 < lb) (b0 : 0 < b) (sp : spanning X).
Let F := mstep (hub_w lb b N) X.
Hypothesis stepE : forall s, pd s -> step s = Ok (F s).
Let Fpd S : pd S -> pd (F S). Proof. exact: (hub_pd l0 b0 (spanning_N sp) sp). Qed.
Lemma band_run tol m s0 s d k : pd s0 -> stops_with gtf PInf step (@rel_change K _) tol m s0 s d k ->
  [/\ (1 <= k)%N -> loewner (ofR b *: scm X) s, (2 <= k)%N -> loewner s (ofR (Num.max b (N%:R / lb)) *: scm X) &
      N%:R <= lb * b -> ((2 <= k)%N -> s = ofR b *: scm X) /\ forall t, tol = Fin t -> 0 <= t -> (k <= 3)%N].
Proof.
move=> p0 sw; have e := run_iter stepE Fpd p0 sw; have pk j := iter_pd Fpd j p0.
have ge j : loewner (ofR b *: scm X) (iter j.+1 F s0) by exact: hub_ge.
have cst j : N%:R <= lb * b -> iter j.+2 F s0 = ofR b *: scm X by move=> h; rewrite iterS; apply: hub_const.
split=> [k1|k2|nl].
- by rewrite e; case: k k1 {sw e} => // k _; exact: ge.
- by rewrite e; case: k k2 {sw e} => // -[|k] // _; rewrite iterS; apply: hub_le.
split=> [k2|t et t0]; first by rewrite e; case: k k2 {sw e} => // -[|k] // _; exact: cst.
rewrite et in sw; have [] := stops_small stepE Fpd p0 sw (j := 2) _ => //.
by rewrite /chg -/F !cst // subrr fro0 mul0r.
Qed.
End BandRun.
(* After one iteration the estimate is at least beta times the sample covariance matrix, after two at most a multiple of it;
   with few samples (N <= lambda beta) the functions return beta times the sample covariance matrix. *)
Theorem C88_bounds ppf cdf N p (q : R) tol m :
  (forall eigh (X : 'M[real_sf]_(N, p.+1)) init s d k, let lbda := huber_lbda ppf q p.+1 in let beta := huber_beta ppf cdf q p.+1 in
     eigh_ok eigh -> 0 < lbda -> 0 < beta -> spanning X -> (forall s0, init = Some s0 -> pd s0) ->
     huber_m_estimator_fixed_point eigh ppf cdf X q init tol m = Some (Ok (s, d, k)) ->
     [/\ (1 <= k)%N -> loewner (@ofR real_sf beta *: scm X) s, (2 <= k)%N -> loewner s (@ofR real_sf (Num.max beta (N%:R / lbda)) *: scm X) &
         N%:R <= lbda * beta -> ((2 <= k)%N -> s = @ofR real_sf beta *: scm X) /\ forall t, tol = Fin t -> 0 <= t -> (k <= 3)%N]) /\
  (forall eigh (X : 'M[complex_sf]_(N, p.+1)) init s d k, let lbda := complex_huber_lbda ppf q p.+1 in let beta := complex_huber_beta ppf cdf q p.+1 in
     eigh_ok eigh -> 0 < lbda -> 0 < beta -> spanning X -> (forall s0, init = Some s0 -> pd s0) ->
     complex_huber_m_estimator_fixed_point eigh ppf cdf X q init tol m = Some (Ok (s, d, k)) ->
     [/\ (1 <= k)%N -> loewner (@ofR complex_sf beta *: scm X) s, (2 <= k)%N -> loewner s (@ofR complex_sf (Num.max beta (N%:R / lbda)) *: scm X) &
         N%:R <= lbda * beta -> ((2 <= k)%N -> s = @ofR complex_sf beta *: scm X) /\ forall t, tol = Fin t -> 0 <= t -> (k <= 3)%N]).
Proof.
split=> eigh X init s d k lb b ok l0 b0 sp pi.
  have [s' [d' [k' [-> [step [a c p0 sw]]]]]] := real_huber_run tol m ok l0 b0 sp pi => -[<- _ <-].
  exact: (band_run l0 b0 sp a p0 sw).
have [s' [d' [k' [-> [step [a c p0 sw]]]]]] := complex_huber_run tol m ok l0 b0 sp pi => -[<- _ <-].
exact: (band_run l0 b0 sp a p0 sw).
Qed.

(* ------------------------------------------------------------------ oscillation *)
Lemma osc_alg (b lb P x : R) : 0 < lb -> 0 < P -> 0 < x -> b * (x^-1 / lb) / P = b / (P * lb * x).
Proof. by move=> /RltP l0 /RltP P0 /RltP x0; rfield; repeat split; apply: Rgt_not_eq. Qed.
Lemma osc_alg2 (b lb P c : R) : 0 < b -> 0 < lb -> 0 < P -> 0 < c -> b / (P * lb * (b / (P * lb * c))) = c.
Proof. by move=> /RltP b0 /RltP l0 /RltP P0 /RltP x0; rfield; repeat split; apply: Rgt_not_eq. Qed.
Section Oscillates.
Variable K : starField.
Local Notation ofR := (@ofR K).
Variables (lb b : R) (N p : nat) (X : 'M[K]_(N, p.+1)).
Hypotheses (l0 : 0 < lb) (b0 : 0 < b) (N0 : (0 < N)%N) (tX : tight X).
Let F := mstep (hub_w lb b N) X.
Local Notation I := (1%:M : 'M[K]_p.+1).
Let P : R := p.+1%:R.
Let P0 : 0 < P. Proof. by rewrite ltr0n. Qed.
Let NR : 0 < N%:R :> R. Proof. by rewrite ltr0n. Qed.
Lemma tight_spanning : spanning X.
Proof.
move=> y hy; have [_ e] := tX; have : wsum (fun=> 1) X *m y = 0.
  by rewrite /wsum mulmx_suml big1 // => i _; rewrite -scalemxAl /outer -mulmxA hy mulmx0 scaler0.
rewrite e -scalemxAl mul1mx => /eqP; rewrite scaler_eq0 fmorph_eq0 gt_eqF ?divr_gt0 //= => /eqP //.
Qed.
Lemma tight_maha c i : 0 < c -> maha (ofR c *: I) (samp X i) = c^-1.
Proof.
move=> c0; rewrite maha_scale //; last exact: pd1.
by rewrite /maha invmx1 mulmx1 (tX.1 i) mxE eqxx toR1 mul1r.
Qed.
Lemma tight_step c : 0 < c -> F (ofR c *: I) = ofR (code_weight lb b c^-1 / P) *: I.
Proof.
move=> c0; rewrite /F /mstep.
have -> : wsum (fun i => hub_w lb b N (maha (ofR c *: I) (samp X i))) X = ofR (hub_w lb b N c^-1) *: wsum (fun=> 1) X.
  by rewrite /wsum scaler_sumr; apply: eq_bigr => i _; rewrite tight_maha // rmorph1 scale1r.
rewrite tX.2 scalerA -rmorphM /hub_w; congr (ofR _ *: _).
by rewrite -/P -[N%:R^-1 * _]mulrC -mulrA (mulrA N%:R^-1) mulVf ?gt_eqF // mul1r.
Qed.
Variable c : R.
Hypotheses (c0 : b / P < c) (c1 : c < lb^-1).
Let c' := b / (P * lb * c).
Let cp : 0 < c. Proof. by apply: lt_trans c0; rewrite divr_gt0. Qed.
Let c'p : 0 < c'. Proof. by rewrite divr_gt0 // !mulr_gt0. Qed.
Lemma osc_u x : 0 < x -> x < lb^-1 -> code_weight lb b x^-1 / P = b / (P * lb * x).
Proof.
move=> x0 xl; rewrite /code_weight leNgt -[X in X < _]invrK ltf_pinv ?posrE ?invr_gt0 // xl /=.
exact: osc_alg.
Qed.
Lemma osc1 : F (ofR c *: I) = ofR c' *: I. Proof. by rewrite tight_step // osc_u. Qed.
Lemma osc_c' : c' < lb^-1.
Proof.
rewrite /c' ltr_pdivr_mulr ?mulr_gt0 // mulrC -!mulrA [c * _]mulrC (mulrA lb) mulfV ?gt_eqF // mul1r.
by rewrite -ltr_pdivr_mull // mulrC.
Qed.
Lemma osc2 : F (ofR c' *: I) = ofR c *: I.
Proof.
by rewrite tight_step // osc_u ?osc_c' // osc_alg2.
Qed.
Lemma osc_iter j : iter j F (ofR c *: I) = ofR (if odd j then c' else c) *: I.
Proof. by elim: j => [|j IH] //; rewrite iterS IH /=; case: (odd j) => /=; [exact: osc2 | exact: osc1]. Qed.
Lemma osc_chg (t : R) j : t < `|c' - c| / Num.max c c' -> t < chg X (hub_w lb b N) (ofR c *: I) j.
Proof.
move=> h; rewrite /chg -/F !osc_iter /= -scalerBl -rmorphB.
have f1 : 0 < fro I by rewrite lt_neqAle eq_sym pd_fro ?fro_ge0 //; exact: pd1.
have fZ x : fro (ofR x *: I) = `|x| * fro I.
  case: (boolP (0 <= x)) => x0; first by rewrite ger0_norm // froZ.
  have x1 : x <= 0 by move: x0; rewrite -ltNge => /ltW.
  by rewrite ler0_norm // -froZ ?oppr_ge0 // rmorphN scaleNr /fro fro2N.
rewrite !fZ -mulf_div divff ?gt_eqF // mulr1; apply: lt_le_trans h _.
have D : `|c - c'| = `|c' - c| by exact: distrC.
have M0 : 0 < Num.max c c' by rewrite lt_maxr cp.
have L x : 0 < x -> x <= Num.max c c' -> `|c' - c| / Num.max c c' <= `|c' - c| / `|x|.
  by move=> x0 xm; rewrite (gtr0_norm x0); apply: ler_wpmul2l; rewrite ?normr_ge0 // lef_pinv ?posrE.
by case: (odd j) => /=; rewrite ?D; apply: L; rewrite // le_maxr lexx ?orbT.
Qed.
Lemma osc_run step (t : R) m s d k : (forall S, pd S -> step S = Ok (F S)) -> t < `|c' - c| / Num.max c c' ->
  stops_with gtf PInf step (@rel_change K _) (Fin t) m (ofR c *: I) s d k -> s = ofR (if odd m then c' else c) *: I /\ k = m.
Proof.
move=> stE h sw; have Fpd S : pd S -> pd (F S) by exact: (hub_pd l0 b0 N0 tight_spanning).
have p0 : pd (ofR c *: I) by apply: pdZ; [rewrite ofR_gt0 | exact: pd1].
have e := never_stops stE Fpd p0 sw (fun j => osc_chg j h); by rewrite (run_iter stE Fpd p0 sw) e -/F osc_iter.
Qed.
End Oscillates.
(* The iterations need not converge: for samples of norm 1 that weigh every direction equally, whenever lambda beta < p,
   the functions started from c I alternate between c I and beta / (p lambda c) I; they never stop on a tolerance below the
   relative distance of these two matrices, and return one or the other according to the parity of iter_max. *)
Theorem C88_refuted ppf cdf N p (q c tol : R) m : (0 < N)%N ->
  (forall eigh (X : 'M[real_sf]_(N, p.+1)), let lbda := huber_lbda ppf q p.+1 in let beta := huber_beta ppf cdf q p.+1 in
     let c' := beta / (p.+1%:R * lbda * c) in eigh_ok eigh -> 0 < lbda -> 0 < beta -> tight X -> beta / p.+1%:R < c -> c < lbda^-1 ->
     tol < `|c' - c| / Num.max c c' -> exists d,
     huber_m_estimator_fixed_point eigh ppf cdf X q (Some (@ofR real_sf c *: 1%:M)) (Fin tol) m =
       Some (Ok (@ofR real_sf (if odd m then c' else c) *: 1%:M, d, m))) /\
  (forall eigh (X : 'M[complex_sf]_(N, p.+1)), let lbda := complex_huber_lbda ppf q p.+1 in let beta := complex_huber_beta ppf cdf q p.+1 in
     let c' := beta / (p.+1%:R * lbda * c) in eigh_ok eigh -> 0 < lbda -> 0 < beta -> tight X -> beta / p.+1%:R < c -> c < lbda^-1 ->
     tol < `|c' - c| / Num.max c c' -> exists d,
     complex_huber_m_estimator_fixed_point eigh ppf cdf X q (Some (@ofR complex_sf c *: 1%:M)) (Fin tol) m =
       Some (Ok (@ofR complex_sf (if odd m then c' else c) *: 1%:M, d, m))).
Proof.
move=> N0; have pc (K : starField) b : 0 < b -> b / p.+1%:R < c -> pd (@ofR K c *: 1%:M : 'M_p.+1).
  by move=> b0 h; apply: pdZ; [rewrite ofR_gt0; apply: lt_trans h; rewrite divr_gt0 ?ltr0n | exact: pd1].
split=> eigh X lb b c' ok l0 b0 tX c0 c1 ht; have sp := tight_spanning N0 tX.
  have [|s [d [k [e [step [st _ _ sw]]]]]] := real_huber_run (init := Some (@ofR real_sf c *: 1%:M)) (Fin tol) m ok l0 b0 sp _.
    by move=> s0 [<-]; exact: pc c0.
  by have [es ek] := osc_run l0 b0 N0 tX c0 c1 st ht sw; exists d; rewrite e es ek.
have [|s [d [k [e [step [st _ _ sw]]]]]] := complex_huber_run (init := Some (@ofR complex_sf c *: 1%:M)) (Fin tol) m ok l0 b0 sp _.
  by move=> s0 [<-]; exact: pc c0.
by have [es ek] := osc_run l0 b0 N0 tX c0 c1 st ht sw; exists d; rewrite e es ek.
Qed.
(* Such thresholds occur: with the functions of scipy.stats.chi2 and every dimension, for some level q *)
Theorem C88_thresholds ppf cdf p : chi2_ok ppf cdf -> (0 < p)%N ->
  (exists2 q : R, 0 < q < 1 & [/\ 0 < huber_lbda ppf q p, 0 < huber_beta ppf cdf q p & huber_lbda ppf q p * huber_beta ppf cdf q p < p%:R]) /\
  (exists2 q : R, 0 < q < 1 & [/\ 0 < complex_huber_lbda ppf q p, 0 < complex_huber_beta ppf cdf q p & complex_huber_lbda ppf q p * complex_huber_beta ppf cdf q p < p%:R]).
Proof.
move=> ok p0; have P0 : 0 < p%:R :> R by rewrite ltr0n.
have P2 : 0 < p%:R / 2%:R :> R by rewrite divr_gt0 ?ltr0n.
have arith (x F g P : R) : 0 < P -> 0 < x -> x < P / 2%:R -> 0 < F -> F < 1 -> 0 <= g -> g <= x / P -> [/\ 0 < x / 2%:R, 0 < F + g & x / 2%:R * (F + g) < P].
  move=> hP x0 xP F0 F1 g0 gx; split; [by rewrite divr_gt0 ?ltr0n | by rewrite ltr_spaddl |].
  have g1 : F + g <= 1 + 1.
    apply: ler_add; first exact: ltW.
    apply: le_trans gx _; rewrite ler_pdivr_mulr // mul1r; apply: le_trans (ltW xP) _.
    by rewrite ler_pdivr_mulr ?ltr0n // ler_pmulr // ler1n.
  apply: (@le_lt_trans _ _ (x / 2%:R * (1 + 1))); first by rewrite ler_pmul2l // divr_gt0 ?ltr0n.
  rewrite -[1 + 1]/(2%:R : R) divfK ?pnatr_eq0 //; apply: lt_le_trans xP _.
  by rewrite ler_pdivr_mulr ?ltr0n // ler_pmulr // ler1n.
split.
  have [q hq sm] := small_quantile p _ (elimT (RltP _ _) P2); have hq' : 0 < q < 1 by apply/andP; split; apply/RltP; case: hq.
  exists q => //; have [x0 Pq] := (ok _ p0).2 q hq'; have xs := sm _ (elimT (RltP _ _) x0) Pq.
  have [/RltP F0 /RltP F1] := prob_gt0 _ _ _ ((ok (p + 1)%N (ltn_addr 1 p0)).1 _ x0) (elimT (RltP _ _) x0).
  rewrite /huber_beta /huber_lbda twohalf; apply: arith => //; first exact/RltP.
    by apply: divr_ge0; [apply: mulr_ge0; [exact: ltW | by case/andP: hq' => _ /ltW; rewrite subr_ge0] | exact: ltW].
  by rewrite ler_pmul2r ?invr_gt0 // ger_pmulr // ger_addl oppr_le0; case/andP: hq' => /ltW.
have p2 : (0 < 2 * p)%N by rewrite muln_gt0.
have [q hq sm] := small_quantile (2 * p)%N _ (elimT (RltP _ _) P2); have hq' : 0 < q < 1 by apply/andP; split; apply/RltP; case: hq.
exists q => //; have [x0 Pq] := (ok _ p2).2 q hq'; have xs := sm _ (elimT (RltP _ _) x0) Pq.
have [/RltP F0 /RltP F1] := prob_gt0 _ _ _ ((ok (2 * p + 2)%N (ltn_addr 2 p2)).1 _ x0) (elimT (RltP _ _) x0).
rewrite /complex_huber_beta /complex_huber_lbda twohalf; move: x0 xs F0 F1; set x := ppf q _ => x0 xs F0 F1; apply: arith => //; first exact/RltP.
  apply: divr_ge0; last exact: ltW.
  by apply: mulr_ge0; [apply: divr_ge0; [exact: ltW | exact: ler0n] | case/andP: hq' => _ /ltW; rewrite subr_ge0].
rewrite ler_pmul2r ?invr_gt0 //; apply: (@le_trans _ _ (x / 2%:R)).
  by rewrite ger_pmulr ?divr_gt0 ?ltr0n // ger_addl oppr_le0; case/andP: hq' => /ltW.
by rewrite ler_pdivr_mulr ?ltr0n // ler_pmulr // ler1n.
Qed.

(* The hypotheses are met.  The vectors of the canonical basis weigh every direction equally. *)
Lemma basis_tight (K : starField) p : tight (1%:M : 'M[K]_p.+1).
Proof.
have sE i : samp (1%:M : 'M[K]_p.+1) i = delta_mx i 0 by rewrite /samp rowE mulmx1 trmx_delta.
have aE i : adj (delta_mx i 0 : 'cV[K]_p.+1) = delta_mx 0 i.
  by apply/matrixP => a b; rewrite adjE !mxE andbC; case: (_ && _); rewrite ?rmorph1 ?rmorph0.
split=> [i|]; first by rewrite sE aE mul_delta_mx; apply/matrixP => a b; rewrite (ord1 a) (ord1 b) !mxE.
rewrite divff ?pnatr_eq0 // [@ofR K 1]rmorph1 scale1r /wsum [RHS]scalar_mx_sum_delta; apply: eq_bigr => i _.
by rewrite [@ofR K 1]rmorph1 /outer sE aE mul_delta_mx.
Qed.
(* lambda = 1, beta = 1, p = 2, c = 3/4: the iterates alternate between 3/4 I and 2/3 I *)
Example C88_refuted_hypotheses (K : starField) : let c := 3%:R / 4%:R : R in
  [/\ tight (1%:M : 'M[K]_2), 1 / 2%:R < c, c < 1^-1 & 1 / (2%:R * 1 * c) != c].
Proof.
split; first exact: basis_tight.
- by rlra2.
- by rewrite invr1; rlra2.
- have -> : 1 / (2%:R * 1 * (3%:R / 4%:R)) = 2%:R / 3%:R :> R by rfield.
  by rewrite lt_eqF //; rlra2.
Qed.
(* lambda = 3, beta = 1, p = 2: the solution is I / 2, the distances are 2 *)
Example C88_converges_hypotheses (K : starField) : let Sol := @ofR K (1 / 2%:R) *: (1%:M : 'M[K]_2) in
  [/\ pd Sol, estimating_eq (code_weight 3%:R 1) (1%:M : 'M[K]_2) Sol & core_spanning 3%:R (1%:M : 'M[K]_2) Sol].
Proof.
have h0 : 0 < 1 / 2%:R :> R by rewrite divr_gt0 ?ltr01 ?ltr0n.
have l0 : 0 < 3%:R :> R by rewrite ltr0n.
have tX := basis_tight K 1; have E := tight_step 3%:R 1 (ltn0Sn 1) tX h0.
have i2 : (1 / 2%:R)^-1 = 2%:R :> R by rewrite div1r invrK.
move=> Sol; split; first by apply: pdZ; [rewrite ofR_gt0 | exact: pd1].
- apply/estimating_hub; rewrite E i2 /code_weight ler_nat /= mul1r //.
- move=> y hy; apply: (tight_spanning (ltn0Sn 1) tX) => i; apply: hy; rewrite (tight_maha tX) // i2 ltr_nat //.
Qed.

Print Assumptions C88_solution.
Print Assumptions C88_converges_partial.
Print Assumptions C88_bounds.
Print Assumptions C88_refuted.
Print Assumptions C88_thresholds.
