(* The solution of the equation iterated by the Huber functions depends continuously on the samples: C123. *)
From Coq Require Import Reals Lra.
From mathcomp Require Import all_ssreflect all_algebra.
From mathcomp Require Import complex zify.
From Verif Require Import RealsMC RealTac RealTac2 Star StarInst FunCalc Compact Model_featurearray Model_linalg Proofs_linalg Props_linalg Model_covariance Model_estimators
  Spec_covariance Spec_fixedpoint Spec_exist Spec_hubiter Spec_chi2 HuberNum HuberNum2 Proofs_mest Proofs_estimators Proofs_cost Props_cost Props_covariance Props_robust Props_robust2
  Proofs_unique Proofs_unique2 Props_unique Proofs_converge Props_converge Props_huber Proofs_hubiter Proofs_hubiter2 Props_hubiter
  Proofs_stable Proofs_stable2 Proofs_tycont Proofs_hubcont.
Set Implicit Arguments.
Unset Strict Implicit.
Unset Printing Implicit Defensive.
Local Open Scope ring_scope.
Import GRing.Theory Num.Theory Order.TTheory.

Lemma near_fro (K : starField) N p (X : 'M[K]_(N, p)) P : near_data X P -> exists2 d : R, 0 < d & forall Y, fro (Y - X) <= d -> P Y.
Proof.
move=> [d d0 h]; exists (R_sqrt.sqrt d); first by apply/RltP/R_sqrt.sqrt_lt_R0/RltP.
move=> Y le; apply: h; rewrite -fro_sq; have -> : d = R_sqrt.sqrt d ^+ 2 by rewrite -RpowE R_sqrt.pow2_sqrt //; apply/RleP/ltW.
by rewrite ler_sqr ?nnegrE ?fro_ge0 //; apply/RleP; exact: R_sqrt.sqrt_pos.
Qed.
(* For all samples near X the equation that the functions iterate has exactly one solution, near the one for X *)
Theorem C123_continuous N p (lbda beta : R) : 0 < lbda -> 0 < beta ->
  (forall eigh (X : 'M[real_sf]_(N, p.+1)) S, eigh_ok eigh -> spanning X -> (forall i, row i X != 0) -> pd S -> huber_step eigh X lbda beta S = Ok S ->
     forall t : R, 0 < t -> exists2 d : R, 0 < d & forall Y, fro (Y - X) <= d ->
       exists T, [/\ pd T, forall T', pd T' -> (huber_step eigh Y lbda beta T' = Ok T' <-> T' = T) & fro (T - S) <= t * fro S]) /\
  (forall eigh (X : 'M[complex_sf]_(N, p.+1)) S, eigh_ok eigh -> spanning X -> (forall i, row i X != 0) -> pd S -> complex_huber_step eigh X lbda beta S = Ok S ->
     forall t : R, 0 < t -> exists2 d : R, 0 < d & forall Y, fro (Y - X) <= d ->
       exists T, [/\ pd T, forall T', pd T' -> (complex_huber_step eigh Y lbda beta T' = Ok T' <-> T' = T) & fro (T - S) <= t * fro S]).
Proof.
move=> l0 b0; have [H1 H2] := C37_equation_solved_partial N p.+1 l0 b0.
have G (K : starField) (cK : compactK K) (X : 'M[K]_(N, p.+1)) S : spanning X -> (forall i, row i X != 0) -> pd S -> estimating_eq (code_weight lbda beta) X S ->
    forall t : R, 0 < t -> exists2 d : R, 0 < d & forall Y, fro (Y - X) <= d ->
      exists T, [/\ pd T, forall T', pd T' -> (estimating_eq (code_weight lbda beta) Y T' <-> T' = T) & fro (T - S) <= t * fro S].
  move=> sp X0 pS eS t t0; have N0 := spanning_N sp; have fS := (estimating_hub lbda beta X S).1 eS.
  have [d d0 h] := near_fro (near_and (near_spans X0 sp) (hub_near cK l0 b0 N0 X0 sp pS fS t0)); exists d => // Y le.
  have [[Y0 spY] hY] := h Y le; have [T [pT eT _ un]] := hub_solution cK l0 b0 spY Y0; exists T; split=> //.
    by move=> T' pT'; split=> [e|->//]; exact: un.
  by have [c1 c2] := hY T pT ((estimating_hub lbda beta Y T).1 eT); apply: loewner_fro => //; exact: ltW.
split=> eigh X S ok sp X0 pS /(fun h => h) e t t0.
  have [d d0 h] := G _ real_compact X S sp X0 pS ((H1 _ _ _ ok pS).1 e) t t0; exists d => // Y le.
  have [T [pT hT fT]] := h Y le; exists T; split=> // T' pT'; rewrite -(hT T' pT'); exact: H1.
have [d d0 h] := G _ complex_compact X S sp X0 pS ((H2 _ _ _ ok pS).1 e) t t0; exists d => // Y le.
have [T [pT hT fT]] := h Y le; exists T; split=> // T' pT'; rewrite -(hT T' pT'); exact: H2.
Qed.
(* When the samples at a distance below lbda of the solution span the space (without which the functions may alternate for
   ever, C88), the results for all samples near X are near the solution for X after a number of updates that does not
   depend on the samples, from a given starting matrix or from the default one *)
Theorem C123_results ppf cdf N p (q : R) :
  (forall eigh (X : 'M[real_sf]_(N, p.+1)) S init, let lbda := huber_lbda ppf q p.+1 in let beta := huber_beta ppf cdf q p.+1 in
     eigh_ok eigh -> 0 < lbda -> 0 < beta -> (forall i, row i X != 0) -> pd S -> huber_step eigh X lbda beta S = Ok S -> core_spanning lbda X S ->
     (forall s0, init = Some s0 -> pd s0) -> forall t : R, 0 < t -> exists n, exists2 d : R, 0 < d & forall Y tol m s e k, fro (Y - X) <= d ->
       huber_m_estimator_fixed_point eigh ppf cdf Y q init tol m = Some (Ok (s, e, k)) -> (n <= k)%N -> fro (s - S) <= t * fro S) /\
  (forall eigh (X : 'M[complex_sf]_(N, p.+1)) S init, let lbda := complex_huber_lbda ppf q p.+1 in let beta := complex_huber_beta ppf cdf q p.+1 in
     eigh_ok eigh -> 0 < lbda -> 0 < beta -> (forall i, row i X != 0) -> pd S -> complex_huber_step eigh X lbda beta S = Ok S -> core_spanning lbda X S ->
     (forall s0, init = Some s0 -> pd s0) -> forall t : R, 0 < t -> exists n, exists2 d : R, 0 < d & forall Y tol m s e k, fro (Y - X) <= d ->
       complex_huber_m_estimator_fixed_point eigh ppf cdf Y q init tol m = Some (Ok (s, e, k)) -> (n <= k)%N -> fro (s - S) <= t * fro S).
Proof.
have G (K : starField) (cK : compactK K) lb b (X : 'M[K]_(N, p.+1)) S s0 : 0 < lb -> 0 < b -> (forall i, row i X != 0) -> pd S ->
    estimating_eq (code_weight lb b) X S -> core_spanning lb X S -> start X s0 -> forall t : R, 0 < t -> exists n, exists2 d : R, 0 < d &
    forall Y, fro (Y - X) <= d -> [/\ spanning Y, pd (s0 Y) & forall k, (n <= k)%N -> fro (iter k (mstep (hub_w lb b N) Y) (s0 Y) - S) <= t * fro S].
  move=> l0 b0 X0 pS eS cs st t t0; have sp : spanning X by move=> y h; apply: cs => i _; exact: h.
  have N0 := spanning_N sp; have fS := (estimating_hub lb b X S).1 eS.
  have [r [r0 r1 hr]] := hub_converges l0 b0 N0 pS fS cs; have [M M0 hM] := hr _ (near_at st.1).
  have pk (Y : 'M[K]_(N, p.+1)) k T : spanning Y -> pd T -> pd (iter k (mstep (hub_w lb b N) Y) T).
    by move=> spY pT; elim: k => //= k; exact: hub_pd.
  have cv (e : R) : 0 < e -> exists n, forall k, (n <= k)%N -> close e (iter k (mstep (hub_w lb b N) X) (s0 X)) S.
    move=> e0; have [n hn] := geometric r0 r1 M0 e0; exists n => k nk; apply: close_le (hM k); [exact/pd_psd/pk/(near_at st.1) | exact: pd_psd |].
    exact: hn.
  have [n nr] := hub_near_runs cK l0 b0 N0 X0 sp pS fS st cv t0; exists n.
  have [d d0 h] := near_fro (near_and (near_and (near_spans X0 sp) st.1) nr); exists d => // Y le.
  have [[[Y0 spY] pY] hY] := h Y le; split=> // k nk; have [c1 c2] := hY k nk; apply: loewner_fro => //; [exact: pk | exact: ltW].
have sl (K : starField) (X : 'M[K]_(N, p.+1)) init lb S : core_spanning lb X S -> (forall i, row i X != 0) -> (forall s0, init = Some s0 -> pd s0) ->
    start X (fun Y => if init is Some s0 then s0 else wsum (fun=> N%:R^-1) Y).
  move=> cs X0 pi; have sp : spanning X by move=> y h; apply: cs => i _; exact: h.
  by case: init pi => [s0|] pi; [apply/start_const/pi | apply: hub_start_mean => //; exact: (spanning_N sp)].
split=> eigh X S init lb b ok l0 b0 X0 pS eS cs pi t t0; have st := sl _ X init lb S cs X0 pi.
  have [n [d d0 h]] := G _ real_compact lb b X S _ l0 b0 X0 pS (((C37_equation_solved_partial N p.+1 l0 b0).1 _ _ _ ok pS).1 eS) cs st t t0.
  exists n, d => // Y tol m s e k le hr nk; have [spY pY hk] := h Y le.
  have [s' [d' [k' [e' [step [x y z sw]]]]]] := real_huber_run tol m ok l0 b0 spY pi; move: hr; rewrite e' => -[es ed ek]; rewrite es ed ek in sw.
  by rewrite (run_iter x y z sw); have := hk k nk; case: (init) => [s0|] //; rewrite /real_init real_init_none.
have [n [d d0 h]] := G _ complex_compact lb b X S _ l0 b0 X0 pS (((C37_equation_solved_partial N p.+1 l0 b0).2 _ _ _ ok pS).1 eS) cs st t t0.
exists n, d => // Y tol m s e k le hr nk; have [spY pY hk] := h Y le.
have [s' [d' [k' [e' [step [x y z sw]]]]]] := complex_huber_run tol m ok l0 b0 spY pi; move: hr; rewrite e' => -[es ed ek]; rewrite es ed ek in sw.
by rewrite (run_iter x y z sw); have := hk k nk; case: (init) => [s0|] //; rewrite /complex_init complex_init_none.
Qed.
(* lambda = 3, beta = 1: the standard basis of the plane, the solution I / 2 *)
Example C123_hypotheses (K : starField) : let X := 1%:M : 'M[K]_2 in let S := @ofR K (1 / 2%:R) *: (1%:M : 'M[K]_2) in
  [/\ spanning X, forall i, row i X != 0, pd S, estimating_eq (code_weight 3%:R 1) X S & core_spanning 3%:R X S].
Proof.
have [pS eS cs] := C88_converges_hypotheses K; split=> //; first by move=> y h; apply: cs => i _; exact: h.
move=> i; apply/negP => /eqP /matrixP /(_ 0 i); rewrite !mxE eqxx => /eqP; by rewrite oner_eq0.
Qed.
Print Assumptions C123_continuous.
Print Assumptions C123_results.
