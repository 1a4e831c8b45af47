(* Tyler's estimate depends continuously on the samples: C105. *)
From Coq Require Import Reals String Lra Classical_Prop.
From mathcomp Require Import all_ssreflect all_algebra.
From mathcomp Require Import complex zify.
From Verif Require Import RealsMC RealTac RealTac2 Star StarInst FunCalc Model_featurearray Model_linalg Proofs_linalg Props_linalg
  Model_covariance Spec_covariance Spec_fixedpoint Spec_exist Model_estimators Proofs_mest Proofs_loop Proofs_covariance Proofs_estimators
  Props_covariance Proofs_cost Props_cost Props_robust Proofs_unique Proofs_unique2 Props_unique Compact Proofs_converge Props_converge
  Proofs_exist Proofs_exist2 Props_exist Proofs_stable Proofs_stable2 Proofs_tycont.
Set Implicit Arguments.
Unset Strict Implicit.
Unset Printing Implicit Defensive.
Local Open Scope ring_scope.
Import GRing.Theory Num.Theory Order.TTheory.

(* ------------------------------------------------------------------ C105 *)
Lemma near_fro (K : starField) N p (X : 'M[K]_(N, p)) P : near_data X P -> exists2 d : R, 0 < d & forall Y, fro (Y - X) <= d -> P Y.
Proof.
move=> [d d0 h]; exists (R_sqrt.sqrt d); first by apply/RltP/R_sqrt.sqrt_lt_R0/RltP.
move=> Y le; apply: h; rewrite -fro_sq; have -> : d = R_sqrt.sqrt d ^+ 2 by rewrite -RpowE R_sqrt.pow2_sqrt //; apply/RleP/ltW.
by rewrite ler_sqr ?nnegrE ?fro_ge0 //; apply/RleP; exact: R_sqrt.sqrt_pos.
Qed.
(* When the samples satisfy the condition under which Tyler's equation has one solution up to a factor, so do all samples
   near them, and the normalised solution is near *)
Theorem C105_continuous N p nrm : (0 < N)%N -> scaling_norm nrm ->
  (forall (X : 'M[real_sf]_(N, p.+1)) S, (forall i, row i X != 0) -> tyler_condition X -> tyler_solution X S -> forall t : R, 0 < t ->
     exists2 d : R, 0 < d & forall Y, fro (Y - X) <= d -> tyler_condition Y /\ exists T, [/\ tyler_solution Y T, forall T', tyler_solution Y T' -> proportional T T' &
       fro (normalised nrm T - normalised nrm S) <= t * fro (normalised nrm S)]) /\
  (forall (X : 'M[complex_sf]_(N, p.+1)) S, (forall i, row i X != 0) -> tyler_condition X -> tyler_solution X S -> forall t : R, 0 < t ->
     exists2 d : R, 0 < d & forall Y, fro (Y - X) <= d -> tyler_condition Y /\ exists T, [/\ tyler_solution Y T, forall T', tyler_solution Y T' -> proportional T T' &
       fro (normalised nrm T - normalised nrm S) <= t * fro (normalised nrm S)]).
Proof.
move=> N0 hn.
have G (K : starField) (cK : compactK K) (X : 'M[K]_(N, p.+1)) S : (forall i, row i X != 0) -> tyler_condition X -> tyler_solution X S -> forall t : R, 0 < t ->
     exists2 d : R, 0 < d & forall Y, fro (Y - X) <= d -> tyler_condition Y /\ exists T, [/\ tyler_solution Y T, forall T', tyler_solution Y T' -> proportional T T' &
       fro (normalised nrm T - normalised nrm S) <= t * fro (normalised nrm S)].
  move=> X0 cond sol t t0; have [f f0 hf] := normalised_fro nrm sol.1 t0; apply: near_fro.
  apply: near_imp (near_and (near_nonzero X0) (near_and (near_condition X0 cond) (tyler_near cK X0 N0 sol cond f0))) => Y [Y0 [cY h]].
  split=> //; have [T sT] := tyler_exists cK Y0 N0 cY; exists T; split=> // [T' sT'|].
    exact: (tyler_unique N0 Y0 (tyler_irreducible Y0 N0 cY) sT sT').
  have [c c0 cl] := h T sT; have pc : pd (@ofR K c *: T) by apply: pdZ; [rewrite ofR_gt0 | exact: sT.1].
  have -> : normalised nrm T = normalised nrm (@ofR K c *: T) by rewrite (same_normalised hn sT.1 (T := @ofR K c *: T)) //; exists c.
  exact: hf.
split=> X; [exact: (G _ real_compact) | exact: (G _ complex_compact)].
Qed.
(* the same for the results of the functions, from a given starting matrix or from the default one, after enough updates;
   how many does not depend on the perturbation *)
Theorem C105_results N p : (0 < N)%N ->
  (forall (X : 'M[real_sf]_(N, p.+1)) init, (forall i, row i X != 0) -> tyler_condition X -> (forall s0, init = Some s0 -> pd s0) ->
     exists2 L, tyler_solution X L & forall nrm (t : R), 0 < t -> exists n, exists2 e : R, 0 < e & forall eigh Y tol m s d k, eigh_ok eigh -> fro (Y - X) <= e ->
       tyler_shape_matrix_fixedpoint eigh Y init tol m nrm = Some (Ok (s, d, k)) -> (n <= k)%N -> fro (s - normalised nrm L) <= t * fro (normalised nrm L)) /\
  (forall (X : 'M[complex_sf]_(N, p.+1)) init, (forall i, row i X != 0) -> tyler_condition X -> (forall s0, init = Some s0 -> pd s0) ->
     exists2 L, tyler_solution X L & forall nrm (t : R), 0 < t -> exists n, exists2 e : R, 0 < e & forall eigh Y tol m s d k, eigh_ok eigh -> fro (Y - X) <= e ->
       complex_tyler_shape_matrix_fixedpoint eigh Y init tol m nrm = Some (Ok (s, d, k)) -> (n <= k)%N -> fro (s - normalised nrm L) <= t * fro (normalised nrm L)).
Proof.
move=> N0.
have G (K : starField) (cK : compactK K) (X : 'M[K]_(N, p.+1)) s0 : (forall i, row i X != 0) -> tyler_condition X -> start X s0 ->
    exists2 L, tyler_solution X L & forall nrm (t : R), 0 < t -> exists n, exists2 e : R, 0 < e & forall Y, fro (Y - X) <= e ->
      [/\ spanning Y, forall i, row i Y != 0 & forall k, (n <= k)%N ->
         fro (normalised nrm (iter k (mstep (tyl_w N p.+1) Y) (s0 Y)) - normalised nrm L) <= t * fro (normalised nrm L)].
  move=> X0 cond st; have [S sol] := tyler_exists cK X0 N0 cond; have [L sL hL] := tyler_near_runs cK X0 N0 sol cond st; exists L => // nrm t t0.
  have [f f0 hf] := normalised_fro nrm sL.1 t0; have [n hn] := hL f f0; exists n; apply: near_fro.
  apply: near_imp (near_and st.1 (near_and (near_spanning X0 N0 cond) hn)) => Y [pY [[Y0 sp] hk]]; split=> // k nk; apply: hf; last exact: hk.
  by elim: (k) => //= j; exact: tyl_pd.
have sl (K : starField) (X : 'M[K]_(N, p.+1)) init : (forall i, row i X != 0) -> tyler_condition X -> (forall s0, init = Some s0 -> pd s0) ->
    start X (fun Y => if init is Some s0 then s0 else wsum (fun=> N%:R^-1) Y).
  by case: init => [s0|] X0 cond pi; [apply/start_const/pi | exact: start_mean].
split=> X init X0 cond pi; have st := sl _ X init X0 cond pi.
  have [L sL hL] := G _ real_compact X _ X0 cond st; exists L => // nrm t t0; have [n [e e0 h]] := hL nrm t t0.
  exists n, e => // eigh Y tol m s d k ok /h [sp Y0 hk] /(real_tyler_run ok Y0 sp pi) [step [v [-> a b c sw]]] nk.
  rewrite (run_iter a b c sw); have := hk k nk; by case: (init) => [s0|] //; rewrite /real_init real_init_none.
have [L sL hL] := G _ complex_compact X _ X0 cond st; exists L => // nrm t t0; have [n [e e0 h]] := hL nrm t t0.
exists n, e => // eigh Y tol m s d k ok /h [sp Y0 hk] /(complex_tyler_run ok Y0 sp pi) [step [v [-> a b c sw]]] nk.
rewrite (run_iter a b c sw); have := hk k nk; by case: (init) => [s0|] //; rewrite /complex_init complex_init_none.
Qed.
Example C105_hypotheses (K : starField) : exists (X : 'M[K]_(3, 2)) S, [/\ forall i, row i X != 0, tyler_condition X & tyler_solution X S].
Proof.
have [X [Sol [[_ X0] irr sol _ _]]] := C77_C79_hypotheses K ltr01; exists X, Sol; split=> //; exact: (tyler_necessary X0 sol irr).
Qed.

Print Assumptions C105_continuous.
Print Assumptions C105_results.
Print Assumptions C105_hypotheses.
