(* Student's estimates go from Tyler's estimate to the empirical covariance as the degrees of freedom grow: C119. *)
From Coq Require Import Reals Lra.
From mathcomp Require Import all_ssreflect all_algebra.
From mathcomp Require Import complex zify.
From Verif Require Import RealsMC RealTac RealTac2 Star StarInst FunCalc Model_featurearray Model_linalg Proofs_linalg Props_linalg
  Model_covariance Spec_covariance Spec_fixedpoint Spec_exist Spec_hubiter Model_estimators Proofs_mest Proofs_loop Proofs_covariance Proofs_estimators
  Props_covariance Proofs_cost Props_cost Props_robust Proofs_unique Proofs_unique2 Props_unique Compact Proofs_converge Props_converge
  Proofs_exist Proofs_exist2 Props_exist Proofs_stable Spec_df Proofs_df.
Set Implicit Arguments.
Unset Strict Implicit.
Unset Printing Implicit Defensive.
Local Open Scope ring_scope.
Import GRing.Theory Num.Theory Order.TTheory.

(* ------------------------------------------------------------------ C119 *)
(* Many degrees of freedom: when the samples span the space, Student's equation with a > p N has a solution, and for
   a >= 2 N the solution is at relative distance at most (2 N + p) / a from the empirical covariance *)
Theorem C119_many N p :
  (forall X : 'M[real_sf]_(N, p.+1), spanning X -> (forall i, row i X != 0) -> forall a : R, (p.+1 * N)%:R < a -> (2 * N)%:R <= a ->
     exists2 S, student_solution a X S & fro (S - scm X) <= (2 * N + p.+1)%:R / a * fro (scm X)) /\
  (forall X : 'M[complex_sf]_(N, p.+1), spanning X -> (forall i, row i X != 0) -> forall a : R, (p.+1 * N)%:R < a -> (2 * N)%:R <= a ->
     exists2 S, student_solution a X S & fro (S - scm X) <= (2 * N + p.+1)%:R / a * fro (scm X)).
Proof.
have G (K : starField) (cK : compactK K) (X : 'M[K]_(N, p.+1)) : spanning X -> (forall i, row i X != 0) -> forall a : R, (p.+1 * N)%:R < a -> (2 * N)%:R <= a ->
     exists2 S, student_solution a X S & fro (S - scm X) <= (2 * N + p.+1)%:R / a * fro (scm X).
  move=> sp X0 a la l2; have a0 : 0 < a by exact: le_lt_trans (ler0n _ _) la.
  by have [S sS] := student_exists cK X0 a0 (large_condition a0 sp la); exists S => //; exact: large_fro.
by split=> X; [exact: (G _ real_compact) | exact: (G _ complex_compact)].
Qed.
(* the result of the functions from the default start satisfies the same bound, for every tolerance and number of
   iterations; a is df/2 for the real function *)
Theorem C119_many_results N p (df : R) : 0 < df ->
  (forall eigh (X : 'M[real_sf]_(N, p.+1)) tol m s d k, eigh_ok eigh -> spanning X -> (2 * N)%:R <= df / 2%:R ->
     student_t_mle_fixed_point eigh X df None tol m = Some (Ok (s, d, k)) ->
     fro (s - scm X) <= (2 * N + p.+1)%:R / (df / 2%:R) * fro (scm X)) /\
  (forall eigh (X : 'M[complex_sf]_(N, p.+1)) tol m s d k, eigh_ok eigh -> spanning X -> (2 * N)%:R <= df ->
     complex_student_t_mle_fixed_point eigh X df None tol m = Some (Ok (s, d, k)) ->
     fro (s - scm X) <= (2 * N + p.+1)%:R / df * fro (scm X)).
Proof.
move=> d0; split=> eigh X tol m s d k ok sp la h.
  have [|st [a b c sw]] := real_student_run ok d0 sp _ h; first by [].
  rewrite (run_iter a b c sw) /real_init real_init_none; apply: iter_large_fro => //; exact: half_pos.
have [|st [a b c sw]] := complex_student_run ok d0 sp _ h; first by [].
by rewrite (run_iter a b c sw) /complex_init complex_init_none; apply: iter_large_fro.
Qed.
(* Few degrees of freedom: under the condition of Tyler's equation, the solutions of Student's equation tend, as a tends
   to 0, to the solution T of Tyler's equation for which the mean of 1 / (x^H T^-1 x) is 1/p; so do the matrices
   normalised in any way *)
Theorem C119_few N p : (0 < N)%N ->
  (forall X : 'M[real_sf]_(N, p.+1), (forall i, row i X != 0) -> tyler_condition X ->
     exists T, [/\ tyler_solution X T, harmonic X T, forall T', tyler_solution X T' -> harmonic X T' -> T' = T &
       forall e : R, 0 < e -> exists2 a0 : R, 0 < a0 & forall a, 0 < a <= a0 -> student_condition a X /\ forall S, student_solution a X S ->
         fro (S - T) <= e * fro T /\ forall nrm, fro (normalised nrm S - normalised nrm T) <= e * fro (normalised nrm T)]) /\
  (forall X : 'M[complex_sf]_(N, p.+1), (forall i, row i X != 0) -> tyler_condition X ->
     exists T, [/\ tyler_solution X T, harmonic X T, forall T', tyler_solution X T' -> harmonic X T' -> T' = T &
       forall e : R, 0 < e -> exists2 a0 : R, 0 < a0 & forall a, 0 < a <= a0 -> student_condition a X /\ forall S, student_solution a X S ->
         fro (S - T) <= e * fro T /\ forall nrm, fro (normalised nrm S - normalised nrm T) <= e * fro (normalised nrm T)]).
Proof.
move=> N0.
have G (K : starField) (cK : compactK K) (X : 'M[K]_(N, p.+1)) : (forall i, row i X != 0) -> tyler_condition X ->
     exists T, [/\ tyler_solution X T, harmonic X T, forall T', tyler_solution X T' -> harmonic X T' -> T' = T &
       forall e : R, 0 < e -> exists2 a0 : R, 0 < a0 & forall a, 0 < a <= a0 -> student_condition a X /\ forall S, student_solution a X S ->
         fro (S - T) <= e * fro T /\ forall nrm, fro (normalised nrm S - normalised nrm T) <= e * fro (normalised nrm T)].
  move=> X0 cond; have [T sT hT] := tyler_harmonic cK X0 N0 cond; exists T; split=> // [T' sT' hT'|e e0].
    exact: (harmonic_unique X0 N0 cond).
  have [t t0 ht] := small3 e0; have [a0 aa ha] := small_close cK X0 N0 sT hT cond t0; exists a0 => // a aa0; split.
    by apply: C86_weaker => //; case/andP: aa0.
  move=> S sS; have cl := ha a S aa0 sS; have tt : (1 + t) * (1 + t) - 1 <= e.
    by apply: le_trans ht; rewrite addrCA subrr addr0 ler_add2r; apply: ler_pemull; rewrite ?mulr_ge0 // ?addr_ge0 ?ler01 ?ler_addl ?ltW.
  have te : t <= e.
    apply: le_trans tt; have -> : (1 + t) * (1 + t) - 1 = t + t + t * t by rring.
    by rewrite -addrA ler_addl addr_ge0 ?mulr_ge0 ?ltW.
  split=> [|nrm].
    have [h1 h2] := close_le (pd_psd sS.1) (pd_psd sT.1) te cl; apply: loewner_fro => //; [exact: sS.1 | exact: sT.1 | exact: ltW].
  have c1 := normalised_close nrm (ltW t0) sS.1 sT.1 cl; have pS' := normalised_pd nrm sS.1; have pL' := normalised_pd nrm sT.1.
  by have [h1 h2] := close_le (pd_psd pS') (pd_psd pL') tt c1; apply: loewner_fro => //; exact: ltW.
by split=> X; [exact: (G _ real_compact) | exact: (G _ complex_compact)].
Qed.
(* and the results of the functions, for a small tolerance and enough iterations *)
Theorem C119_few_results N p : (0 < N)%N ->
  (forall X : 'M[real_sf]_(N, p.+1), (forall i, row i X != 0) -> tyler_condition X ->
     exists T, [/\ tyler_solution X T, harmonic X T & forall e : R, 0 < e -> exists2 d0 : R, 0 < d0 & forall df, 0 < df <= d0 ->
       forall eigh init, eigh_ok eigh -> (forall s0, init = Some s0 -> pd s0) -> exists2 t : R, 0 < t & forall tol : R, 0 < tol <= t -> exists n, forall m s d k, (n <= m)%N ->
         student_t_mle_fixed_point eigh X df init (Fin tol) m = Some (Ok (s, d, k)) -> fro (s - T) <= e * fro T]) /\
  (forall X : 'M[complex_sf]_(N, p.+1), (forall i, row i X != 0) -> tyler_condition X ->
     exists T, [/\ tyler_solution X T, harmonic X T & forall e : R, 0 < e -> exists2 d0 : R, 0 < d0 & forall df, 0 < df <= d0 ->
       forall eigh init, eigh_ok eigh -> (forall s0, init = Some s0 -> pd s0) -> exists2 t : R, 0 < t & forall tol : R, 0 < tol <= t -> exists n, forall m s d k, (n <= m)%N ->
         complex_student_t_mle_fixed_point eigh X df init (Fin tol) m = Some (Ok (s, d, k)) -> fro (s - T) <= e * fro T]).
Proof.
move=> N0.
have tri (K : starField) n (s S T : 'M[K]_n) (e f : R) : 0 <= f -> (1 + f) * (1 + f) - 1 <= e -> fro (s - S) <= f * fro S -> fro (S - T) <= f * fro T -> fro (s - T) <= e * fro T.
  move=> f0 fe h1 h2; have -> : s - T = (s - S) + (S - T) by rewrite addrA subrK.
  apply: le_trans (froD _ _) _; have h3 : fro S <= (1 + f) * fro T.
    rewrite mulrDl mul1r addrC -{1}[S](subrK T); apply: le_trans (froD _ _) _; by rewrite ler_add2r.
  apply: le_trans (ler_add h1 h2) _; apply: le_trans (_ : ((1 + f) * (1 + f) - 1) * fro T <= _); last by apply: ler_wpmul2r => //; exact: fro_ge0.
  have h4 : f * fro S <= f * ((1 + f) * fro T) by apply: ler_wpmul2l.
  move: h4; move: (fro S) (fro T) => x y h4; rlra2.
have sm (e : R) : 0 < e -> exists2 f : R, 0 < f & (1 + f) * (1 + f) - 1 <= e.
  move=> e0; have [t t0 ht] := small3 e0; exists t => //.
  by apply: le_trans ht; rewrite [1 + (_ - 1)]addrCA subrr addr0 ler_add2r ler_pemull ?mulr_ge0 // ?addr_ge0 ?ler01 ?ler_addl ?ltW.
split=> X X0 cond.
  have [T [sT hT _ hs]] := (C119_few p N0).1 X X0 cond; exists T; split=> // e e0; have [f f0 hf] := sm e e0; have [a0 aa ha] := hs f f0.
  exists (a0 * 2%:R); first by rewrite mulr_gt0 ?ltr0n.
  move=> df /andP[d0 da] eigh init ok pi; have dd : 0 < df / 2%:R <= a0 by rewrite half_pos //= ler_pdivr_mulr ?ltr0n.
  have [sc cl] := ha _ dd; have [Sol sS h] := (C86_computed N p d0).1 X X0 sc; have [t t0 ht] := h eigh init f ok pi f0; exists t => // tol tt.
  have [n hn] := ht tol tt; exists n => m s d k nm r; exact: (tri _ _ _ _ _ _ _ (ltW f0) hf (hn _ _ _ _ nm r) (cl _ sS).1).
have [T [sT hT _ hs]] := (C119_few p N0).2 X X0 cond; exists T; split=> // e e0; have [f f0 hf] := sm e e0; have [a0 aa ha] := hs f f0.
exists a0 => // df dd eigh init ok pi; have d0 : 0 < df by case/andP: dd.
have [sc cl] := ha _ dd; have [Sol sS h] := (C86_computed N p d0).2 X X0 sc; have [t t0 ht] := h eigh init f ok pi f0; exists t => // tol tt.
have [n hn] := ht tol tt; exists n => m s d k nm r; exact: (tri _ _ _ _ _ _ _ (ltW f0) hf (hn _ _ _ _ nm r) (cl _ sS).1).
Qed.

(* ------------------------------------------------------------------ examples *)
(* for the samples 1 and 2 on the line, Student's estimate goes from 8/5 to 5/2 *)
Example C119_ex (K : starField) : [/\ spanning (wX K), forall i, row i (wX K) != 0, tyler_condition (wX K),
  tyler_solution (wX K) (sc K (8%:R / 5%:R)) /\ harmonic (wX K) (sc K (8%:R / 5%:R)) & scm (wX K) = sc K (5%:R / 2%:R)].
Proof.
have s0 : 0 < 8%:R / 5%:R :> R by rewrite divr_gt0 ?ltr0n.
have two : (1 + 1 : R) != 0 by rewrite gt_eqF // addr_gt0 ?ltr01.
split=> [|i|V|| ].
- move=> y /(_ 0) /matrixP /(_ 0 0); rewrite wX_samp !mxE big_ord1 !mxE rmorph1 -?(rmorph1 (@ofR K)).
  by rewrite /wx /= ?rmorph1 mul1r => e; apply/matrixP => a b; rewrite (ord1 a) (ord1 b) e mxE.
- exact: wX_row.
- by case: (\rank V) => [|[]].
- split; first (split; first exact: sc_pd).
    rewrite wsum_sc !wX_samp !maha_sc // /wx /=; congr (sc K _); rfield.
  rewrite /harmonic big_ord_recl big_ord1 !wX_samp !maha_sc // /wx /=; rfield.
- by rewrite /scm wsum_sc; congr (sc K _); rfield.
Qed.

Print Assumptions C119_many.
Print Assumptions C119_many_results.
Print Assumptions C119_few.
Print Assumptions C119_few_results.
Print Assumptions C119_ex.
