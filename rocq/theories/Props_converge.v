(* Convergence of the fixed-point functions to a solution of the estimating equation: C84. *)
From Coq Require Import Reals String Lra Classical_Prop.
From mathcomp Require Import all_ssreflect all_algebra.
From mathcomp Require Import complex zify.
From Verif Require Import RealsMC RealTac RealTac2 Star StarInst FunCalc Model_featurearray Model_linalg Proofs_linalg Props_linalg
  Model_covariance Spec_covariance Spec_fixedpoint Model_estimators Proofs_mest Proofs_loop Proofs_covariance Proofs_estimators Props_covariance
  Proofs_cost Props_cost Props_robust Proofs_unique Proofs_unique2 Props_unique Compact Proofs_converge.
Set Implicit Arguments.
Unset Strict Implicit.
Unset Printing Implicit Defensive.
Local Open Scope ring_scope.
Import GRing.Theory Num.Theory Order.TTheory.

(* ------------------------------------------------------------------ normalised matrices *)
Section Normalised.
Variable K : starField.
Local Notation ofR := (@ofR K).
Local Notation toR := (@toR K).
Lemma toR_le (x y : K) : x <= y -> toR x <= toR y.
Proof. by move=> h; rewrite -subr_ge0 -raddfB; apply: toR_ge0; rewrite subr_ge0. Qed.
Lemma psd_diag0 p (A : 'M[K]_p) i : psd A -> 0 <= A i i.
Proof.
move=> pA; have := pA.2 (delta_mx i 0); suff -> : qf A (delta_mx i 0) = A i i by [].
have e : adj (delta_mx i 0 : 'cV[K]_p) = delta_mx 0 i.
  by apply/matrixP => a b; rewrite adjE !mxE andbC; case: (_ && _); rewrite ?rmorph1 ?rmorph0.
by rewrite /qf /sesq e -rowE -colE !mxE.
Qed.
Lemma det_loewner p (S T : 'M[K]_p) : pd S -> pd T -> loewner S T -> \det S <= \det T.
Proof.
move=> pS pT le; have [B [d [uB eT eS d0]]] := simdiag pT pS.
have d1 j : d 0 j <= 1.
  have E1 : dia K (const_mx 1) = 1%:M :> 'M_p by rewrite dia_const rmorph1.
  have : psd (dia K (\row_i ((const_mx 1 : 'rV[R]_p) 0 i - d 0 i))).
    have eT' : T = B *m dia K (const_mx 1) *m adj B by rewrite E1 mulmx1.
    have := psd_congr (invmx B) le; rewrite eT' eS -mulmxBl -mulmxBr diaB !mulmxA mulVmx // mul1mx -mulmxA -adjM mulVmx // adj1 mulmx1; exact.
  move=> /(psd_diag0 j); rewrite !mxE eqxx mulr1n ofRge0 subr_ge0; exact.
have -> : \det S = \det T * ofR (\prod_j d 0 j).
  rewrite eS eT !det_mulmx mulrAC; congr (_ * _); rewrite det_diag rmorph_prod; apply: eq_bigr => j _; by rewrite mxE.
apply: ler_pimulr; first exact/ltW/det_pd.
rewrite -(rmorph1 (@Star.ofR K)) ofR_le; have : \prod_j d 0 j <= \prod_(j < p) (1 : R); last by rewrite [X in _ <= X]big1.
apply: ler_prod => j _; by rewrite ltW ?d0 ?d1.
Qed.
Lemma norm_loewner p nrm (S T : 'M[K]_p.+1) : pd S -> pd T -> loewner S T -> toR (get_normalisation_function nrm S) <= toR (get_normalisation_function nrm T).
Proof.
move=> pS pT le; rewrite /get_normalisation_function; do 4?case: ifP => _ //.
- rewrite /norm_trace !toRK; apply: ler_wpmul2r; first by rewrite invr_ge0 ler0n.
  apply: toR_le; by rewrite -subr_ge0 -linearB /=; exact: tr_psd.
- rewrite /norm_determinant !toRK; apply/RleP; apply: Rle_Rpower_l; first by apply/RleP; rewrite mul1r invr_ge0 ler0n.
  split; first by apply/RltP; apply: toR_gt0; exact: det_pd.
  apply/RleP/toR_le; exact: det_loewner.
- rewrite /norm_element; apply: toR_le; rewrite -subr_ge0; by have := psd_diag0 0 le; rewrite !mxE.
Qed.
Lemma normalised_close p nrm (S T : 'M[K]_p.+1) e : 0 <= e -> pd S -> pd T -> close e S T ->
  close ((1 + e) * (1 + e) - 1) (normalised nrm S) (normalised nrm T).
Proof.
move=> e0 pS pT h; have e1 : 0 < 1 + e by rewrite ltr_paddr ?ltr01.
have ee : e <= (1 + e) * (1 + e) - 1 by rewrite ler_subr_addl ler_pmulr // ler_addl.
case: (classic (scaling_norm nrm)) => hn; last by rewrite !C28_unknown_or_None_unscaled //; apply: close_le ee h; exact: pd_psd.
have W (A B : 'M[K]_p.+1) : pd A -> pd B -> loewner A (ofR (1 + e) *: B) -> loewner B (ofR (1 + e) *: A) ->
  loewner (normalised nrm A) (ofR (1 + ((1 + e) * (1 + e) - 1)) *: normalised nrm B).
  move=> pA pB hA hB; have a0 := norm_gt0 nrm pA; have b0 := norm_gt0 nrm pB.
  have pA' : pd (ofR (1 + e) *: A) by apply: pdZ; rewrite ?ofR_gt0.
  have := norm_loewner nrm pB pA' hB; rewrite norm_scale // toRZ.
  rewrite /normalised -(toR_ofR_gt0 a0) -(toR_ofR_gt0 b0) !toRK -!fmorphV scalerA -rmorphM.
  have := toR_gt0 a0; have := toR_gt0 b0; move: (toR _) (toR _) => b a b1 a1 ba.
  rewrite addrCA subrr addr0; apply: loewner_trans (loewnerZ _ hA) _; first by rewrite invr_ge0 ltW.
  rewrite scalerA -rmorphM; apply: loewner_le; first exact: pd_psd.
  by rewrite mulrC -mulrA; apply: ler_wpmul2l; [exact: ltW | rewrite ler_pdivl_mulr // mulrC ler_pdivr_mulr].
by case: h => h1 h2; split; apply: W.
Qed.
End Normalised.

(* ------------------------------------------------------------------ Tyler's iterates converge *)
Section Tyler.
Variable K : starField.
Local Notation ofR := (@ofR K).
Hypothesis cK : compactK K.
Variables (N p : nat) (X : 'M[K]_(N, p.+1)).
Hypothesis (X0 : forall i, row i X != 0).
Let F := mstep (tyl_w N p.+1) X.
Lemma tyl_subhom : (0 < N)%N -> subhom (tyl_w N p.+1).
Proof.
move=> N0 q r l q0 r0 l1 h; rewrite /tyl_w mulrCA; apply: ler_wpmul2l; first exact: tyl_c0.
by rewrite ler_pdivl_mulr // mulrC ler_pdivr_mulr.
Qed.
Lemma tyl_pd S : (0 < N)%N -> spanning X -> pd S -> pd (F S).
Proof.
move=> N0 sp pS; apply: mstep_pd => // i; rewrite !divr_gt0 ?ltr0n //; exact: (maha_gt0 pS (samp0 X0 i)).
Qed.
Lemma tyl_bounded_below Sol : tyler_solution X Sol -> forall S, pd S -> mcost (fun q => p.+1%:R * ln q) X Sol <= mcost (fun q => p.+1%:R * ln q) X S.
Proof.
move=> sol S pS; have N0 := spanning_N (tyler_spanning sol).
by have := tyler_min N0 X0 sol.1 pS sol.2; rewrite !tcost_mcost.
Qed.
(* once close to a solution, the iterates stay close *)
Lemma tyl_stays L S e j : 0 < e -> tyler_solution X L -> pd S -> close e S L -> close e (iter j F S) L.
Proof.
move=> e0 sL pS h; have sp := tyler_spanning sL; have N0 := spanning_N sp; have e1 : 0 < 1 + e by rewrite addr_gt0 ?ltr01.
have pk k : pd (iter k F S) by elim: k => //= k; exact: tyl_pd.
by elim: j => //= j [a b]; split; [exact: tyl_above | exact: tyl_below].
Qed.
Lemma tyl_converges Sol S : tyler_solution X Sol -> pd S ->
  exists2 L, tyler_solution X L & forall e : R, 0 < e -> exists k0, forall k, (k0 <= k)%N -> close e (iter k F S) L.
Proof.
move=> sol pS; have sp := tyler_spanning sol; have N0 := spanning_N sp; have Fpd T := @tyl_pd T N0 sp.
have pk k : pd (iter k F S) by elim: k => //= k; exact: Fpd.
have [l [l1 h1 h2]] := pd_comparable pS sol.1; have l0 := lt_le_trans ltr01 l1.
have hk k : loewner (iter k F S) (ofR l *: Sol) /\ loewner Sol (ofR l *: iter k F S).
  by elim: k => //= k [a b]; split; [exact: tyl_above | exact: tyl_below].
have [m [m1 g1 g2]] := pd_comparable sol.1 (pd1 K p.+1); have m0 := lt_le_trans ltr01 m1.
have ev := @eventually_close K N p.+1 X (tyl_w N p.+1) X0 N0 Fpd (fun q => p.+1%:R * ln q) _ S _ pS (fun k => tyl_bounded_below sol (pk k)).
have b1 k : loewner 1%:M (ofR (l * m) *: iter k F S) by rewrite mulrC; apply: loewner_comp g2 (hk k).2; exact: ltW.
have b2 k : loewner (iter k F S) (ofR (l * m) *: 1%:M) by apply: loewner_comp (hk k).1 g1; exact: ltW.
have cv q q' : 0 < q -> 0 < q' -> p.+1%:R * ln q' <= p.+1%:R * ln q + N%:R * tyl_w N p.+1 q * (q' - q) by move=> q0 q'0; rewrite scaledN //; exact: tyler_concave.
have [L [pL fL hL]] := fixed_cluster X0 (tyl_subhom N0) Fpd cK (mulr_gt0 l0 m0) pk b1 b2 (ev cv).
have sL : tyler_solution X L by split=> //; rewrite -{1}fL.
exists L => // e e0; have [k0 _ c0] := hL e 0%N e0; exists k0 => k kk.
by rewrite -(subnK kk) iterD; apply: tyl_stays.
Qed.
End Tyler.
(* ------------------------------------------------------------------ small tolerances *)
(* A property of all late iterates holds of the matrix returned by a run that met a small enough tolerance: an earlier
   update that changes nothing is followed by no other matrix. *)
Section Tolerance.
Variable K : starField.
Variables (N p : nat) (X : 'M[K]_(N, p.+1)) (w : R -> R) (step : 'M[K]_p.+1 -> res 'M[K]_p.+1) (P : 'M[K]_p.+1 -> Prop).
Let F := mstep w X.
Lemma small_pos (f : nat -> R) k : exists2 t : R, 0 < t & forall j, (j < k)%N -> f j <= t -> f j <= 0.
Proof.
elim: k => [|k [t t0 ht]]; first by exists 1; rewrite ?ltr01.
case: (lerP (f k) 0) => h.
  by exists t => // j; rewrite ltnS leq_eqVlt => /orP[/eqP->|]; [|exact: ht].
exists (Num.min t (f k / 2%:R)); first by rewrite lt_minr t0 divr_gt0 ?ltr0n.
move=> j; rewrite ltnS leq_eqVlt le_minr => /orP[/eqP->|jk] /andP[a b]; last exact: ht.
by move: b; rewrite leNgt ltr_pdivr_mulr ?ltr0n // mulr_natr mulr2n ltr_addl h.
Qed.
Lemma tolerance s0 : pd s0 -> (forall S, pd S -> pd (F S)) -> (exists k0, forall k, (k0 <= k)%N -> P (iter k F s0)) ->
  exists2 t : R, 0 < t & forall j, fro (iter j.+1 F s0 - iter j F s0) / fro (iter j F s0) <= t -> P (iter j.+1 F s0).
Proof.
move=> p0 Fpd [k0 ev]; have pk k : pd (iter k F s0) by elim: k => //= k; exact: Fpd.
have [t t0 ht] := small_pos (fun j => fro (iter j.+1 F s0 - iter j F s0) / fro (iter j F s0)) k0; exists t => // j hj.
case: (leqP k0 j) => [jk|jk]; first by apply: ev; apply: leqW.
have f0 : 0 < fro (iter j F s0) by rewrite lt_neqAle eq_sym (pd_fro (pk j)) fro_ge0.
have := ht j jk hj; rewrite ler_pdivr_mulr // mul0r => h.
have /fro_eq0 /eqP : fro (iter j.+1 F s0 - iter j F s0) = 0 by apply/eqP; rewrite eq_le h fro_ge0.
rewrite subr_eq0 => /eqP e.
have st n : iter (n + j) F s0 = iter j F s0 by elim: n => //= n ->; rewrite -[RHS]e.
by rewrite e -(st k0); apply: ev; rewrite leq_addr.
Qed.
Hypothesis stepE : forall s, pd s -> step s = Ok (mstep w X s).
Hypothesis step_pd : forall s, pd s -> pd (mstep w X s).
Lemma run_tolerance s0 t t' m s x k : pd s0 -> (forall j, fro (iter j.+1 F s0 - iter j F s0) / fro (iter j F s0) <= t -> P (iter j.+1 F s0)) ->
  t' <= t -> stops_with gtf PInf step (@rel_change K _) (Fin t') m s0 s (Fin x) k -> x <= t' -> P s.
Proof.
move=> p0 H tt sw xt; have e := run_iter stepE step_pd p0 sw; have := run_change stepE step_pd p0 sw.
case: k e sw => [|k] e sw //; rewrite e => -[ex]; apply: H; rewrite -ex; exact: le_trans xt tt.
Qed.
End Tolerance.
Lemma normalised_fro (K : starField) p nrm (L : 'M[K]_p.+1) (e : R) : pd L -> 0 < e ->
  exists2 f : R, 0 < f & forall S, pd S -> close f S L -> fro (normalised nrm S - normalised nrm L) <= e * fro (normalised nrm L).
Proof.
move=> pL e0; have [f f0 hf] := small3 e0; exists f => // S pS cl; have f1 : 1 <= 1 + f by rewrite ler_addl ltW.
have c1 := normalised_close nrm (ltW f0) pS pL cl; have pS' := normalised_pd nrm pS; have pL' := normalised_pd nrm pL.
have le : (1 + f) * (1 + f) - 1 <= e.
  by apply: le_trans hf; rewrite addrCA subrr addr0 ler_add2r ler_pemull // mulr_ge0 // (le_trans ler01).
have [h1 h2] := close_le (pd_psd pS') (pd_psd pL') le c1; apply: loewner_fro => //; exact: ltW.
Qed.

(* ------------------------------------------------------------------ C84 *)
Definition near (K : starField) p (e : R) (T S : 'M[K]_p) := fro (S - T) <= e * fro T.
(* From any positive definite starting point, Tyler's iterates converge to a solution of Tyler's equation as soon as it
   has one; so do the estimates returned with any normalisation, when the number of iterations grows or the tolerance
   decreases. *)
Theorem C84_tyler_converges N p :
  (forall eigh (X : 'M[real_sf]_(N, p.+1)) Sol init, eigh_ok eigh -> (forall i, row i X != 0) -> tyler_solution X Sol ->
     (forall s0, init = Some s0 -> pd s0) -> exists2 L, tyler_solution X L & forall nrm (e : R), 0 < e ->
       (exists k0, forall tol m s d k, (k0 <= k)%N ->
          tyler_shape_matrix_fixedpoint eigh X init tol m nrm = Some (Ok (s, d, k)) -> fro (s - normalised nrm L) <= e * fro (normalised nrm L)) /\
       (exists2 t : R, 0 < t & forall tol m s x k, tol <= t -> x <= tol ->
          tyler_shape_matrix_fixedpoint eigh X init (Fin tol) m nrm = Some (Ok (s, Fin x, k)) -> fro (s - normalised nrm L) <= e * fro (normalised nrm L))) /\
  (forall eigh (X : 'M[complex_sf]_(N, p.+1)) Sol init, eigh_ok eigh -> (forall i, row i X != 0) -> tyler_solution X Sol ->
     (forall s0, init = Some s0 -> pd s0) -> exists2 L, tyler_solution X L & forall nrm (e : R), 0 < e ->
       (exists k0, forall tol m s d k, (k0 <= k)%N ->
          complex_tyler_shape_matrix_fixedpoint eigh X init tol m nrm = Some (Ok (s, d, k)) -> fro (s - normalised nrm L) <= e * fro (normalised nrm L)) /\
       (exists2 t : R, 0 < t & forall tol m s x k, tol <= t -> x <= tol ->
          complex_tyler_shape_matrix_fixedpoint eigh X init (Fin tol) m nrm = Some (Ok (s, Fin x, k)) -> fro (s - normalised nrm L) <= e * fro (normalised nrm L))).
Proof.
have G (K : starField) (cK : compactK K) (X : 'M[K]_(N, p.+1)) Sol s0 : (forall i, row i X != 0) -> tyler_solution X Sol -> pd s0 ->
  exists2 L, tyler_solution X L & forall nrm (e : R), 0 < e ->
    (exists k0, forall k, (k0 <= k)%N -> near e (normalised nrm L) (normalised nrm (iter k (mstep (tyl_w N p.+1) X) s0))).
  move=> X0 sol p0; have [L sL hL] := tyl_converges cK X0 sol p0; exists L => // nrm e e0.
  have [f f0 hf] := normalised_fro nrm sL.1 e0; have [k0 h0] := hL f f0; exists k0 => k kk; apply: hf; last exact: h0.
  have sp := tyler_spanning sol; by elim: (k) => //= n; apply: tyl_pd => //; exact: spanning_N sp.
split=> eigh X Sol init ok X0 sol pi; have sp := tyler_spanning sol.
  have p0 := real_init_pd sp pi; have Fpd S := @tyl_pd _ N p X X0 S (spanning_N sp) sp.
  have [L sL hL] := G real_sf real_compact X Sol _ X0 sol p0; exists L => // nrm e e0; have ev := hL nrm e e0.
  have [t t0 ht] := tolerance (P := fun S => near e (normalised nrm L) (normalised nrm S)) p0 Fpd ev; have [k0 hk] := ev; split.
    exists k0 => tol m s d k kk /(real_tyler_run ok X0 sp pi) [st [v [-> a b c sw]]]; rewrite (run_iter a b c sw); exact: hk.
  exists t => // tol m s x k tt xt /(real_tyler_run ok X0 sp pi) [st [v [-> a b c sw]]].
  exact: (run_tolerance (P := fun S => near e (normalised nrm L) (normalised nrm S)) a b c ht tt sw xt).
have p0 := complex_init_pd sp pi; have Fpd S := @tyl_pd _ N p X X0 S (spanning_N sp) sp.
have [L sL hL] := G complex_sf complex_compact X Sol _ X0 sol p0; exists L => // nrm e e0; have ev := hL nrm e e0.
have [t t0 ht] := tolerance (P := fun S => near e (normalised nrm L) (normalised nrm S)) p0 Fpd ev; have [k0 hk] := ev; split.
  exists k0 => tol m s d k kk /(complex_tyler_run ok X0 sp pi) [st [v [-> a b c sw]]]; rewrite (run_iter a b c sw); exact: hk.
exists t => // tol m s x k tt xt /(complex_tyler_run ok X0 sp pi) [st [v [-> a b c sw]]].
exact: (run_tolerance (P := fun S => near e (normalised nrm L) (normalised nrm S)) a b c ht tt sw xt).
Qed.
(* When the samples do not split, any accuracy is reached: there is a tolerance, and for each smaller one a number of
   iterations, with which the functions return the normalised solution up to this relative accuracy. *)
Theorem C84_tyler_accuracy N p nrm (e : R) : scaling_norm nrm -> 0 < e ->
  (forall eigh (X : 'M[real_sf]_(N, p.+1)) Sol init, eigh_ok eigh -> (forall i, row i X != 0) -> irreducible X -> tyler_solution X Sol ->
     (forall s0, init = Some s0 -> pd s0) -> exists2 t : R, 0 < t & forall tol : R, 0 < tol <= t -> exists n, forall m s d k, (n <= m)%N ->
       tyler_shape_matrix_fixedpoint eigh X init (Fin tol) m nrm = Some (Ok (s, d, k)) -> fro (s - normalised nrm Sol) <= e * fro (normalised nrm Sol)) /\
  (forall eigh (X : 'M[complex_sf]_(N, p.+1)) Sol init, eigh_ok eigh -> (forall i, row i X != 0) -> irreducible X -> tyler_solution X Sol ->
     (forall s0, init = Some s0 -> pd s0) -> exists2 t : R, 0 < t & forall tol : R, 0 < tol <= t -> exists n, forall m s d k, (n <= m)%N ->
       complex_tyler_shape_matrix_fixedpoint eigh X init (Fin tol) m nrm = Some (Ok (s, d, k)) -> fro (s - normalised nrm Sol) <= e * fro (normalised nrm Sol)).
Proof.
move=> hn e0; split=> eigh X Sol init ok X0 irr sol pi; have N0 := spanning_N (tyler_spanning sol).
  have [L sL hL] := (C84_tyler_converges N p).1 eigh X Sol init ok X0 sol pi; have [_ [t t0 ht]] := hL nrm e e0.
  rewrite (same_normalised hn sol.1 (tyler_unique N0 X0 irr sol sL)) in ht; exists t => // tol /andP[tol0 tt].
  have [n hn'] := C79_large_enough (tyler_objective X (real_init X init) - tyler_objective X Sol) tol0 N0; exists n => m s d k nm h.
  have [_ /(_ nm) [x ex xt]] := (C79_tyler_stops N p nrm n tol0).1 eigh X Sol init m s d k ok X0 pi sol hn' h.
  by apply: (ht _ m _ x k tt xt); rewrite -ex; exact: h.
have [L sL hL] := (C84_tyler_converges N p).2 eigh X Sol init ok X0 sol pi; have [_ [t t0 ht]] := hL nrm e e0.
rewrite (same_normalised hn sol.1 (tyler_unique N0 X0 irr sol sL)) in ht; exists t => // tol /andP[tol0 tt].
have [n hn'] := C79_large_enough (tyler_objective X (complex_init X init) - tyler_objective X Sol) tol0 N0; exists n => m s d k nm h.
have [_ /(_ nm) [x ex xt]] := (C79_tyler_stops N p nrm n tol0).2 eigh X Sol init m s d k ok X0 pi sol hn' h.
by apply: (ht _ m _ x k tt xt); rewrite -ex; exact: h.
Qed.
(* Student's: the solution is unique and no normalisation is applied *)
Lemma geometric (r M e : R) : 0 <= r -> r < 1 -> 0 <= M -> 0 < e -> exists k0, forall k, (k0 <= k)%N -> r ^+ k * M <= e.
Proof.
move=> r0 r1 M0 e0; have M1 : 0 < M + 1 by rewrite ltr_spaddr ?ltr01.
have a1 : Rlt (Rabs r) 1%R by rewrite Rabs_pos_eq; [apply: (elimT (RltP _ _)); exact: r1 | apply: (elimT (RleP _ _))].
have y0 : 0 < e / (M + 1) by rewrite divr_gt0.
have [k0 hk] := pow_lt_1_zero r a1 _ (elimT (RltP _ _) y0).
exists k0 => k /ssrnat.leP kk; have := hk k kk; rewrite Rabs_pos_eq; last by apply/RleP; rewrite RpowE exprn_ge0.
move=> /RltP; rewrite RpowE ltr_pdivl_mulr // => h; apply: le_trans (ltW h).
by apply: ler_wpmul2l; rewrite ?exprn_ge0 // ler_addl ler01.
Qed.
Lemma student_eventually (K : starField) N p a (X : 'M[K]_(N, p.+1)) Sol s0 (e : R) : 0 < a -> (forall i, row i X != 0) -> student_solution a X Sol -> pd s0 -> 0 < e ->
  exists k0, forall k, (k0 <= k)%N -> near e Sol (iter k (mstep (stu_w N p.+1 a) X) s0).
Proof.
move=> a0 X0 sol p0 e0; have N0 := spanning_N (student_spanning sol).
have [Q Q0 hQ] : exists2 Q : R, 0 <= Q & forall i, maha Sol (samp X i) <= Q.
  exists (\sum_i maha Sol (samp X i)); first by apply: sumr_ge0 => i _; exact: (maha_ge0 _ sol.1).
  by move=> i; rewrite (bigD1 i) //= ler_addl; apply: sumr_ge0 => j _; exact: (maha_ge0 _ sol.1).
have [M M0 hM] := stu_converges N0 a0 Q0 sol hQ p0; have [r0 r1] := rate_ge0 a0 Q0.
have [k0 hk0] := geometric r0 r1 M0 e0; exists k0 => k kk; apply: le_trans (hM k) _.
by apply: ler_wpmul2r; [exact: fro_ge0 | exact: hk0].
Qed.
Theorem C84_student_accuracy N p (df e : R) : 0 < df -> 0 < e ->
  (forall eigh (X : 'M[real_sf]_(N, p.+1)) Sol init, eigh_ok eigh -> (forall i, row i X != 0) -> student_solution (df / 2%:R) X Sol ->
     (forall s0, init = Some s0 -> pd s0) -> exists2 t : R, 0 < t & forall tol : R, 0 < tol <= t -> exists n, forall m s d k, (n <= m)%N ->
       student_t_mle_fixed_point eigh X df init (Fin tol) m = Some (Ok (s, d, k)) -> fro (s - Sol) <= e * fro Sol) /\
  (forall eigh (X : 'M[complex_sf]_(N, p.+1)) Sol init, eigh_ok eigh -> (forall i, row i X != 0) -> student_solution df X Sol ->
     (forall s0, init = Some s0 -> pd s0) -> exists2 t : R, 0 < t & forall tol : R, 0 < tol <= t -> exists n, forall m s d k, (n <= m)%N ->
       complex_student_t_mle_fixed_point eigh X df init (Fin tol) m = Some (Ok (s, d, k)) -> fro (s - Sol) <= e * fro Sol).
Proof.
move=> d0 e0; have a0 : 0 < df / 2%:R by rewrite divr_gt0 ?ltr0n.
split=> eigh X Sol init ok X0 sol pi; have sp := student_spanning sol; have N0 := spanning_N sp.
  have p0 := real_init_pd sp pi; have Fpd S := @student_mstep_pd _ N p _ X S a0 sp.
  have [t t0 ht] := tolerance (P := near e Sol) p0 Fpd (student_eventually a0 X0 sol p0 e0).
  exists t => // tol /andP[tol0 tt].
  have [n hn] := C79_large_enough (student_objective (df / 2%:R) X (real_init X init) - student_objective (df / 2%:R) X Sol) tol0 N0; exists n => m s d k nm h.
  have [_ /(_ nm) [x ex xt]] := (C79_student_stops N p n d0 tol0).1 eigh X Sol init m s d k ok X0 pi sol hn h.
  have [st [a b c sw]] := real_student_run ok d0 sp pi h; rewrite ex in sw; exact: (run_tolerance (P := near e Sol) a b c ht tt sw xt).
have p0 := complex_init_pd sp pi; have Fpd S := @student_mstep_pd _ N p _ X S d0 sp.
have [t t0 ht] := tolerance (P := near e Sol) p0 Fpd (student_eventually d0 X0 sol p0 e0).
exists t => // tol /andP[tol0 tt].
have [n hn] := C79_large_enough (student_objective df X (complex_init X init) - student_objective df X Sol) tol0 N0; exists n => m s d k nm h.
have [_ /(_ nm) [x ex xt]] := (C79_student_stops N p n d0 tol0).2 eigh X Sol init m s d k ok X0 pi sol hn h.
have [st [a b c sw]] := complex_student_run ok d0 sp pi h; rewrite ex in sw; exact: (run_tolerance (P := near e Sol) a b c ht tt sw xt).
Qed.
(* the hypotheses are met: three plane vectors in general position *)
Example C84_hypotheses (K : starField) : exists (X : 'M[K]_(3, 2)) (Sol : 'M[K]_2),
  [/\ forall i, row i X != 0, irreducible X, tyler_solution X Sol & student_solution 1 X Sol].
Proof. by have [X [Sol [[_ X0] a b c _]]] := C77_C79_hypotheses K ltr01; exists X, Sol. Qed.

Print Assumptions C84_tyler_converges.
Print Assumptions C84_tyler_accuracy.
Print Assumptions C84_student_accuracy.
