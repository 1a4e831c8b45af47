(* Theorems about the solutions of Tyler's and Student's equations and the algorithms computing them: C77-C79. *)
From Coq Require Import Reals String Lra.
From mathcomp Require Import all_ssreflect all_algebra.
From mathcomp Require Import complex zify.
From Verif Require Import RealsMC RealTac RealTac2 Star StarInst FunCalc Model_featurearray Model_linalg Proofs_linalg Props_linalg
  Model_covariance Spec_covariance Spec_fixedpoint Model_estimators Proofs_mest Proofs_loop Proofs_covariance Proofs_estimators Props_covariance
  Proofs_cost Props_cost Props_robust Proofs_unique Proofs_unique2.
Set Implicit Arguments.
Unset Strict Implicit.
Unset Printing Implicit Defensive.
Local Open Scope ring_scope.
Import GRing.Theory Num.Theory Order.TTheory.

(* A run of the loop with update S |-> sum w(x^H S^-1 x) x x^H *)
Section Run.
Variable K : starField.
Variables (N p : nat) (X : 'M[K]_(N, p.+1)) (w : R -> R) (step : 'M[K]_p.+1 -> res 'M[K]_p.+1).
Hypothesis stepE : forall s, pd s -> step s = Ok (mstep w X s).
Hypothesis step_pd : forall s, pd s -> pd (mstep w X s).
Lemma iter_pd k s : pd s -> pd (iter k (mstep w X) s).
Proof. by move=> ps; elim: k => //= k; exact: step_pd. Qed.
Lemma updates_iter k s : pd s -> updates step k s = Ok (iter k (mstep w X) s).
Proof. by move=> ps; elim: k => //= k ->; rewrite /= stepE //; exact: iter_pd. Qed.
Lemma run_iter tol m s0 s d k : pd s0 -> stops_with gtf PInf step (@rel_change K _) tol m s0 s d k -> s = iter k (mstep w X) s0.
Proof. by move=> p0 [u _ _ _ _]; move: u; rewrite updates_iter // => -[]. Qed.
Lemma run_change tol m s0 s d k : pd s0 -> stops_with gtf PInf step (@rel_change K _) tol m s0 s d k ->
  match k with 0 => d = PInf | j.+1 => d = Fin (fro (s - iter j (mstep w X) s0) / fro (iter j (mstep w X) s0)) end.
Proof.
move=> p0 [u r _ _ _]; case: k u r => [|k] u; first by [].
move=> [a [b [ea eb ->]]]; move: ea eb; rewrite updates_iter // => -[<-]; rewrite u => -[<-].
by rewrite /rel_change /divf (negbTE (pd_fro (iter_pd k p0))).
Qed.
Lemma run_fixed tol m s0 s k : pd s0 -> stops_with gtf PInf step (@rel_change K _) tol m s0 s (Fin 0) k -> pd s /\ mstep w X s = s.
Proof.
move=> p0 sw; have := run_change p0 sw; have e := run_iter p0 sw; case: k e {sw} => [//|k] e [] /esym /eqP.
have pk := iter_pd k p0; rewrite mulf_eq0 invr_eq0 (negbTE (pd_fro pk)) orbF => /eqP /fro_eq0 /eqP; rewrite subr_eq0 => /eqP e'.
by split; [rewrite e; exact: iter_pd | move: e; rewrite iterS -e' => /esym].
Qed.
Variables (rho : R -> R) (Sol : 'M[K]_p.+1).
Hypothesis (N0 : (0 < N)%N) (X0 : forall i, row i X != 0).
Hypothesis (ccv : forall q q', 0 < q -> 0 < q' -> rho q' <= rho q + N%:R * w q * (q' - q)).
Hypothesis (low : forall S, pd S -> mcost rho X Sol <= mcost rho X S).
Lemma run_bound t m s0 s d k n : pd s0 -> 0 < t -> stops_with gtf PInf step (@rel_change K _) (Fin t) m s0 s d k ->
  mcost rho X s0 - mcost rho X Sol < n%:R * (N%:R * phi t) ->
  (k <= n)%N /\ ((n <= m)%N -> exists2 e, d = Fin e & e <= t).
Proof.
move=> p0 t0 sw h.
have del : 0 < N%:R * phi t by rewrite mulr_gt0 ?ltr0n // phi_gt0.
have dec S T : pd S -> step S = Ok T -> pd T /\ (gtf (rel_change T S) (Fin t) -> mcost rho X T <= mcost rho X S - N%:R * phi t).
  move=> pS; rewrite stepE // => -[eT]; have pT := step_pd pS; rewrite eT in pT; split=> //.
  rewrite /rel_change /divf (negbTE (pd_fro pS)) /= => g.
  have up : wsum (fun i => N%:R * w (maha S (samp X i))) X = @ofR K N%:R *: T.
    by rewrite -eT /mstep wsum_scale.
  have [B [dd [_ eS eT' d0 D]]] := @update_gap K N p.+1 rho (fun q => N%:R * w q) X S T ccv X0 pS pT up.
  apply: le_trans D _; rewrite ler_add2l ler_opp2; apply: ler_wpmul2l; first exact: ler0n.
  apply: (change_gap eS eT' d0 t0); rewrite -ltr_pdivl_mulr // lt_neqAle eq_sym (pd_fro pS); exact: fro_ge0.
have [h1 h2] := @stops_bound _ _ gtf PInf step (@rel_change K _) (Fin t) (@pd K p.+1) (mcost rho X) _ _ dec low m s0 s d k n del p0 sw h.
split=> // nm; have := h2 nm; have := run_change p0 sw; case: k sw h1 h2 => [|k] sw h1 h2 ->; first by case.
by move=> /= /negP; rewrite -leNgt => le; exists (fro (s - iter k (mstep w X) s0) / fro (iter k (mstep w X) s0)).
Qed.
End Run.

Lemma large_n (x d : R) : 0 < d -> exists n : nat, x < n%:R * d.
Proof.
move=> d0; have [h _] := archimed (x / d); exists (Z.to_nat (up (x / d))); rewrite -ltr_pdivr_mulr // natIZR; apply/RltP.
apply: Rlt_le_trans h _; apply: IZR_le; move: (up _) => z; lia.
Qed.
Section Spanning.
Variable K : starField.
Lemma spanning_N N p (X : 'M[K]_(N, p.+1)) : spanning X -> (0 < N)%N.
Proof.
case: N X => [|//] X sp.
have h : const_mx 1 = 0 :> 'cV[K]_p.+1 by apply: sp => -[].
by move/matrixP: h => /(_ 0 0); rewrite !mxE => /eqP; rewrite oner_eq0.
Qed.
End Spanning.

(* the real and the complex update are the generic one *)
Section Instances.
Lemma real_run eigh N p a (X : 'M[real_sf]_(N, p.+1)) s ppf cdf : real_valid ppf cdf p a -> eigh_ok eigh -> pd s ->
  real_step eigh ppf cdf a X s = Ok (mstep (real_weight ppf cdf N p a) X s).
Proof. by move=> va ok ps; rewrite real_stepE // cstep_mstep. Qed.
Lemma complex_run eigh N p a (X : 'M[complex_sf]_(N, p.+1)) s ppf cdf : complex_valid ppf cdf p a -> eigh_ok eigh -> pd s ->
  complex_step eigh ppf cdf a X s = Ok (mstep (complex_weight ppf cdf N p a) X s).
Proof. by move=> va ok ps; rewrite complex_stepE // cstep_mstep. Qed.
Lemma mstep_pd (K : starField) N p (w : R -> R) (X : 'M[K]_(N, p)) s : spanning X -> (forall i, 0 < w (maha s (samp X i))) -> pd (mstep w X s).
Proof. by move=> sp h; apply: wsum_pd. Qed.
Lemma real_init_pd N p (X : 'M[real_sf]_(N, p.+1)) init : spanning X -> (forall s0, init = Some s0 -> pd s0) -> pd (real_init X init).
Proof.
move=> sp; case: init => [s0 /(_ _ erefl)|_] //=; rewrite real_init_none; apply: wsum_pd => // i.
by rewrite invr_gt0 ltr0n (spanning_N sp).
Qed.
Lemma complex_init_pd N p (X : 'M[complex_sf]_(N, p.+1)) init : spanning X -> (forall s0, init = Some s0 -> pd s0) -> pd (complex_init X init).
Proof.
move=> sp; case: init => [s0 /(_ _ erefl)|_] //; rewrite /complex_init complex_init_none; apply: wsum_pd => // i.
by rewrite invr_gt0 ltr0n (spanning_N sp).
Qed.
End Instances.

(* ------------------------------------------------------------------ C77 *)
(* The solutions of Tyler's equation are the minimisers of the package's cost *)
Lemma tyler_objectiveE (K : starField) N p (X : 'M[K]_(N, p)) S : tyler_objective X S = tcost X S. Proof. by []. Qed.
Theorem C77_solution_iff_minimiser N p :
  (forall eigh (X : 'M[real_sf]_(N, p.+1)) S, eigh_ok eigh -> \rank X = p.+1 -> (forall i, row i X != 0) -> pd S ->
     (tyler_solution X S <-> forall (T : 'M_p.+1) v w, pd T -> Tyler_cost_real eigh X S = Ok v -> Tyler_cost_real eigh X T = Ok w -> v <= w)) /\
  (forall eigh (X : 'M[complex_sf]_(N, p.+1)) S, eigh_ok eigh -> \rank X = p.+1 -> (forall i, row i X != 0) -> pd S ->
     (tyler_solution X S <-> forall (T : 'M_p.+1) v w, pd T -> Tyler_cost_complex eigh X S = Ok v -> Tyler_cost_complex eigh X T = Ok w -> v <= w)).
Proof.
have G (K : starField) (X : 'M[K]_(N, p.+1)) S : \rank X = p.+1 -> (forall i, row i X != 0) -> pd S ->
  (tyler_solution X S <-> forall T, pd T -> tcost X S <= tcost X T).
  move=> rX X0 pS; have N0 := rank_N rX; split=> [[_ e] T pT|h]; first exact: tyler_min.
  exact: (tyler_minimiser N0 X0 (spanning_rank rX)).
split=> eigh X S ok rX X0 pS; split.
- move=> sol T v w pT; rewrite !(C40_formula N p.+1).1 // => -[<-] [<-]; exact: ((G real_sf X S rX X0 pS).1 sol).
- move=> h; apply/(G real_sf X S rX X0 pS) => T pT; apply: (h T) => //; exact: (C40_formula N p.+1).1.
- move=> sol T v w pT; rewrite ((C40_formula N p.+1).2 _ _ _ ok pS) ((C40_formula N p.+1).2 _ _ _ ok pT) => -[<-] [<-]; exact: ((G complex_sf X S rX X0 pS).1 sol).
- move=> h; apply/(G complex_sf X S rX X0 pS) => T pT; apply: (h T _ _ pT); exact: (C40_formula N p.+1).2.
Qed.
(* They are unique up to a factor exactly when the samples do not split into two complementary subspaces *)
Theorem C77_unique_iff_irreducible (K : starField) N p (X : 'M[K]_(N, p)) S : (0 < N)%N -> (forall i, row i X != 0) -> tyler_solution X S ->
  (irreducible X <-> forall T, tyler_solution X T -> proportional S T).
Proof.
by move=> N0 X0 sS; split=> [irr T sT|h]; [exact: (tyler_unique N0 X0 irr) | exact: (tyler_unique_irr sS)].
Qed.
(* ... so that the estimate does not depend on the starting point, nor on how the iterations were limited *)
Lemma same_normalised (K : starField) p nrm (S T : 'M[K]_p.+1) : scaling_norm nrm -> pd S -> proportional S T -> normalised nrm T = normalised nrm S.
Proof. by move=> hn pS [c c0 ->]; apply: C28_scale_invariant. Qed.
Theorem C77_same_estimate N p nrm : scaling_norm nrm ->
  (forall eigh eigh' (X : 'M[real_sf]_(N, p.+1)) init init' tol tol' m m' s s' k k', eigh_ok eigh -> eigh_ok eigh' ->
     \rank X = p.+1 -> (forall i, row i X != 0) -> irreducible X ->
     (forall s0, init = Some s0 -> pd s0) -> (forall s0, init' = Some s0 -> pd s0) ->
     tyler_shape_matrix_fixedpoint eigh X init tol m nrm = Some (Ok (s, Fin 0, k)) ->
     tyler_shape_matrix_fixedpoint eigh' X init' tol' m' nrm = Some (Ok (s', Fin 0, k')) -> s = s') /\
  (forall eigh eigh' (X : 'M[complex_sf]_(N, p.+1)) init init' tol tol' m m' s s' k k', eigh_ok eigh -> eigh_ok eigh' ->
     \rank X = p.+1 -> (forall i, row i X != 0) -> irreducible X ->
     (forall s0, init = Some s0 -> pd s0) -> (forall s0, init' = Some s0 -> pd s0) ->
     complex_tyler_shape_matrix_fixedpoint eigh X init tol m nrm = Some (Ok (s, Fin 0, k)) ->
     complex_tyler_shape_matrix_fixedpoint eigh' X init' tol' m' nrm = Some (Ok (s', Fin 0, k')) -> s = s').
Proof.
move=> hn; pose z (_ _ : R) : R := 0.
have G (K : starField) (X : 'M[K]_(N, p.+1)) s s' : \rank X = p.+1 -> (forall i, row i X != 0) -> irreducible X ->
  tyler_solution X s -> tyler_solution X s' -> normalised nrm s = normalised nrm s'.
  move=> rX X0 irr sS sT; have pr := tyler_unique (rank_N rX) X0 irr sT sS.
  exact: (same_normalised hn sT.1 pr).
split=> eigh eigh' X init init' tol tol' m m' s s' k k' ok ok' rX X0 irr pi pi' h h'; have sp := spanning_rank rX.
  have W (e : eigsolver real_sf) i t n u j : eigh_ok e -> (forall s0, i = Some s0 -> pd s0) ->
    tyler_shape_matrix_fixedpoint e X i t n nrm = Some (Ok (u, Fin 0, j)) -> exists2 v, tyler_solution X v & u = normalised nrm v.
    move=> oe pj hu; have [a [d [l [e1 sw]]]] := (C29_estimators_follow_contract z z N p (TylerFP nrm) t n).1 e X i I.
    move: (hu); rewrite [LHS]e1 => -[eu ed _]; exists a => //.
    have st S : pd S -> real_step e z z (TylerFP nrm) X S = Ok (mstep (tyl_w N p.+1) X S) by move=> pS; rewrite (real_run _ _ oe).
    have stp S : pd S -> pd (mstep (tyl_w N p.+1) X S).
      move=> pS; apply: mstep_pd => // x; by rewrite !divr_gt0 ?ltr0n ?(rank_N rX) // maha_gt0 ?samp0.
    rewrite ed in sw; have [pa fa] := run_fixed st stp (real_init_pd sp pj) sw; by split.
  have [v sv ->] := W _ _ _ _ _ _ ok pi h; have [v' sv' ->] := W _ _ _ _ _ _ ok' pi' h'; exact: (G real_sf X).
have W (e : eigsolver complex_sf) i t n u j : eigh_ok e -> (forall s0, i = Some s0 -> pd s0) ->
  complex_tyler_shape_matrix_fixedpoint e X i t n nrm = Some (Ok (u, Fin 0, j)) -> exists2 v, tyler_solution X v & u = normalised nrm v.
  move=> oe pj hu; have [a [d [l [e1 sw]]]] := (C29_estimators_follow_contract z z N p (TylerFP nrm) t n).2 e X i I.
  move: (hu); rewrite [LHS]e1 => -[eu ed _]; exists a => //.
  have st S : pd S -> complex_step e z z (TylerFP nrm) X S = Ok (mstep (tyl_w N p.+1) X S) by move=> pS; rewrite (complex_run _ _ oe).
  have stp S : pd S -> pd (mstep (tyl_w N p.+1) X S).
    move=> pS; apply: mstep_pd => // x; by rewrite !divr_gt0 ?ltr0n ?(rank_N rX) // maha_gt0 ?samp0.
  rewrite ed in sw; have [pa fa] := run_fixed st stp (complex_init_pd sp pj) sw; by split.
have [v sv ->] := W _ _ _ _ _ _ ok pi h; have [v' sv' ->] := W _ _ _ _ _ _ ok' pi' h'; exact: (G complex_sf X).
Qed.

(* ------------------------------------------------------------------ C78 *)
Theorem C78_unique (K : starField) N p (a : R) (X : 'M[K]_(N, p)) S T : 0 < a -> (0 < N)%N -> (forall i, row i X != 0) ->
  student_solution a X S -> student_solution a X T -> S = T.
Proof. by move=> a0 N0 X0; apply: stu_unique. Qed.
Lemma student_spanning (K : starField) N p (a : R) (X : 'M[K]_(N, p)) S : student_solution a X S -> spanning X.
Proof. by case=> pS e; rewrite e in pS; exact: solution_spanning pS. Qed.
Lemma student_mstep_pd (K : starField) N p (a : R) (X : 'M[K]_(N, p.+1)) S : 0 < a -> spanning X -> pd S -> pd (mstep (stu_w N p.+1 a) X S).
Proof.
move=> a0 sp pS; apply: mstep_pd => // i; rewrite divr_gt0 ?stu_c0 ?(spanning_N sp) // ltr_spaddl //; exact: maha_ge0.
Qed.
Lemma half_pos (df : R) : 0 < df -> 0 < df / 2%:R. Proof. by move=> d0; apply: divr_gt0 => //; rewrite ltr0n. Qed.
(* what the functions run *)
Lemma real_student_run eigh N p (df : R) (X : 'M[real_sf]_(N, p.+1)) init tol m s d k : eigh_ok eigh -> 0 < df -> spanning X ->
  (forall s0, init = Some s0 -> pd s0) -> student_t_mle_fixed_point eigh X df init tol m = Some (Ok (s, d, k)) ->
  exists step, [/\ forall S, pd S -> step S = Ok (mstep (stu_w N p.+1 (df / 2%:R)) X S),
    forall S, pd S -> pd (mstep (stu_w N p.+1 (df / 2%:R)) X S), pd (real_init X init) &
    stops_with gtf PInf step (@rel_change _ _) tol m (real_init X init) s d k].
Proof.
move=> ok d0 sp pi h; pose z (_ _ : R) : R := 0.
have [a [b [c [e sw]]]] := (C29_estimators_follow_contract z z N p (StudentMLE df) tol m).1 eigh X init d0.
have [e1 e2 e3] : [/\ s = a, d = b & k = c] by move: e; rewrite [LHS]h => -[].
exists (real_step eigh z z (StudentMLE df) X); rewrite e1 e2 e3; split=> //.
- by move=> S pS; rewrite (real_run _ _ ok).
- by move=> S pS; apply: student_mstep_pd => //; exact: half_pos.
- exact: real_init_pd.
Qed.
Lemma complex_student_run eigh N p (df : R) (X : 'M[complex_sf]_(N, p.+1)) init tol m s d k : eigh_ok eigh -> 0 < df -> spanning X ->
  (forall s0, init = Some s0 -> pd s0) -> complex_student_t_mle_fixed_point eigh X df init tol m = Some (Ok (s, d, k)) ->
  exists step, [/\ forall S, pd S -> step S = Ok (mstep (stu_w N p.+1 df) X S),
    forall S, pd S -> pd (mstep (stu_w N p.+1 df) X S), pd (complex_init X init) &
    stops_with gtf PInf step (@rel_change _ _) tol m (complex_init X init) s d k].
Proof.
move=> ok d0 sp pi h; pose z (_ _ : R) : R := 0.
have [a [b [c [e sw]]]] := (C29_estimators_follow_contract z z N p (StudentMLE df) tol m).2 eigh X init d0.
have [e1 e2 e3] : [/\ s = a, d = b & k = c] by move: e; rewrite [LHS]h => -[].
exists (complex_step eigh z z (StudentMLE df) X); rewrite e1 e2 e3; split.
- by move=> S pS; rewrite (complex_run _ _ ok).
- by move=> S pS; apply: student_mstep_pd.
- exact: complex_init_pd.
- exact: sw.
Qed.
(* a run that ends with error 0 returns the solution; so that the result depends neither on the starting point nor on
   the other options *)
Theorem C78_same_estimate N p (df : R) : 0 < df ->
  (forall eigh eigh' (X : 'M[real_sf]_(N, p.+1)) init init' tol tol' m m' s s' k k', eigh_ok eigh -> eigh_ok eigh' ->
     \rank X = p.+1 -> (forall i, row i X != 0) -> (forall s0, init = Some s0 -> pd s0) -> (forall s0, init' = Some s0 -> pd s0) ->
     student_t_mle_fixed_point eigh X df init tol m = Some (Ok (s, Fin 0, k)) ->
     student_t_mle_fixed_point eigh' X df init' tol' m' = Some (Ok (s', Fin 0, k')) -> student_solution (df / 2%:R) X s /\ s = s') /\
  (forall eigh eigh' (X : 'M[complex_sf]_(N, p.+1)) init init' tol tol' m m' s s' k k', eigh_ok eigh -> eigh_ok eigh' ->
     \rank X = p.+1 -> (forall i, row i X != 0) -> (forall s0, init = Some s0 -> pd s0) -> (forall s0, init' = Some s0 -> pd s0) ->
     complex_student_t_mle_fixed_point eigh X df init tol m = Some (Ok (s, Fin 0, k)) ->
     complex_student_t_mle_fixed_point eigh' X df init' tol' m' = Some (Ok (s', Fin 0, k')) -> student_solution df X s /\ s = s').
Proof.
move=> d0; split=> eigh eigh' X init init' tol tol' m m' s s' k k' ok ok' rX X0 pi pi' h h'; have sp := spanning_rank rX.
  have [st [a b c sw]] := real_student_run ok d0 sp pi h; have [ps fs] := run_fixed a b c sw.
  have [st' [a' b' c' sw']] := real_student_run ok' d0 sp pi' h'; have [ps' fs'] := run_fixed a' b' c' sw'.
  have s1 : student_solution (df / 2%:R) X s by split=> //; rewrite -{1}fs.
  have s2 : student_solution (df / 2%:R) X s' by split=> //; rewrite -{1}fs'.
  split=> //; exact: (C78_unique (half_pos d0) (rank_N rX) X0).
have [st [a b c sw]] := complex_student_run ok d0 sp pi h; have [ps fs] := run_fixed a b c sw.
have [st' [a' b' c' sw']] := complex_student_run ok' d0 sp pi' h'; have [ps' fs'] := run_fixed a' b' c' sw'.
have s1 : student_solution df X s by split=> //; rewrite -{1}fs.
have s2 : student_solution df X s' by split=> //; rewrite -{1}fs'.
split=> //; exact: (C78_unique d0 (rank_N rX) X0 s1 s2).
Qed.
(* From any positive definite starting point the iterates converge to the solution, linearly, at a rate given by the
   solution: Q bounds its Mahalanobis distances. *)
Theorem C78_linear_convergence N p (df Q : R) : 0 < df -> 0 <= Q ->
  (forall eigh (X : 'M[real_sf]_(N, p.+1)) Sol init, eigh_ok eigh -> student_solution (df / 2%:R) X Sol ->
     (forall i, maha Sol (samp X i) <= Q) -> (forall s0, init = Some s0 -> pd s0) ->
     exists2 M : R, 0 <= M & forall tol m s d k, student_t_mle_fixed_point eigh X df init tol m = Some (Ok (s, d, k)) ->
       fro (s - Sol) <= (Q / (df / 2%:R + Q)) ^+ k * M * fro Sol) /\
  (forall eigh (X : 'M[complex_sf]_(N, p.+1)) Sol init, eigh_ok eigh -> student_solution df X Sol ->
     (forall i, maha Sol (samp X i) <= Q) -> (forall s0, init = Some s0 -> pd s0) ->
     exists2 M : R, 0 <= M & forall tol m s d k, complex_student_t_mle_fixed_point eigh X df init tol m = Some (Ok (s, d, k)) ->
       fro (s - Sol) <= (Q / (df + Q)) ^+ k * M * fro Sol).
Proof.
move=> d0 Q0; split=> eigh X Sol init ok sol bQ pi; have sp := student_spanning sol; have N0 := spanning_N sp.
  have [M M0 H] := stu_converges N0 (half_pos d0) Q0 sol bQ (real_init_pd sp pi).
  exists M => // tol m s d k /(real_student_run ok d0 sp pi) [st [a b c sw]]; rewrite (run_iter a b c sw); exact: H.
have [M M0 H] := stu_converges N0 d0 Q0 sol bQ (complex_init_pd sp pi).
exists M => // tol m s d k /(complex_student_run ok d0 sp pi) [st [a b c sw]]; rewrite (run_iter a b c sw); exact: H.
Qed.
(* the rate is less than 1 *)
Theorem C78_rate (df Q : R) : 0 < df -> 0 <= Q -> 0 <= Q / (df + Q) < 1.
Proof. by move=> d0 Q0; have [-> ->] := rate_ge0 d0 Q0. Qed.

(* ------------------------------------------------------------------ C79 *)
(* (sqrt(1+t) - 1)^2 is the least decrease of the cost, per sample, made by an update that changes S by more than t |S| *)
Lemma student_mcost (K : starField) N p a (X : 'M[K]_(N, p)) S : mcost (fun q => (a + p%:R) * ln (a + q)) X S = student_objective a X S.
Proof. by rewrite /mcost /student_objective mulr_sumr. Qed.
Lemma tyler_mcost (K : starField) N p (X : 'M[K]_(N, p)) S : mcost (fun q => p%:R * ln q) X S = tyler_objective X S.
Proof. by rewrite /mcost /tyler_objective mulr_sumr. Qed.
Lemma student_concave (a b q q' : R) : 0 < a -> 0 < b -> 0 < q -> 0 < q' -> b * ln (a + q') <= b * ln (a + q) + b / (a + q) * (q' - q).
Proof.
move=> a0 b0 q0 q'0; rewrite -mulrA -mulrDr ler_pmul2l //; have s0 := addr_gt0 a0 q0; have s1 := addr_gt0 a0 q'0.
have e : (a + q)^-1 * (q' - q) = (a + q') / (a + q) - 1.
  have -> : q' - q = (a + q') - (a + q) by rewrite opprD addrACA subrr add0r.
  by rewrite mulrBr mulVf ?gt_eqF // mulrC.
by have := ln_le_sub1 (divr_gt0 s1 s0); rewrite lnD // e ler_subl_addl.
Qed.
Lemma scaledN (N : nat) (x y : R) : (0 < N)%N -> N%:R * (x / N%:R / y) = x / y.
Proof. by move=> N0; rewrite mulrA mulrCA divff ?mulr1 // gt_eqF // ltr0n. Qed.
Lemma real_tyler_run eigh N p nrm (X : 'M[real_sf]_(N, p.+1)) init tol m s d k : eigh_ok eigh -> (forall i, row i X != 0) -> spanning X ->
  (forall s0, init = Some s0 -> pd s0) -> tyler_shape_matrix_fixedpoint eigh X init tol m nrm = Some (Ok (s, d, k)) ->
  exists step v, [/\ s = normalised nrm v, forall S, pd S -> step S = Ok (mstep (tyl_w N p.+1) X S),
    forall S, pd S -> pd (mstep (tyl_w N p.+1) X S), pd (real_init X init) &
    stops_with gtf PInf step (@rel_change _ _) tol m (real_init X init) v d k].
Proof.
move=> ok X0 sp pi h; pose z (_ _ : R) : R := 0.
have [a [b [c [e sw]]]] := (C29_estimators_follow_contract z z N p (TylerFP nrm) tol m).1 eigh X init I.
have [e1 e2 e3] : [/\ s = normalised nrm a, d = b & k = c] by move: e; rewrite [LHS]h => -[].
exists (real_step eigh z z (TylerFP nrm) X), a; rewrite e1 e2 e3; split=> //.
- by move=> S pS; rewrite (real_run _ _ ok).
- by move=> S pS; apply: mstep_pd => // x; rewrite !divr_gt0 ?ltr0n ?(spanning_N sp) // maha_gt0 ?samp0.
- exact: real_init_pd.
Qed.
Lemma complex_tyler_run eigh N p nrm (X : 'M[complex_sf]_(N, p.+1)) init tol m s d k : eigh_ok eigh -> (forall i, row i X != 0) -> spanning X ->
  (forall s0, init = Some s0 -> pd s0) -> complex_tyler_shape_matrix_fixedpoint eigh X init tol m nrm = Some (Ok (s, d, k)) ->
  exists step v, [/\ s = normalised nrm v, forall S, pd S -> step S = Ok (mstep (tyl_w N p.+1) X S),
    forall S, pd S -> pd (mstep (tyl_w N p.+1) X S), pd (complex_init X init) &
    stops_with gtf PInf step (@rel_change _ _) tol m (complex_init X init) v d k].
Proof.
move=> ok X0 sp pi h; pose z (_ _ : R) : R := 0.
have [a [b [c [e sw]]]] := (C29_estimators_follow_contract z z N p (TylerFP nrm) tol m).2 eigh X init I.
have [e1 e2 e3] : [/\ s = normalised nrm a, d = b & k = c] by move: e; rewrite [LHS]h => -[].
exists (complex_step eigh z z (TylerFP nrm) X), a; rewrite e1 e2 e3; split.
- by [].
- by move=> S pS; rewrite (complex_run _ _ ok).
- by move=> S pS; apply: mstep_pd => // x; rewrite !divr_gt0 ?ltr0n ?(spanning_N sp) // maha_gt0 ?samp0.
- exact: complex_init_pd.
- exact: sw.
Qed.
Lemma tyler_spanning (K : starField) N p (X : 'M[K]_(N, p)) S : tyler_solution X S -> spanning X.
Proof. by case=> pS e; rewrite e in pS; exact: solution_spanning pS. Qed.
Section Bounds.
Variable K : starField.
Variables (N p : nat) (X : 'M[K]_(N, p.+1)) (step : 'M[K]_p.+1 -> res 'M[K]_p.+1).
Hypothesis X0 : forall i, row i X != 0.
Lemma tyler_bound Sol t m s0 s d k n : tyler_solution X Sol ->
  (forall S, pd S -> step S = Ok (mstep (tyl_w N p.+1) X S)) -> (forall S, pd S -> pd (mstep (tyl_w N p.+1) X S)) ->
  pd s0 -> 0 < t -> stops_with gtf PInf step (@rel_change K _) (Fin t) m s0 s d k ->
  tyler_objective X s0 - tyler_objective X Sol < n%:R * (N%:R * phi t) ->
  (k <= n)%N /\ ((n <= m)%N -> exists2 e, d = Fin e & e <= t).
Proof.
move=> sol st sp p0 t0 sw; rewrite -!tyler_mcost => h; have N0 := spanning_N (tyler_spanning sol).
apply: (run_bound st sp N0 X0 _ _ p0 t0 sw h).
- by move=> q q' q0 q'0; rewrite scaledN //; exact: tyler_concave.
- move=> S pS; have := tyler_min N0 X0 sol.1 pS sol.2; by rewrite !tcost_mcost.
Qed.
Lemma student_bound a Sol t m s0 s d k n : 0 < a -> student_solution a X Sol ->
  (forall S, pd S -> step S = Ok (mstep (stu_w N p.+1 a) X S)) -> (forall S, pd S -> pd (mstep (stu_w N p.+1 a) X S)) ->
  pd s0 -> 0 < t -> stops_with gtf PInf step (@rel_change K _) (Fin t) m s0 s d k ->
  student_objective a X s0 - student_objective a X Sol < n%:R * (N%:R * phi t) ->
  (k <= n)%N /\ ((n <= m)%N -> exists2 e, d = Fin e & e <= t).
Proof.
move=> a0 sol st sp p0 t0 sw; rewrite -!student_mcost => h; have N0 := spanning_N (student_spanning sol).
have b0 : 0 < a + p.+1%:R by rewrite (lt_le_trans a0) // ler_addl ler0n.
apply: (run_bound st sp N0 X0 _ _ p0 t0 sw h).
- by move=> q q' q0 q'0; rewrite scaledN //; exact: student_concave.
- by move=> S pS; apply: (stu_min a0 N0 X0 sol.1 pS); rewrite -sol.2.
Qed.
End Bounds.
(* Every run stops after at most n iterations with an error at most tol, n depending on the excess of the cost at the
   starting point only *)
Theorem C79_tyler_stops N p nrm (t : R) n : 0 < t ->
  (forall eigh (X : 'M[real_sf]_(N, p.+1)) Sol init m s d k, eigh_ok eigh -> (forall i, row i X != 0) ->
     (forall s0, init = Some s0 -> pd s0) -> tyler_solution X Sol ->
     tyler_objective X (real_init X init) - tyler_objective X Sol < n%:R * (N%:R * (R_sqrt.sqrt (1 + t) - 1) ^+ 2) ->
     tyler_shape_matrix_fixedpoint eigh X init (Fin t) m nrm = Some (Ok (s, d, k)) ->
     (k <= n)%N /\ ((n <= m)%N -> exists2 e, d = Fin e & e <= t)) /\
  (forall eigh (X : 'M[complex_sf]_(N, p.+1)) Sol init m s d k, eigh_ok eigh -> (forall i, row i X != 0) ->
     (forall s0, init = Some s0 -> pd s0) -> tyler_solution X Sol ->
     tyler_objective X (complex_init X init) - tyler_objective X Sol < n%:R * (N%:R * (R_sqrt.sqrt (1 + t) - 1) ^+ 2) ->
     complex_tyler_shape_matrix_fixedpoint eigh X init (Fin t) m nrm = Some (Ok (s, d, k)) ->
     (k <= n)%N /\ ((n <= m)%N -> exists2 e, d = Fin e & e <= t)).
Proof.
move=> t0; split=> eigh X Sol init m s d k ok X0 pi sol h.
  move=> /(real_tyler_run ok X0 (tyler_spanning sol) pi) [st [v [_ a b c sw]]]; exact: (tyler_bound X0 sol a b c t0 sw h).
move=> /(complex_tyler_run ok X0 (tyler_spanning sol) pi) [st [v [_ a b c sw]]]; exact: (tyler_bound X0 sol a b c t0 sw h).
Qed.
Theorem C79_student_stops N p (df t : R) n : 0 < df -> 0 < t ->
  (forall eigh (X : 'M[real_sf]_(N, p.+1)) Sol init m s d k, eigh_ok eigh -> (forall i, row i X != 0) ->
     (forall s0, init = Some s0 -> pd s0) -> student_solution (df / 2%:R) X Sol ->
     student_objective (df / 2%:R) X (real_init X init) - student_objective (df / 2%:R) X Sol < n%:R * (N%:R * (R_sqrt.sqrt (1 + t) - 1) ^+ 2) ->
     student_t_mle_fixed_point eigh X df init (Fin t) m = Some (Ok (s, d, k)) ->
     (k <= n)%N /\ ((n <= m)%N -> exists2 e, d = Fin e & e <= t)) /\
  (forall eigh (X : 'M[complex_sf]_(N, p.+1)) Sol init m s d k, eigh_ok eigh -> (forall i, row i X != 0) ->
     (forall s0, init = Some s0 -> pd s0) -> student_solution df X Sol ->
     student_objective df X (complex_init X init) - student_objective df X Sol < n%:R * (N%:R * (R_sqrt.sqrt (1 + t) - 1) ^+ 2) ->
     complex_student_t_mle_fixed_point eigh X df init (Fin t) m = Some (Ok (s, d, k)) ->
     (k <= n)%N /\ ((n <= m)%N -> exists2 e, d = Fin e & e <= t)).
Proof.
move=> d0 t0; split=> eigh X Sol init m s d k ok X0 pi sol h.
  move=> /(real_student_run ok d0 (student_spanning sol) pi) [st [a b c sw]]; exact: (student_bound X0 (half_pos d0) sol a b c t0 sw h).
move=> /(complex_student_run ok d0 (student_spanning sol) pi) [st [a b c sw]]; exact: (student_bound X0 d0 sol a b c t0 sw h).
Qed.
(* such an n always exists: with iter_max large enough, no run ends by exhausting its iterations *)
Theorem C79_large_enough (excess t : R) N : 0 < t -> (0 < N)%N -> exists n : nat, excess < n%:R * (N%:R * (R_sqrt.sqrt (1 + t) - 1) ^+ 2).
Proof. by move=> t0 N0; apply: large_n; rewrite mulr_gt0 ?ltr0n //; exact: phi_gt0. Qed.

(* ------------------------------------------------------------------ example *)
(* The samples e1, e2, e1 + e2 do not split; a solution of both equations is their covariance matrix, whose Mahalanobis
   distances all equal 2. *)
Section Example.
Variable K : starField.
Definition exX : 'M[K]_(3, 2) := \matrix_(i, j) (if (i == 0) && (j == 1) || (i == 1) && (j == 0) then 0 else 1).
Lemma ex_adj i : (samp exX i)^H = row i exX.
Proof.
apply/matrixP => a b; rewrite !mxE; case: ifP => _; by rewrite ?rmorph0 ?rmorph1.
Qed.
Lemma ex_irreducible : irreducible exX.
Proof.
move=> P PP h.
have E i a : (P *m samp exX i) a 0 = P a 0 * exX i 0 + P a 1 * exX i 1.
  by rewrite mxE big_ord_recl big_ord1 !mxE; congr (_ * _ + P a _ * _); apply: val_inj.
have c0 a : (P *m samp exX 0) a 0 = P a 0 by rewrite E !mxE /= mulr1 mulr0 addr0.
have c1 a : (P *m samp exX 1) a 0 = P a 1 by rewrite E !mxE /= mulr1 mulr0 add0r.
have c2 a : (P *m samp exX 2) a 0 = P a 0 + P a 1 by rewrite E !mxE /= !mulr1.
have s0 a : samp exX 0 a 0 = (a == 0)%:R by rewrite !mxE /=; case: a => -[|[|//]] ? /=.
have s1 a : samp exX 1 a 0 = (a == 1)%:R by rewrite !mxE /=; case: a => -[|[|//]] ? /=.
have s2 a : samp exX 2 a 0 = 1 by rewrite !mxE /=.
have z0 a : (0 : 'cV[K]_2) a 0 = 0 by rewrite mxE.
have o2 (a : 'I_2) : a = 0 \/ a = 1 by case: a => -[|[|//]] i; [left|right]; apply: val_inj.
have nz : (1 : K) <> 0 by apply/eqP; rewrite oner_eq0.
have fromE (T : 'M[K]_2) : P 0 0 = T 0 0 -> P 0 1 = T 0 1 -> P 1 0 = T 1 0 -> P 1 1 = T 1 1 -> P = T.
  by move=> *; apply/matrixP => a b; case: (o2 a) => ->; case: (o2 b) => ->.
have k2 := h 2; have k0 := h 0; have k1 := h 1.
have G i v : P *m samp exX i = v -> forall a, (P *m samp exX i) a 0 = v a 0 by move=> ->.
case: k0 => [/G e0|/G e0]; case: k1 => [/G e1|/G e1]; case: k2 => [/G e2|/G e2];
  have := e0 0; have := e0 1; have := e1 0; have := e1 1; have := e2 0; have := e2 1;
  rewrite !(c0, c1, c2, s0, s1, s2, z0) /= => x1 x2 x3 x4 x5 x6.
- by left; apply: fromE; rewrite mxE.
- by rewrite x4 x5 x3 x6 ?addr0 in x1 x2; case: nz.
- by rewrite x3 x5 ?add0r in x1; case: nz.
- by rewrite x4 x6 ?addr0 in x2; move: x2 => /esym /nz.
- by rewrite x4 x6 ?addr0 in x2; case: nz.
- by rewrite x3 x5 ?addr0 in x1; move: x1 => /esym /nz.
- by rewrite x4 x6 ?addr0 in x2; case: nz.
- by right; apply: fromE; rewrite mxE.
Qed.
Lemma ex_nz i : row i exX != 0.
Proof.
apply/eqP => /rowP h; have := h 0; have := h 1; rewrite !mxE; case: i h => -[|[|[|//]]] ? h /=; rewrite ?eqxx => /eqP; by
  rewrite ?oner_eq0 // => _ /eqP; rewrite oner_eq0.
Qed.
Definition exS : 'M[K]_2 := wsum (fun _ => 3%:R^-1) exX.
Definition exQ : 'M[K]_2 := \matrix_(i, j) (if i == j then 2%:R else -1).
Lemma ex_S : exS = 3%:R^-1 *: \matrix_(i, j) (if i == j then 2%:R else 1).
Proof.
apply/matrixP => a b; rewrite /exS /wsum summxE !big_ord_recl big_ord0 !mxE !big_ord1 !mxE /= fmorphV rmorph_nat addr0 -!mulrDr.
congr (_ * _); case: a => -[|[|//]] ?; case: b => -[|[|//]] ? /=; by
  rewrite ?rmorph1 ?rmorph0 !(mul0r, mulr0, mul1r, add0r, addr0).
Qed.
Lemma ex_inv : exS *m exQ = 1%:M.
Proof.
have t0 : (3%:R : K) != 0 by rewrite pnatr_eq0.
have a4 : 2%:R * 2%:R - 1 = 3%:R :> K by rewrite -natrM -[(2 * 2)%N]/(3 + 1)%N natrD addrK.
rewrite ex_S -scalemxAl; apply/matrixP => a b; rewrite !mxE big_ord_recl big_ord1 !mxE; apply: (mulfI t0); rewrite mulrA divff // mul1r.
case: a => -[|[|//]] ?; case: b => -[|[|//]] ? /=; rewrite ?(mulr1, mul1r, mulr0, mulrN, mulNr).
- exact: a4.
- by rewrite addrC subrr.
- by rewrite subrr.
- by rewrite addrC; exact: a4.
Qed.
Lemma ex_maha i : maha exS (samp exX i) = 2%:R.
Proof.
have e : invmx exS = exQ.
  have [u _] := mulmx1_unit ex_inv; by rewrite -[RHS](mulKmx u) ex_inv mulmx1.
rewrite /maha e ex_adj -[RHS](toR_nat K); congr (@toR K _).
rewrite !mxE !big_ord_recl !big_ord0 !mxE !big_ord_recl !big_ord0 !mxE /=.
case: i => -[|[|[|//]]] ? /=; rewrite ?(mulr1, mul1r, mulr0, mul0r, addr0, add0r) //.
have o : 2%:R - 1 = 1 :> K by rewrite (natrD _ 1 1) addrK.
by rewrite [-1 + _]addrC !o.
Qed.
Lemma ex_spanning : spanning exX.
Proof.
move=> y h; have E i : (samp exX i)^H *m y = 0 -> exX i 0 * y 0 0 + exX i 1 * y 1 0 = 0.
  move=> /matrixP /(_ 0 0); rewrite ex_adj mxE !big_ord_recl big_ord0 addr0 [RHS]mxE => e; rewrite -[RHS]e.
  have -> : lift ord0 ord0 = 1 :> 'I_2 by apply: val_inj.
  by rewrite [row i exX 0 ord0]mxE [row i exX 0 1]mxE.
have := E 0 (h 0); have := E 1 (h 1); rewrite !mxE /= !(mul1r, mul0r, add0r, addr0) => y1 y0.
apply/matrixP => a b; rewrite ord1 mxE; case: a => -[|[|//]] i.
  by rewrite -[RHS]y0; congr (y _ _); apply: val_inj.
by rewrite -[RHS]y1; congr (y _ _); apply: val_inj.
Qed.
Lemma ex_rank : \rank exX = 2%N.
Proof.
apply/eqP; rewrite eqn_leq rank_leq_col /=.
apply: (@mulmx1_min_rank K 2 3 2 exX (\matrix_(i, j) (i == j :> nat)%:R) 1%:M).
rewrite mulmx1; apply/matrixP => a b; rewrite !mxE !big_ord_recl big_ord0 !mxE.
by case: a => -[|[|//]] ?; case: b => -[|[|//]] ? /=; rewrite !(mul0r, mul1r, add0r, addr0).
Qed.
Lemma ex_pd : pd exS. Proof. by apply: wsum_pd => [i|]; [rewrite invr_gt0 ltr0n | exact: ex_spanning]. Qed.
Lemma ex_tyler : tyler_solution exX exS.
Proof.
split; first exact: ex_pd.
by apply: eq_wsum => i; rewrite ex_maha mulrAC divff ?mul1r // pnatr_eq0.
Qed.
Lemma ex_student a : 0 < a -> student_solution a exX exS.
Proof.
move=> a0; split; first exact: ex_pd.
have s0 : a + 2%:R != 0 by rewrite gt_eqF // addr_gt0 // ltr0n.
by apply: eq_wsum => i; rewrite ex_maha mulrAC divff ?mul1r.
Qed.
Example C77_C79_hypotheses (df : R) : 0 < df -> exists (X : 'M[K]_(3, 2)) (Sol : 'M[K]_2),
  [/\ \rank X = 2%N /\ forall i, row i X != 0, irreducible X, tyler_solution X Sol, student_solution df X Sol & forall i, maha Sol (samp X i) <= 2%:R].
Proof.
move=> d0; exists exX, exS; split; [split; [exact: ex_rank | exact: ex_nz] | exact: ex_irreducible | exact: ex_tyler | exact: ex_student |].
by move=> i; rewrite ex_maha.
Qed.
End Example.

Print Assumptions C77_solution_iff_minimiser.
Print Assumptions C77_unique_iff_irreducible.
Print Assumptions C77_same_estimate.
Print Assumptions C78_unique.
Print Assumptions C78_same_estimate.
Print Assumptions C78_linear_convergence.
Print Assumptions C78_rate.
Print Assumptions C79_tyler_stops.
Print Assumptions C79_student_stops.
Print Assumptions C79_large_enough.
