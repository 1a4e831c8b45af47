(* How many arbitrary samples the Student estimate resists to, and the role of the starting point: C99, C100. *)
From Coq Require Import Reals String Lra Classical_Prop.
From mathcomp Require Import all_ssreflect all_algebra.
From mathcomp Require Import complex zify.
From Verif Require Import RealsMC RealTac RealTac2 Star StarInst FunCalc Model_featurearray Model_linalg Proofs_linalg Props_linalg
  Model_covariance Spec_covariance Spec_fixedpoint Spec_exist Spec_breakdown Model_estimators Proofs_mest Proofs_loop Proofs_covariance Proofs_estimators
  Props_covariance Proofs_cost Props_cost Props_robust Proofs_unique Proofs_unique2 Props_unique Compact Proofs_converge Props_converge
  Proofs_exist Proofs_exist2 Props_exist Proofs_breakdown Proofs_breakdown2 Proofs_breakdown3 Proofs_breakdown4 Props_breakdown.
Set Implicit Arguments.
Unset Strict Implicit.
Unset Printing Implicit Defensive.
Local Open Scope ring_scope.
Import GRing.Theory Num.Theory Order.TTheory.

(* ------------------------------------------------------------------ C99 *)
Section Bounds.
Variable K : starField.
Hypothesis cK : compactK K.
Variables (a : R) (N p m : nat) (X : 'M[K]_(N, p.+1)).
Hypotheses (a0 : 0 < a) (N0 : (0 < N)%N) (X0 : forall i, row i X != 0) (res : student_resists a m X).
Lemma student_solutions_bounded : exists l M, [/\ 0 < l, 0 < M & forall Y S, corrupted m X Y -> student_solution a Y S -> between l M S].
Proof.
have [C [g g0 hC]] := student_excess cK X0 a0 res.
exists (Rtrigo_def.exp (- ((0 - C) / g))), (Rtrigo_def.exp ((0 - C) / g)); split; try exact: exp_gt0.
move=> Y S cY [pS eS]; have dec := specdecP (pd_herm pS); apply: (excess_between pS dec g0) => l.
have [h1 h2] := hC Y cY S _ _ pS dec l; have le : scost a Y S - scost a Y 1%:M <= 0.
  by rewrite subr_le0; apply: (stu_min a0 N0 cY.1 pS (pd1 K _)); rewrite -eS.
by split; [apply: le_trans h1 le | apply: le_trans h2 le].
Qed.
Lemma student_runs_bounded s0 : pd s0 -> exists l M, [/\ 0 < l, 0 < M & forall Y k, corrupted m X Y -> between l M (iter k (mstep (stu_w N p.+1 a) Y) s0)].
Proof.
move=> p0; have [C [g g0 hC]] := student_excess cK X0 a0 res; have [D hD] := student_start_excess N a0 p0.
exists (Rtrigo_def.exp (- ((D - C) / g))), (Rtrigo_def.exp ((D - C) / g)); split; try exact: exp_gt0.
move=> Y k cY; have Y0 := cY.1; have sp := student_condition_spanning a0 (student_resists_condition a0 res cY).
have b0 : 0 < a + p.+1%:R by rewrite ltr_spaddl ?ler0n.
have cv q q' : 0 < q -> 0 < q' -> (a + p.+1%:R) * ln (a + q') <= (a + p.+1%:R) * ln (a + q) + N%:R * stu_w N p.+1 a q * (q' - q).
  by move=> q0 q'0; rewrite scaledN //; exact: student_concave.
have [pk hk] := cost_decreases Y0 k sp N0 (fun T pT => student_mstep_pd a0 sp pT) cv p0.
have dec := specdecP (pd_herm pk); apply: (excess_between pk dec g0) => l.
have [h1 h2] := hC Y cY _ _ _ pk dec l.
have le : scost a Y (iter k (mstep (stu_w N p.+1 a) Y) s0) - scost a Y 1%:M <= D by apply: le_trans (hD Y Y0); rewrite ler_add2r.
by split; [apply: le_trans h1 le | apply: le_trans h2 le].
Qed.
End Bounds.
(* Student's equation keeps a solution (unique by C78), with eigenvalues between two positive bounds, whatever values m
   samples take, if and only if m < N / (a + p) and m samples more leave every proper subspace with less than its share *)
Theorem C99_breakdown_iff N p m (a : R) : 0 < a -> (0 < N)%N ->
  (forall X : 'M[real_sf]_(N, p.+1), (forall i, row i X != 0) -> (student_resists a m X <->
     exists l M, [/\ 0 < l, 0 < M & forall Y, corrupted m X Y -> exists2 S, student_solution a Y S & between l M S])) /\
  (forall X : 'M[complex_sf]_(N, p.+1), (forall i, row i X != 0) -> (student_resists a m X <->
     exists l M, [/\ 0 < l, 0 < M & forall Y, corrupted m X Y -> exists2 S, student_solution a Y S & between l M S])).
Proof.
move=> a0 N0.
have G (K : starField) (cK : compactK K) (X : 'M[K]_(N, p.+1)) : (forall i, row i X != 0) -> (student_resists a m X <->
     exists l M, [/\ 0 < l, 0 < M & forall Y, corrupted m X Y -> exists2 S, student_solution a Y S & between l M S]).
  move=> X0; split=> [res|[l [M [l0 M0 h]]]]; last exact: (student_breaks a0 N0 X0 l0 M0 h).
  have [l [M [l0 M0 h]]] := student_solutions_bounded cK a0 N0 X0 res; exists l, M; split=> // Y cY.
  by have [S sS] := student_exists cK cY.1 a0 (student_resists_condition a0 res cY); exists S => //; exact: h cY sS.
split=> X; [exact: (G _ real_compact) | exact: (G _ complex_compact)].
Qed.
Lemma general_arith (a n r m q : R) : 0 <= m -> 0 <= r -> r <= q -> (a + (1 + q)) * m < n * a -> (a + (1 + q)) * (q + m) < n * (a + q) ->
  (a + (1 + q)) * (r + m) < n * (a + r).
Proof.
move=> m0 r0 rq h0 h1; case: (leP (a + (1 + q)) n) => h.
  have : 0 <= r * (n - (a + (1 + q))) by rewrite mulr_ge0 // subr_ge0.
  by move=> h2; rlra2.
have : 0 <= (q - r) * (a + (1 + q) - n) by rewrite mulr_ge0 // subr_ge0 // ltW.
by move=> h2; rlra2.
Qed.
Lemma general_arith0 (a n m q : R) : 0 < a -> 0 <= m -> 0 < n -> n <= q -> ~ (a + (1 + q)) * (n + m) < n * (a + n).
Proof.
move=> a0 m0 n0 nq; apply/negP; rewrite -leNgt; apply: (@le_trans _ _ ((a + n) * (n + m))).
  by rewrite mulrC; apply: ler_wpmul2l; [exact: addr_ge0 (ltW a0) (ltW n0) | rewrite ler_addl].
apply: ler_wpmul2r; first exact: addr_ge0 (ltW n0) m0.
by rewrite ler_add2l; apply: le_trans nq _; rewrite ler_addr ler01.
Qed.
(* Samples in general position *)
Theorem C99_general_position (K : starField) N p m (a : R) (X : 'M[K]_(N, p.+1)) : 0 < a -> (0 < N)%N -> general_position X ->
  (student_resists a m X <-> [/\ (a + p.+1%:R) * m%:R < N%:R, (a + p.+1%:R) * m%:R < N%:R * a & (a + p.+1%:R) * (p + m)%:R < N%:R * (a + p%:R)]).
Proof.
move=> a0 N0 g; have X0 := general_nonzero g; have eP : p.+1%:R = 1 + p%:R :> R by rewrite -addn1 natrD addrC.
split=> [[h1 h]|[h1 h2 h3]]; last first.
  split=> // V rV; have b0 : 0 <= a + p.+1%:R by rewrite addr_ge0 ?ler0n // ltW.
  apply: (@le_lt_trans _ _ ((a + p.+1%:R) * (\rank V + m)%:R)); first by apply: ler_wpmul2l => //; rewrite ler_nat leq_add2r g.
  rewrite natrD; rewrite natrD in h3; rewrite eP in h2 h3 *.
  by apply: (general_arith _ _ _ h2 h3); rewrite ?ler0n // ler_nat -ltnS.
split=> //.
  have := h (0 : 'M[K]_p.+1); rewrite mxrank0 => /(_ isT); rewrite addr0; apply: le_lt_trans; apply: ler_wpmul2l; first by rewrite addr_ge0 ?ler0n // ltW.
  by rewrite ler_nat leq_addl.
have le : (minn p N <= N)%N by exact: geq_minr.
pose W : 'M[K]_(minn p N, p.+1) := \matrix_k row (widen_ord le k) X.
have rW : (\rank <<W>>%MS <= minn p N)%N by rewrite mxrank_gen rank_leq_row.
have rp : (\rank <<W>>%MS < p.+1)%N by rewrite ltnS; apply: leq_trans rW (geq_minl _ _).
have cW : (minn p N <= count_in X <<W>>%MS)%N.
  have inj : injective (widen_ord le) by move=> i j /(congr1 val) /= ij; apply: val_inj.
  rewrite -[X in (X <= _)%N]card_ord -(card_imset predT inj); apply: subset_leq_card; apply/subsetP => _ /imsetP [k _ ->].
  by rewrite inE genmxE -(rowK (fun k => row (widen_ord le k) X) k) row_sub.
have := h _ rp; have e : \rank <<W>>%MS = minn p N by apply/eqP; rewrite eqn_leq rW (leq_trans cW (g _ rp)).
rewrite e => hW; have {}hW : (a + p.+1%:R) * (minn p N + m)%:R < N%:R * (a + (minn p N)%:R).
  by apply: le_lt_trans hW; apply: ler_wpmul2l; rewrite ?addr_ge0 ?ler0n ?(ltW a0) // ler_nat leq_add2r.
case: (leqP p N) hW => [_ //|Np].
rewrite natrD eP => hW; exfalso; apply: (general_arith0 a0 _ _ _ hW); rewrite ?ler0n ?ltr0n //.
by rewrite ler_nat ltnW.
Qed.

(* ------------------------------------------------------------------ C100 *)
(* Bounds for every result of the fixed-point functions started from a given matrix *)
Theorem C100_given_start_partial N p m (df : R) : 0 < df -> (0 < N)%N ->
  (forall (X : 'M[real_sf]_(N, p.+1)) s0, (forall i, row i X != 0) -> student_resists (df / 2%:R) m X -> pd s0 -> exists l M, [/\ 0 < l, 0 < M &
     forall eigh Y tol it s d k, eigh_ok eigh -> corrupted m X Y -> student_t_mle_fixed_point eigh Y df (Some s0) tol it = Some (Ok (s, d, k)) -> between l M s]) /\
  (forall (X : 'M[complex_sf]_(N, p.+1)) s0, (forall i, row i X != 0) -> student_resists df m X -> pd s0 -> exists l M, [/\ 0 < l, 0 < M &
     forall eigh Y tol it s d k, eigh_ok eigh -> corrupted m X Y -> complex_student_t_mle_fixed_point eigh Y df (Some s0) tol it = Some (Ok (s, d, k)) -> between l M s]).
Proof.
move=> d0 N0; have h0 := half_pos d0; split=> X s0 X0 res p0.
  have [l [M [l0 M0 hM]]] := student_runs_bounded real_compact h0 N0 X0 res p0; exists l, M; split=> // eigh Y tol it s d k ok cY h.
  have sp := student_condition_spanning h0 (student_resists_condition h0 res cY).
  have pi s1 : Some s0 = Some s1 -> pd s1 by move=> [<-].
  have [st [x y c sw]] := real_student_run ok d0 sp pi h.
  by rewrite (run_iter x y p0 sw); exact: hM.
have [l [M [l0 M0 hM]]] := student_runs_bounded complex_compact d0 N0 X0 res p0; exists l, M; split=> // eigh Y tol it s d k ok cY h.
have sp := student_condition_spanning d0 (student_resists_condition d0 res cY).
have pi s1 : Some s0 = Some s1 -> pd s1 by move=> [<-].
have [st [x y c sw]] := complex_student_run ok d0 sp pi h.
by rewrite (run_iter x y p0 sw); exact: hM.
Qed.
(* From the default starting point, the sample covariance matrix of the data, a single sample makes the largest
   eigenvalue of the result as large as wanted, however many iterations are allowed *)
Theorem C100_default_start_refuted N p (df M : R) it tol : 0 < df -> (0 < N)%N ->
  (forall eigh (X : 'M[real_sf]_(N, p.+1)), eigh_ok eigh -> (forall i, row i X != 0) -> student_resists (df / 2%:R) 1 X -> exists Y s d k, [/\ corrupted 1 X Y,
     student_t_mle_fixed_point eigh Y df None tol it = Some (Ok (s, d, k)) & ~ loewner s (@ofR real_sf M *: 1%:M)]) /\
  (forall eigh (X : 'M[complex_sf]_(N, p.+1)), eigh_ok eigh -> (forall i, row i X != 0) -> student_resists df 1 X -> exists Y s d k, [/\ corrupted 1 X Y,
     complex_student_t_mle_fixed_point eigh Y df None tol it = Some (Ok (s, d, k)) & ~ loewner s (@ofR complex_sf M *: 1%:M)]).
Proof.
move=> d0 N0; have h0 := half_pos d0; pose z (_ _ : R) : R := 0; split=> eigh X ok X0 res.
  have [Y [cY sp nc]] := student_default_start M it h0 N0 X0 res.
  have [v [d [k [h _]]]] := (C29_estimators_follow_contract z z N p (StudentMLE df) tol it).1 eigh Y None d0.
  exists Y, v, d, k; split=> //.
  have pi s1 : None = Some s1 -> pd (s1 : 'M[real_sf]_p.+1) by [].
  have {}h : student_t_mle_fixed_point eigh Y df None tol it = Some (Ok (v, d, k)) := h.
  have [st [x y c sw]] := real_student_run ok d0 sp pi h; rewrite (run_iter x y c sw).
  rewrite [real_init _ _]real_init_none; apply: nc; by case: sw.
have [Y [cY sp nc]] := student_default_start M it d0 N0 X0 res.
have [v [d [k [h _]]]] := (C29_estimators_follow_contract z z N p (StudentMLE df) tol it).2 eigh Y None d0.
exists Y, v, d, k; split=> //.
have pi s1 : None = Some s1 -> pd (s1 : 'M[complex_sf]_p.+1) by [].
have {}h : complex_student_t_mle_fixed_point eigh Y df None tol it = Some (Ok (v, d, k)) := h.
have [st [x y c sw]] := complex_student_run ok d0 sp pi h; rewrite (run_iter x y c sw).
rewrite /complex_init complex_init_none; apply: nc; by case: sw.
Qed.
(* five samples of dimension 2 in general position: one of them can take any value, with df = 2 for real data and
   df = 1 for complex data *)
Example C99_C100_hypotheses (K : starField) : exists X : 'M[K]_(5, 2), [/\ general_position X, forall i, row i X != 0 & student_resists 1 1 X].
Proof.
have [X [g X0 _]] := C97_C98_hypotheses K; exists X; split=> //; apply/C99_general_position => //; first exact: ltr01.
have e : 1 + 2%:R = 3%:R :> R by rewrite -(natrD _ 1 2).
by rewrite e !mulr1 -(natrD _ 1 1) -!natrM !ltr_nat.
Qed.

Print Assumptions C99_breakdown_iff.
Print Assumptions C99_general_position.
Print Assumptions C100_given_start_partial.
Print Assumptions C100_default_start_refuted.
