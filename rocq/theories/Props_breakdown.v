(* How many arbitrary samples Tyler's estimate resists to, and the role of the starting point: C97, C98. *)
From Coq Require Import Reals String Lra Classical_Prop.
From mathcomp Require Import all_ssreflect all_algebra.
From mathcomp Require Import complex zify.
From Verif Require Import RealsMC RealTac RealTac2 Star StarInst FunCalc Model_featurearray Model_linalg Proofs_linalg Props_linalg
  Model_covariance Spec_covariance Spec_fixedpoint Spec_exist Spec_breakdown Model_estimators Proofs_mest Proofs_loop Proofs_covariance Proofs_estimators
  Props_covariance Proofs_cost Props_cost Props_robust Proofs_unique Proofs_unique2 Props_unique Compact Proofs_converge Props_converge
  Proofs_exist Proofs_exist2 Props_exist Proofs_breakdown Proofs_breakdown2.
Set Implicit Arguments.
Unset Strict Implicit.
Unset Printing Implicit Defensive.
Local Open Scope ring_scope.
Import GRing.Theory Num.Theory Order.TTheory.

(* ------------------------------------------------------------------ C97 *)
Section Bounds.
Variable K : starField.
Hypothesis cK : compactK K.
Variables (N p m : nat) (X : 'M[K]_(N, p.+1)).
Hypotheses (N0 : (0 < N)%N) (X0 : forall i, row i X != 0) (res : tyler_resists m X).
Lemma solutions_bounded : exists M, forall Y S, corrupted m X Y -> tyler_solution Y S -> conditioned M S.
Proof.
have [C hC] := tyler_excess cK X0 res; exists (Rtrigo_def.exp C) => Y S cY [pS eS].
have dec := specdecP (pd_herm pS); apply: (ratio_conditioned pS dec) => l l'; apply: le_trans (hC Y cY S _ _ pS dec l l') _.
by rewrite ger_addl subr_le0; apply: (tyler_min N0 cY.1 pS (pd1 K _) eS).
Qed.
Lemma runs_bounded s0 : pd s0 -> exists M, forall Y k, corrupted m X Y -> conditioned M (iter k (mstep (tyl_w N p.+1) Y) s0).
Proof.
move=> p0; have [C hC] := tyler_excess cK X0 res; have [D hD] := start_excess N p0.
exists (Rtrigo_def.exp (C + D)) => Y k cY; have Y0 := cY.1.
have sp := tyler_condition_spanning Y0 N0 (resists_condition res cY).
have cv q q' : 0 < q -> 0 < q' -> p.+1%:R * ln q' <= p.+1%:R * ln q + N%:R * tyl_w N p.+1 q * (q' - q) by move=> q0 q'0; rewrite scaledN //; exact: tyler_concave.
have [pk hk] := cost_decreases Y0 k sp N0 (fun T => @tyl_pd K N p Y Y0 T N0 sp) cv p0; rewrite -!tcost_mcost in hk.
have dec := specdecP (pd_herm pk); apply: (ratio_conditioned pk dec) => l l'; apply: le_trans (hC Y cY _ _ _ pk dec l l') _.
by rewrite ler_add2l; apply: le_trans (hD Y Y0); rewrite ler_add2r.
Qed.
End Bounds.
Lemma normalised_conditioned (K : starField) p nrm M (S : 'M[K]_p.+1) : pd S -> (conditioned M (normalised nrm S) <-> conditioned M S).
Proof.
move=> pS; have [c c0 ->] := normalised_pos nrm pS; split=> [h|]; last exact: conditionedZ.
have ci : 0 < c^-1 by rewrite invr_gt0.
by have := conditionedZ ci h; rewrite scalerA -rmorphM mulVf ?gt_eqF // rmorph1 scale1r.
Qed.
(* Tyler's equation keeps a solution, unique up to a factor, with a bounded condition number whatever values m samples
   take, if and only if adding m samples to a proper subspace leaves it with less than its share of the samples *)
Theorem C97_breakdown_iff N p m : (0 < N)%N ->
  (forall X : 'M[real_sf]_(N, p.+1), (forall i, row i X != 0) -> (tyler_resists m X <->
     exists M, forall Y, corrupted m X Y -> exists S, [/\ tyler_solution Y S, forall T, tyler_solution Y T -> proportional S T & conditioned M S])) /\
  (forall X : 'M[complex_sf]_(N, p.+1), (forall i, row i X != 0) -> (tyler_resists m X <->
     exists M, forall Y, corrupted m X Y -> exists S, [/\ tyler_solution Y S, forall T, tyler_solution Y T -> proportional S T & conditioned M S])).
Proof.
move=> N0.
have G (K : starField) (cK : compactK K) : (forall X : 'M[K]_(N, p.+1), (forall i, row i X != 0) -> (tyler_condition X <-> exists S, tyler_solution X S /\ forall T, tyler_solution X T -> proportional S T)) ->
  forall X : 'M[K]_(N, p.+1), (forall i, row i X != 0) -> (tyler_resists m X <->
     exists M, forall Y, corrupted m X Y -> exists S, [/\ tyler_solution Y S, forall T, tyler_solution Y T -> proportional S T & conditioned M S]).
  move=> ex X X0; split=> [res|[M h] V rV].
    have [M hM] := solutions_bounded cK N0 X0 res; exists M => Y cY.
    by have [S [sS uS]] := (ex Y cY.1).1 (resists_condition res cY); exists S; split=> //; exact: hM cY sS.
  have [r0 rp] := andP rV; have [Y cY eY] := worst m X0 r0; have [S [sS uS _]] := h Y cY.
  have cond : tyler_condition Y by apply/(ex Y cY.1); exists S.
  have := cond V rV; rewrite eY; case: (leqP N (count_in X V + m)) => [le|lt] //.
  by rewrite mulnC ltn_mul2l N0 /= ltnNge (ltnW rp).
have [a b] := @C85_exists_iff N p N0; split; [exact: (G _ real_compact a) | exact: (G _ complex_compact b)].
Qed.
(* Samples in general position: m of them can be replaced if and only if m + 1 < N / p *)
Theorem C97_general_position (K : starField) N p m (X : 'M[K]_(N, p.+1)) : general_position X -> (0 < p)%N -> (0 < N)%N ->
  (tyler_resists m X <-> (p.+1 * m.+1 < N)%N).
Proof.
move=> g p0 N0; have X0 := general_nonzero g; split=> [res|lt V /andP[r0 rp]].
  pose i0 := Ordinal N0; have r1 : \rank <<row i0 X>>%MS = 1%N by rewrite mxrank_gen rank_rV X0.
  have := res <<row i0 X>>%MS; rewrite r1 /= ltnS p0 muln1 => /(_ isT); apply: leq_ltn_trans; rewrite leq_mul2l /= -add1n leq_add2r.
  by apply/card_gt0P; exists i0; rewrite inE genmxE.
have := g V rp; move: (count_in X V) (\rank V) r0 => c r r0 cr; apply: (@leq_ltn_trans (p.+1 * (r + m))); first by rewrite leq_mul2l leq_add2r cr orbT.
case: r r0 {cr} => [//|r _]; rewrite [X in (_ < X)%N]mulnS mulnDr; rewrite mulnS in lt.
have : (p.+1 * r <= N * r)%N by rewrite leq_mul2r; apply/orP; right; lia.
lia.
Qed.

(* ------------------------------------------------------------------ C98 *)
(* A bound for every result of the fixed-point functions started from a given matrix: whatever the replaced
   samples, the tolerance, the number of iterations and the normalisation *)
Theorem C98_given_start_partial N p m : (0 < N)%N ->
  (forall (X : 'M[real_sf]_(N, p.+1)) s0, (forall i, row i X != 0) -> tyler_resists m X -> pd s0 -> exists M, forall eigh Y tol it nrm s d k, eigh_ok eigh ->
     corrupted m X Y -> tyler_shape_matrix_fixedpoint eigh Y (Some s0) tol it nrm = Some (Ok (s, d, k)) -> conditioned M s) /\
  (forall (X : 'M[complex_sf]_(N, p.+1)) s0, (forall i, row i X != 0) -> tyler_resists m X -> pd s0 -> exists M, forall eigh Y tol it nrm s d k, eigh_ok eigh ->
     corrupted m X Y -> complex_tyler_shape_matrix_fixedpoint eigh Y (Some s0) tol it nrm = Some (Ok (s, d, k)) -> conditioned M s).
Proof.
move=> N0; split=> X s0 X0 res p0.
  have [M hM] := runs_bounded real_compact N0 X0 res p0; exists M => eigh Y tol it nrm s d k ok cY h.
  have sp := tyler_condition_spanning cY.1 N0 (resists_condition res cY).
  have pi s1 : Some s0 = Some s1 -> pd s1 by move=> [<-].
  have [st [v [-> a b c sw]]] := real_tyler_run ok cY.1 sp pi h.
  have e := run_iter a b p0 sw; apply/normalised_conditioned; rewrite e; [exact: iter_pd | exact: hM].
have [M hM] := runs_bounded complex_compact N0 X0 res p0; exists M => eigh Y tol it nrm s d k ok cY h.
have sp := tyler_condition_spanning cY.1 N0 (resists_condition res cY).
have pi s1 : Some s0 = Some s1 -> pd s1 by move=> [<-].
have [st [v [-> a b c sw]]] := complex_tyler_run ok cY.1 sp pi h.
have e := run_iter a b p0 sw; apply/normalised_conditioned; rewrite e; [exact: iter_pd | exact: hM].
Qed.
(* The default starting point is the sample covariance matrix of the data: with it a single sample makes the condition
   number of the result as large as wanted, however many iterations are allowed, although the solution is bounded *)
Lemma default_start (K : starField) N p (X : 'M[K]_(N, p.+1)) (M : R) it : (0 < p)%N -> (0 < N)%N -> (forall i, row i X != 0) -> tyler_resists 1 X ->
  exists Y, [/\ corrupted 1 X Y, spanning Y & forall k, (k <= it)%N -> ~ conditioned M (iter k (mstep (tyl_w N p.+1) Y) (wsum (fun=> N%:R^-1) Y))].
Proof.
move=> p0 N0 X0 res; pose i0 := Ordinal N0; pose j1 : 'I_p.+1 := Ordinal (p0 : (1 < p.+1)%N).
pose q := \sum_i sq (X i j1); have q0 : 0 <= q by apply: sumr_ge0 => i _; exact: sq_ge0.
pose r := 1 + Num.max 0 M * (N%:R ^+ it * q).
have m0 : 0 <= Num.max 0 M by rewrite le_maxr lexx.
have n1 : 1 <= N%:R :> R by rewrite ler1n.
have t0 : 0 <= Num.max 0 M * (N%:R ^+ it * q) by rewrite mulr_ge0 ?mulr_ge0 ?exprn_ge0 // (le_trans ler01).
have r1 : 1 <= r by rewrite ler_addl.
pose y : 'rV[K]_p.+1 := @ofR K r *: delta_mx 0 ord0.
have y0 : y != 0.
  rewrite scaler_eq0 fmorph_eq0 negb_or gt_eqF ?(lt_le_trans ltr01) //=; apply/negP => /eqP /matrixP /(_ 0 ord0) /eqP; by rewrite !mxE !eqxx oner_eq0.
pose Y : 'M[K]_(N, p.+1) := \matrix_i if i == i0 then y else row i X.
have cY : corrupted 1 X Y.
  split=> [i|]; first by rewrite rowK; case: ifP.
  apply: leq_trans (_ : #|[set i0]| <= 1)%N; last by rewrite cards1.
  apply: subset_leq_card; apply/subsetP => i; rewrite !inE rowK; case: (i == i0) => //; by rewrite eqxx.
have sp := tyler_condition_spanning cY.1 N0 (resists_condition res cY).
exists Y; split=> // k kit cond; pose e : 'cV[K]_p.+1 := delta_mx ord0 0; pose v : 'cV[K]_p.+1 := delta_mx j1 0.
have d1 j : \sum_l sq ((delta_mx j 0 : 'cV[K]_p.+1) l 0) = 1.
  rewrite (bigD1 j) //= big1 => [|l /negbTE lj]; first by rewrite mxE !eqxx /sq rmorph1 mulr1 toR1 addr0.
  by rewrite mxE lj /sq mul0r raddf0.
have dot (x : 'cV[K]_p.+1) j : sq ((adj x *m (delta_mx j 0 : 'cV[K]_p.+1)) 0 0) = sq (x j 0).
  rewrite mxE (bigD1 j) //= big1 => [|l /negbTE lj]; last by rewrite !mxE lj mulr0.
  by rewrite adjE [delta_mx _ _ _ _]mxE !eqxx mulr1 addr0 /sq cjK mulrC.
have pS : pd (wsum (fun=> N%:R^-1) Y) by apply: wsum_pd => // i; rewrite invr_gt0 ltr0n.
have := iter_ratio N0 cY.1 sp i0 pS (d1 ord0 : \sum_l sq (e l 0) = 1) (d1 j1 : \sum_l sq (v l 0) = 1) cond.
have -> : sq ((adj (samp Y i0) *m e) 0 0) = r ^+ 2.
  by rewrite dot /samp rowK eqxx !mxE !eqxx mulr1 /sq cj_ofR -rmorphM toRK expr2.
have qY : \sum_j sq ((adj (samp Y j) *m v) 0 0) <= q.
  apply: ler_sum => i _; rewrite dot /samp mxE rowK; case: ifP => _; last by rewrite mxE.
  by rewrite !mxE /= mulr0 /sq mul0r raddf0; exact: sq_ge0.
have qY0 : 0 <= \sum_j sq ((adj (samp Y j) *m v) 0 0) by apply: sumr_ge0 => j _; exact: sq_ge0.
move=> le; have : r ^+ 2 <= r - 1.
  apply: le_trans le _; rewrite /r addrC addKr; apply: (@le_trans _ _ (Num.max 0 M * (N%:R ^+ k * \sum_j sq ((adj (samp Y j) *m v) 0 0)))).
    apply: ler_wpmul2r; last by rewrite le_maxr lexx orbT.
    by rewrite mulr_ge0 // exprn_ge0 // ler0n.
  apply: ler_wpmul2l => //; apply: ler_pmul => //; first by rewrite exprn_ge0 // ler0n.
  exact: ler_weexpn2l.
rewrite leNgt => /negP; apply; move: r1; move: (r) => x x1; rnra2.
Qed.
Theorem C98_default_start_refuted N p (M : R) it nrm tol : (0 < p)%N -> (0 < N)%N ->
  (forall eigh (X : 'M[real_sf]_(N, p.+1)), eigh_ok eigh -> (forall i, row i X != 0) -> tyler_resists 1 X -> exists Y s d k, [/\ corrupted 1 X Y,
     tyler_shape_matrix_fixedpoint eigh Y None tol it nrm = Some (Ok (s, d, k)) & ~ conditioned M s]) /\
  (forall eigh (X : 'M[complex_sf]_(N, p.+1)), eigh_ok eigh -> (forall i, row i X != 0) -> tyler_resists 1 X -> exists Y s d k, [/\ corrupted 1 X Y,
     complex_tyler_shape_matrix_fixedpoint eigh Y None tol it nrm = Some (Ok (s, d, k)) & ~ conditioned M s]).
Proof.
move=> p0 N0; pose z (_ _ : R) : R := 0; split=> eigh X ok X0 res; have [Y [cY sp nc]] := default_start M it p0 N0 X0 res.
  have [v [d [k [h _]]]] := (C29_estimators_follow_contract z z N p (TylerFP nrm) tol it).1 eigh Y None I.
  exists Y, (normalised nrm v), d, k; split=> //.
  have pi s1 : None = Some s1 -> pd (s1 : 'M[real_sf]_p.+1) by [].
  have {}h : tyler_shape_matrix_fixedpoint eigh Y None tol it nrm = Some (Ok (normalised nrm v, d, k)) := h.
  have [st [w [-> a b c sw]]] := real_tyler_run ok cY.1 sp pi h; have e := run_iter a b c sw.
  rewrite normalised_conditioned; last by rewrite e; exact: iter_pd.
  rewrite e [real_init _ _]real_init_none; apply: nc; by case: sw.
have [v [d [k [h _]]]] := (C29_estimators_follow_contract z z N p (TylerFP nrm) tol it).2 eigh Y None I.
exists Y, (normalised nrm v), d, k; split=> //.
have pi s1 : None = Some s1 -> pd (s1 : 'M[complex_sf]_p.+1) by [].
have {}h : complex_tyler_shape_matrix_fixedpoint eigh Y None tol it nrm = Some (Ok (normalised nrm v, d, k)) := h.
have [st [w [-> a b c sw]]] := complex_tyler_run ok cY.1 sp pi h; have e := run_iter a b c sw.
rewrite normalised_conditioned; last by rewrite e; exact: iter_pd.
rewrite e /complex_init complex_init_none; apply: nc; by case: sw.
Qed.
(* five samples of dimension 2 in general position: one of them can take any value *)
Example C97_C98_hypotheses (K : starField) : exists X : 'M[K]_(5, 2), [/\ general_position X, forall i, row i X != 0 & tyler_resists 1 X].
Proof.
pose X : 'M[K]_(5, 2) := \matrix_(i, j) (i ^ j)%:R.
have X0 i : row i X != 0.
  by apply/negP => /eqP /matrixP /(_ 0 0) /eqP; rewrite !mxE expn0 oner_eq0.
have g : general_position X.
  move=> V rp; case: (posnP (\rank V)) => [r0|r0]; first by have := inside0 X0 r0; rewrite /inside /count_in => ->.
  have r1 : \rank V = 1%N by lia.
  rewrite r1 /count_in; apply/card_le1P => i; rewrite inE => iV i'; rewrite !inE; apply/idP/eqP => [iV'|->] //.
  have : (V <= row i X)%MS by rewrite -(mxrank_leqif_sup iV) r1 rank_rV X0.
  move/(submx_trans iV') => /sub_rVP [a e].
  have /eqP := congr1 (fun M : 'rV_2 => M 0 0) e; rewrite !mxE !expn0 mulr1 eq_sym => /eqP a1.
  have /eqP := congr1 (fun M : 'rV_2 => M 0 1) e; rewrite !mxE a1 mul1r !expn1 eqr_nat => /eqP; exact: val_inj.
by exists X; split=> //; apply/(C97_general_position 1 g).
Qed.

Print Assumptions C97_breakdown_iff.
Print Assumptions C97_general_position.
Print Assumptions C98_given_start_partial.
Print Assumptions C98_default_start_refuted.
