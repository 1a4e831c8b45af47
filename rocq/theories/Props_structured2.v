(* The MM algorithm for Kronecker structured covariances, continued: sizes, singular factors, the fit method
   (C56); complex data for which the covariance reported is not the one fitted (C57). *)
From Coq Require Import Reals String.
From mathcomp Require Import all_ssreflect all_algebra.
From mathcomp Require Import complex mxtens.
From Verif Require Import RealsMC RealTac RealTac2 Star StarInst FunCalc Model_featurearray Model_linalg Proofs_linalg NpArray Proofs_numpy
  Model_mappings Props_mappings Model_covariance Spec_covariance Model_estimators Model_scipy Model_probability Model_scores Model_sklearn Model_objects
  Proofs_objects Props_objects Proofs_loop Proofs_cost Model_structured Proofs_structured Props_structured.
Set Implicit Arguments.
Unset Strict Implicit.
Unset Printing Implicit Defensive.
Local Open Scope ring_scope.
Import GRing.Theory Num.Theory Order.TTheory.

Section MM.
Variables (K : starField) (ssqrtm : forall n, 'M[K]_n -> 'M[K]_n).
Hypothesis sq_ok : sqrtm_psd_ok ssqrtm.
Local Notation ofR := (@ofR K).
Local Notation MM := (estimation_cov_kronecker_MM ssqrtm).
Theorem C56_size_mismatch N q a b (X : 'M[K]_(N, q)) tol iter_max : (a * b)%N != q -> MM a b X tol iter_max = Ok None.
Proof. by rewrite /estimation_cov_kronecker_MM => ->. Qed.

Section Data.
Variables (N a b : nat) (X : 'M[K]_(N, a * b)).
Local Notation step := (@mm_step K ssqrtm N (a * b) a b X).
Local Notation start := ((1%:M, invmx 1%:M, 1%:M) : mm_state K a b).
(* the function returns what the stopping rule designates (the converse of C56_result) *)
Theorem C56_complete tol iter_max A iA B d k :
  stops_with gtf PInf step (@mm_change K a b) tol iter_max start (A, iA, B) d k ->
  MM a b X tol iter_max = Ok (Some (A, B, tol, k)).
Proof.
move=> st; case: (loop_spec gtf PInf step (@mm_change K a b) tol iter_max start) => [[[[A' iA'] B'] [d' [k' [e1 st']]]]|[e1 [j [er1 [up jm h]]]]].
  by rewrite /estimation_cov_kronecker_MM eqxx /= /mm_loop e1; have [[-> _ ->] _ ->] := stops_with_unique st' st.
have [u r km g _] := st; case: (leqP j k) => [jk|kj].
  have : forall i, updates step (i + j) start = Err e1 by elim=> [|i IH] //; rewrite addSn -[LHS]/(bindr (updates step (i + j) start) step) IH.
  by move=> /(_ (k - j)%N); rewrite subnK // u.
by move: jm; rewrite -(g (h _ _ kj r)) => /andP[_]; rewrite leqNgt kj.
Qed.
(* a pass that gives a nonsingular B needs samples that span the rows *)
Lemma step_rows A B A' iA' B' : pd A -> pd B -> step (A, invmx A, B) = Ok (A', iA', B') -> B' \in unitmx -> span_rows X.
Proof.
move=> pA pB; rewrite mm_stepE //; case: ifP => // /negbFE nz /=; case: ifP => // uA' [eA _ eB] uB' y hy.
have pA' : pd A' by rewrite -eA; apply: psd_unit_pd => //; apply: gmean_psd => //; exact: MA_psd.
have e := gmean_eq pB (MB_psd X pA' pB); rewrite eA in eB; rewrite eB in e.
have uM : MB X A' B \in unitmx by rewrite -e !unitmx_mul uB' unitmx_inv pd_unit.
suff My : MB X A' B *m y = 0 by rewrite -(mulKmx uM y) My mulmx0.
rewrite /MB /mm_M mulmx_suml big1 // => i _; rewrite -!scalemxAl /mm_numerator_B cellE -!mulmxA hy.
by rewrite !mulmx0 !scaler0.
Qed.
(* B is positive definite exactly when the samples span the rows; otherwise the first pass gives a
   singular B and the second one raises *)
Theorem C56_B_iff tol iter_max A B t k : MM a b X tol iter_max = Ok (Some (A, B, t, k)) -> (0 < k)%N -> (pd B <-> span_rows X).
Proof.
move=> e k0; split; last by case: (C56_factors_partial sq_ok e).
move=> pB; have [iA [d [up _ _ _ _]]] := C56_result e; case: k k0 up {e} => // k _.
have -> : updates step k.+1 start = bindr (updates step k start) step by [].
case e: (updates _ _ _) => [[[A1 iA1] B1]|] //; rewrite bindrOk.
have [pA1 iA1E pB1] := updates_inv (I := @mm_inv K a b) (mm_inv0 _ _ _) (fun s s' => @mm_step_inv K ssqrtm sq_ok N (a * b) a b X s s') e.
rewrite iA1E; case uB: (B1 \in unitmx); last by rewrite mm_step_singular ?uB.
by move=> es; apply: (step_rows pA1 (psd_unit_pd pB1 uB) es); exact: pd_unit.
Qed.
Theorem C56_rows_missing tol iter_max A B t k : ~ span_rows X -> MM a b X tol iter_max = Ok (Some (A, B, t, k)) -> (k <= 1)%N.
Proof.
move=> ns e; have [iA [d [up _ _ _ _]]] := C56_result e; case: k up {e} => // -[|k] //.
have -> : updates step k.+2 start = bindr (bindr (updates step k start) step) step by [].
case e: (updates _ _ _) => [[[A1 iA1] B1]|] //; rewrite bindrOk.
have [pA1 iA1E pB1] := updates_inv (I := @mm_inv K a b) (mm_inv0 _ _ _) (fun s s' => @mm_step_inv K ssqrtm sq_ok N (a * b) a b X s s') e.
rewrite iA1E; case uB: (B1 \in unitmx); last by rewrite mm_step_singular ?uB.
have pB := psd_unit_pd pB1 uB; case es: (step _) => [[[A2 iA2] B2]|] //; rewrite bindrOk.
have [pA2 iA2E pB2] := mm_step_inv sq_ok (And3 pA1 erefl pB1 : mm_inv (A1, invmx A1, B1)) es.
rewrite iA2E; case uB2: (B2 \in unitmx); last by rewrite mm_step_singular ?uB2.
by case: ns; exact: step_rows es uB2.
Qed.
End Data.
End MM.

(* ---------- one sample (1, 0), a = 1, b = 2 ---------- *)
Section One.
Variables (K : starField) (ssqrtm : forall n, 'M[K]_n -> 'M[K]_n).
Hypothesis sq_ok : sqrtm_psd_ok ssqrtm.
Definition X10 : 'M[K]_(1, 1 * 2) := \matrix_(i, j) (if (j : nat) == 0%N then 1 else 0).
Lemma X10_nonzero : nonzero_samples X10.
Proof. by move=> i; apply/eqP => /matrixP /(_ 0 0); rewrite !mxE /= => /eqP; rewrite oner_eq0. Qed.
Lemma X10_columns : span_columns X10.
Proof.
move=> y /(_ 0) /matrixP /(_ 0 0); rewrite mxE big_ord1 !mxE /= mul1r => e.
by apply/matrixP => i j; rewrite !ord1 e mxE.
Qed.
Lemma X10_rows : ~ span_rows X10.
Proof.
move=> /(_ (\col_r (if (r : nat) == 1%N then 1 else 0))); suff h : forall i, (unstack X10 i)^H *m (\col_r (if (r : nat) == 1%N then 1 else 0)) = 0 :> 'cV[K]_1.
  by move=> /(_ h) /matrixP /(_ 1 0); rewrite !mxE /= => /eqP; rewrite oner_eq0.
move=> i; apply/matrixP => r c; rewrite !mxE !big_ord_recl big_ord0 /= !mxE /= (ord1 r) /=.
by rewrite ?rmorph0 ?mulr0 ?mul0r ?addr0.
Qed.
Theorem C56_singular_B_refuted tol : gtf PInf tol ->
  exists A B t, estimation_cov_kronecker_MM ssqrtm 1 2 X10 tol 1 = Ok (Some (A, B, t, 1%N)) /\ ~ pd B.
Proof.
move=> g; suff [A [B [t e]]] : exists A B t, estimation_cov_kronecker_MM ssqrtm 1 2 X10 tol 1 = Ok (Some (A, B, t, 1%N)).
  by exists A, B, t; split=> //; rewrite (C56_B_iff sq_ok e) //; exact: X10_rows.
have [[[A iA] B] e] := step_succeeds sq_ok X10_nonzero X10_columns (good0 K 1 2).
exists A, B, tol; apply: (@C56_complete K ssqrtm _ 1 2 X10 tol 1 A iA B (mm_change (A, iA, B) (1%:M, invmx 1%:M, 1%:M)) 1).
by split=> //; [do 2 eexists; split; last reflexivity|case=> // dj _ ->].
Qed.
End One.

(* ---------- one sample 1, a = b = 1: the error is 0 after the first pass, the tolerance is returned ---------- *)
Section Final.
Variables (K : starField) (ssqrtm : forall n, 'M[K]_n -> 'M[K]_n).
Hypothesis sq_ok : sqrtm_psd_ok ssqrtm.
Definition X1 : 'M[K]_(1, 1 * 1) := const_mx 1.
Lemma X1_cell i : cell X1 1 1 i = 1%:M.
Proof. by rewrite cellE; apply/matrixP => r c; rewrite !mxE !ord1 eqxx. Qed.
Lemma X1_step : @mm_step K ssqrtm 1 1 1 1 X1 (1%:M, invmx 1%:M, 1%:M) = Ok (1%:M, invmx 1%:M, 1%:M).
Proof.
have u1 : fmx R_sqrt.sqrt (1%:M : 'M[K]_1) = 1%:M by apply/esym/psd_sqrt_uniq; [exact/pd_psd/pd1|rewrite mulmx1].
have g1 : gmean (1%:M : 'M[K]_1) 1%:M = 1%:M by rewrite /gmean u1 !mulmx1 invmx1 !mulmx1 !mul1mx u1.
have d1 i : mm_denominator X1 (invmx 1%:M : 'M[K]_1) (invmx 1%:M : 'M[K]_1) i = 1.
  by rewrite /mm_denominator /mm_numerator X1_cell !invmx1 adj1 !mulmx1 mxtrace1.
have m1 : MA X1 (1%:M : 'M[K]_1) (1%:M : 'M[K]_1) = 1%:M.
  by rewrite /MA /mm_M big_ord1 d1 /mm_numerator X1_cell invmx1 adj1 !mulmx1 invr1 mulr1 !scale1r.
have m2 : MB X1 (1%:M : 'M[K]_1) (1%:M : 'M[K]_1) = 1%:M.
  by rewrite /MB /mm_M big_ord1 d1 /mm_numerator_B X1_cell invmx1 adj1 !mulmx1 invr1 mulr1 !scale1r.
rewrite mm_stepE //; try exact: pd1.
have -> /= : [forall i, cell X1 1 1 i != 0] by apply/forallP => i; rewrite X1_cell oner_eq0.
by rewrite m1 g1 unitmx1 m2 g1.
Qed.
Theorem C56_final_error_refuted iter_max tol : (0 < iter_max)%N -> 0 < tol ->
  exists A B iA, estimation_cov_kronecker_MM ssqrtm 1 1 X1 (Fin tol) iter_max = Ok (Some (A, B, Fin tol, 1%N)) /\
    stops_with gtf PInf (@mm_step K ssqrtm 1 1 1 1 X1) (@mm_change K 1 1) (Fin tol) iter_max (1%:M, invmx 1%:M, 1%:M) (A, iA, B) (Fin 0) 1.
Proof.
move=> m0 t0; exists 1%:M, 1%:M, (invmx 1%:M).
have e1 : updates (@mm_step K ssqrtm 1 1 1 1 X1) 1 (1%:M, invmx 1%:M, 1%:M) = Ok (1%:M, invmx 1%:M, 1%:M) by exact: X1_step.
have r0 : rel_change (1%:M : 'M[K]_1) 1%:M = Fin 0.
  have f0 : fro (1%:M : 'M[K]_1) != 0 by apply/eqP => /fro_eq0 /eqP; rewrite oner_eq0.
  by rewrite /rel_change /divf (negbTE f0) subrr fro0 mul0r.
have c0 : @mm_change K 1 1 (1%:M, invmx 1%:M, 1%:M) (1%:M, invmx 1%:M, 1%:M) = Fin 0.
  by rewrite /mm_change r0 /maxf; case: ifP.
have st : stops_with gtf PInf (@mm_step K ssqrtm 1 1 1 1 X1) (@mm_change K 1 1) (Fin tol) iter_max (1%:M, invmx 1%:M, 1%:M) (1%:M, invmx 1%:M, 1%:M) (Fin 0) 1.
  split=> //.
  - by exists (1%:M, invmx 1%:M, 1%:M), (1%:M, invmx 1%:M, 1%:M); split.
  - by rewrite /gtf /= => /(lt_trans t0); rewrite ltxx.
  by move=> [|j] // dj _ ->.
by split=> //; exact: (C56_complete st).
Qed.
End Final.

(* ---------- complex data for which kron(A, B) is not what was fitted ---------- *)
Section Witness.
Variables (K : starField) (ii : K).
Hypotheses (ii2 : ii * ii = -1) (iiC : cj K ii = - ii).
Local Notation ofR := (@ofR K).
Variable ssqrtm : forall n, 'M[K]_n -> 'M[K]_n.
Hypothesis sq_ok : sqrtm_psd_ok ssqrtm.
(* 49 samples (1, i) and one sample (1, -i) *)
Definition sgn (i : 'I_50) : R := if (i < 49)%N then 1 else -1.
Definition X49 : 'M[K]_(50, 2 * 1) := \matrix_(i, j) (if (j : nat) == 0%N then 1 else ofR (sgn i) * ii).
Definition J : 'M[K]_2 := \matrix_(r, c) (if (r : nat) == 0%N then (if (c : nat) == 0%N then 0 else ii) else (if (c : nat) == 0%N then - ii else 0)).
Definition mxJ (x y : R) : 'M[K]_2 := ofR x *: 1%:M + ofR y *: J.
Let ord2 (P : 'I_2 -> Prop) : P 0 -> P 1 -> forall i, P i.
Proof. by move=> h0 h1 [[|[|i]] hi] //; [move: h0|move: h1]; congr P; apply: val_inj. Qed.
Lemma JJ : J *m J = 1%:M.
Proof.
apply/matrixP; apply: ord2; apply: ord2; rewrite !mxE !big_ord_recl big_ord0 !mxE /=.
all: by rewrite ?mulr0 ?mul0r ?mulrN ?mulNr ?ii2 ?opprK ?addr0 ?add0r.
Qed.
Lemma JT : J^T = - J.
Proof. by apply/matrixP; apply: ord2; apply: ord2; rewrite !mxE /= ?oppr0 ?opprK. Qed.
Lemma JH : J^H = J.
Proof. by apply/matrixP; apply: ord2; apply: ord2; rewrite !mxE /= ?rmorph0 ?rmorphN ?iiC ?opprK. Qed.
Lemma trJ : \tr J = 0.
Proof. by rewrite /mxtrace !big_ord_recl big_ord0 !mxE /= !addr0. Qed.
Lemma mxJM x y z t : mxJ x y *m mxJ z t = mxJ (x * z + y * t) (x * t + y * z).
Proof.
rewrite /mxJ mulmxDl !mulmxDr -!scalemxAl -!scalemxAr !mul1mx mulmx1 JJ !scalerA !rmorphD !rmorphM !scalerDl.
by rewrite -!addrA; congr (_ + _); rewrite addrC -!addrA addrC addrA; congr (_ + _); rewrite addrC.
Qed.
Lemma mxJ10 : mxJ 1 0 = 1%:M.
Proof. by rewrite /mxJ rmorph1 rmorph0 scale1r scale0r addr0. Qed.
Lemma mxJ_inv x y : x * x - y * y != 0 -> mxJ x y \in unitmx /\ invmx (mxJ x y) = mxJ (x / (x * x - y * y)) (- y / (x * x - y * y)).
Proof.
move=> d0; have e : mxJ x y *m mxJ (x / (x * x - y * y)) (- y / (x * x - y * y)) = 1%:M.
  rewrite mxJM -mxJ10; congr mxJ; last by rewrite !mulrA mulrN mulNr addrC mulrC; rring.
  by rewrite !mulrA mulrN -mulrDl divff.
have [u1 _] := mulmx1_unit e; split=> //.
by rewrite -[RHS]mul1mx -(mulVmx u1) -mulmxA e mulmx1.
Qed.
Lemma mxJT x y : (mxJ x y)^T = mxJ x (- y).
Proof. by rewrite /mxJ linearD !linearZ /= trmx1 JT rmorphN scaleNr scalerN. Qed.
Lemma tr_mxJ x y : \tr (mxJ x y) = ofR (x * 2%:R).
Proof. by rewrite /mxJ mxtraceD !mxtraceZ trJ mxtrace1 mulr0 addr0 rmorphM rmorph_nat. Qed.
Lemma det_mxJ x y : \det (mxJ x y) = ofR (x * x - y * y).
Proof.
rewrite (expand_det_row _ 0) !big_ord_recl big_ord0 /cofactor !det_mx11 !mxE /=.
rewrite /bump /= !addn0 expr0 expr1 !mulr1 !mulr0 !add0r !addr0 !mul1r mulN1r.
by rewrite !mulrN opprK mulrACA ii2 mulrN1 rmorphB !rmorphM.
Qed.
Lemma unstackJ i : (unstack X49 i)^H *m unstack X49 i = mxJ 1 (sgn i).
Proof.
have s2 : sgn i * sgn i = 1 by rewrite /sgn; case: ifP; rewrite ?mulrNN mulr1.
apply/matrixP; apply: ord2; apply: ord2; rewrite !mxE big_ord1 !mxE /=.
all: rewrite ?rmorph1 ?mulr0 ?mulr1 ?mul1r ?addr0 ?add0r // rmorphM iiC cj_ofR ?mulrN //.
by rewrite mulNr mulrACA ii2 mulrN1 opprK -rmorphM s2 rmorph1.
Qed.
Lemma sum_sgn : \sum_i sgn i = 48%:R.
Proof.
rewrite big_ord_recr /= (eq_bigr (fun _ => 1)) => [|i _]; last by rewrite /sgn /= ltn_ord.
by rewrite sumr_const card_ord /sgn /= -[49%N]/(48 + 1)%N natrD addrK.
Qed.
Lemma X49_nonzero : [forall i, cell X49 2 1 i != 0].
Proof.
apply/forallP => i; rewrite cellE; apply/eqP => /matrixP /(_ 0 0); rewrite !mxE /= => /eqP.
by rewrite oner_eq0.
Qed.
Lemma X49_rows : span_rows X49.
Proof.
move=> y /(_ 0) /matrixP /(_ 0 0); rewrite !mxE big_ord1 !mxE /= rmorph1 mul1r => h.
by apply/matrixP => r c; rewrite !ord1 h mxE.
Qed.
Lemma numJ i : mm_numerator 2 X49 (invmx (1%:M : 'M[K]_1)) i = mxJ 1 (sgn i).
Proof. by rewrite /mm_numerator cellE invmx1 mulmx1 unstackJ. Qed.
Lemma M49 : MA X49 (1%:M : 'M[K]_2) (1%:M : 'M[K]_1) = mxJ 1 (24%:R / 25%:R).
Proof.
rewrite /MA /mm_M (eq_bigr (fun i => mxJ (1 / 50%:R) (sgn i / 50%:R))) => [|i _].
  rewrite /mxJ big_split /= -!scaler_suml -!rmorph_sum; congr (_ *: _ + _ *: _); congr (ofR _); last first.
    by rewrite -mulr_suml sum_sgn; rfield.
  by rewrite sumr_const card_ord -mulr_natr divfK // pnatr_eq0.
rewrite /mm_denominator numJ invmx1 mul1mx tr_mxJ mul1r /mxJ !scalerDr !scalerA; congr (_ *: _ + _ *: _).
  by rewrite -(rmorph_nat ofR) -(rmorph_nat ofR 50) -!fmorphV -!rmorphM; congr (ofR _); rfield.
by rewrite -(rmorph_nat ofR) -(rmorph_nat ofR 50) -!fmorphV -!rmorphM; congr (ofR _); rfield.
Qed.
Definition A49 := mxJ (4%:R / 5%:R) (3%:R / 5%:R).
Lemma A49_psd : psd A49.
Proof.
have -> : A49 = ofR (1 / 5%:R) *: 1%:M + ofR (3%:R / 5%:R) *: ((unstack X49 0)^H *m 1%:M *m (unstack X49 0)).
  rewrite mulmx1 unstackJ /A49 /mxJ.
  rewrite [ofR 1]rmorph1 scale1r scalerDr addrA -scalerDl -rmorphD; congr (ofR _ *: _ + _).
    by rfield.
  by rewrite scale1r.
apply: psdD; first by apply: psdZ; [rewrite ofR_ge0; rlra2|exact/pd_psd/pd1].
apply: psdZ; first by rewrite ofR_ge0; rlra2.
rewrite -{2}(adjK (unstack X49 0)); apply/psd_congr/pd_psd/pd1.
Qed.
Lemma gmean1 n (A M : 'M[K]_n) : psd A -> A *m A = M -> gmean 1%:M M = A.
Proof.
move=> pA e; have u1 : fmx R_sqrt.sqrt (1%:M : 'M[K]_n) = 1%:M by apply/esym/psd_sqrt_uniq; [exact/pd_psd/pd1|rewrite mulmx1].
by rewrite /gmean u1 !mulmx1 invmx1 !mulmx1 !mul1mx; apply/esym/psd_sqrt_uniq.
Qed.
Lemma A49_gmean : gmean 1%:M (MA X49 (1%:M : 'M[K]_2) (1%:M : 'M[K]_1)) = A49.
Proof.
rewrite M49; apply: gmean1; first exact: A49_psd.
by rewrite /A49 mxJM; congr mxJ; rfield.
Qed.
Lemma A49_unit : A49 \in unitmx.
Proof. by case: (@mxJ_inv (4%:R / 5%:R) (3%:R / 5%:R)) => //; rewrite gt_eqF //; rlra2. Qed.
Lemma A49_pd : pd A49. Proof. exact: psd_unit_pd A49_psd A49_unit. Qed.
Lemma den49 (C : 'M[K]_2) i : mm_denominator X49 C (invmx (1%:M : 'M[K]_1)) i = \tr (C *m mxJ 1 (sgn i)).
Proof. by rewrite /mm_denominator numJ. Qed.
Lemma MB49 : MB X49 A49 (1%:M : 'M[K]_1) = 1%:M.
Proof.
have pA := A49_pd; rewrite /MB /mm_M (eq_bigr (fun _ => (1%:R / 50%:R) *: 1%:M)) => [|i _].
  rewrite sumr_const card_ord -scaler_nat scalerA mulrCA divff ?mulr1 ?scale1r //.
  by rewrite pnatr_eq0.
congr (_ *: _); have d0 : 0 < mm_denominator X49 (invmx A49) (invmx (1%:M : 'M[K]_1)) i.
  by rewrite den_gt0; [move/forallP: X49_nonzero; apply|exact: pd_inv|exact/pd_inv/pd1].
have e : mm_numerator_B 1 X49 (invmx A49) i = (mm_denominator X49 (invmx A49) (invmx (1%:M : 'M[K]_1)) i)%:M.
  rewrite [LHS]mx11_scalar; congr (_%:M).
  rewrite /mm_denominator /mm_numerator invmx1 mulmx1 mulmxA mxtrace_mulC mulmxA /mxtrace big_ord1 //.
by rewrite e scale_scalar_mx mulVf // gt_eqF.
Qed.
Lemma step49 : @mm_step K ssqrtm 50 (2 * 1) 2 1 X49 (1%:M, invmx 1%:M, 1%:M) = Ok (A49, invmx A49, 1%:M).
Proof.
rewrite mm_stepE //; try exact: pd1.
rewrite X49_nonzero; cbv zeta; rewrite A49_gmean A49_unit MB49 (@gmean1 _ 1%:M) ?mulmx1 //.
exact/pd_psd/pd1.
Qed.
(* the quadratic form of the covariance reported, and that of the identity *)
Lemma maha49 i : maha (A49 *t (1%:M : 'M[K]_1)) (samp X49 i) = if (i < 49)%N then 10%:R else 10%:R / 7%:R.
Proof.
have -> : A49 = (mxJ (4%:R / 5%:R) (- (3%:R / 5%:R)))^T by rewrite mxJT opprK.
have [|u e] := @mxJ_inv (4%:R / 5%:R) (- (3%:R / 5%:R)); first by rewrite gt_eqF //; rlra2.
rewrite -den_maha ?unitmx1 // den49 e mxJM tr_mxJ toRK /sgn; case: ifP => _; rfield.
Qed.
Lemma maha1 i : maha (1%:M : 'M[K]_(2 * 1)) (samp X49 i) = 2%:R.
Proof.
have -> : 1%:M = (1%:M : 'M[K]_2)^T *t (1%:M : 'M[K]_1) by rewrite trmx1 tens_one.
by rewrite -den_maha ?unitmx1 // den49 invmx1 mul1mx tr_mxJ toRK mul1r.
Qed.
(* The covariance reported, kron(A, B), has a greater cost than the identity the algorithm starts with
   (that of kron(A.T, B), which the algorithm fits, has a lower one: C72_run). *)
Lemma cost49 : tyler_cost X49 1%:M < tyler_cost X49 (A49 *t (1%:M : 'M[K]_1)).
Proof.
have eA : \det (A49 *t (1%:M : 'M[K]_1)) = ofR (7%:R / 25%:R).
  rewrite det_tens_herm; [|exact/psd_herm/A49_psd|exact/pd_herm/pd1].
  by rewrite det1 expr1 expr1n mulr1 det_mxJ; congr (ofR _); rfield.
have t1 : @toR K 1 = 1 by rewrite -(rmorph1 ofR) toRK.
rewrite /tyler_cost eA det1 !toRK t1.
have -> : \sum_i ln (maha (1%:M : 'M[K]_(2 * 1)) (samp X49 i)) = 50%:R * ln 2%:R.
  by rewrite (eq_bigr (fun _ => ln 2%:R)) => [|i _]; rewrite ?maha1 // sumr_const card_ord mulr_natl.
have -> : \sum_i ln (maha (A49 *t (1%:M : 'M[K]_1)) (samp X49 i)) = 49%:R * ln 10%:R + ln (10%:R / 7%:R).
  rewrite big_ord_recr /= (eq_bigr (fun _ => ln 10%:R)) => [|i _]; last by rewrite maha49 /= ltn_ord.
  rewrite sumr_const card_ord maha49.
  by rewrite ltnn -(mulr_natl (ln _)).
have e10 : ln 10%:R = ln 2%:R + ln 5%:R by rewrite -lnM ?ltr0n // -natrM.
have e25 : ln 25%:R = ln 5%:R + ln 5%:R by rewrite -lnM ?ltr0n // -natrM.
have h7 : 0 < ln 7%:R by rewrite -ln1; apply: ln_lt; rewrite ?ltr01 ?ltr1n.
rewrite ln1 !lnM ?invr_gt0 ?ltr0n // !lnV ?ltr0n // e10 e25.
move: (ln 2%:R) (ln 5%:R) (ln 7%:R) h7 => u v w h7; rewrite -[(2 * 1)%N]/2%N; rlra2.
Qed.
End Witness.
Theorem C57_reported_worse_than_identity_refuted (ssqrtm : forall n, 'M[complex_sf]_n -> 'M[complex_sf]_n) tol : sqrtm_psd_ok ssqrtm -> gtf PInf tol ->
  exists (X : 'M[complex_sf]_(50, 2 * 1)) A B, estimation_cov_kronecker_MM ssqrtm 2 1 X tol 1 = Ok (Some (A, B, tol, 1%N)) /\
    [/\ pd A, pd B, tyler_cost X (A^T *t B) <= tyler_cost X 1%:M & tyler_cost X 1%:M < tyler_cost X (A *t B)].
Proof.
move=> ok g; pose j : complex_sf := 'i%C.
have jj : j * j = -1 by rewrite -[LHS]expr2 sqr_i.
have jC : cj complex_sf j = - j by apply/eqP; rewrite eq_complex /= oppr0 !eqxx.
pose X := X49 j; pose A := A49 j; exists X, A, 1%:M.
have e : estimation_cov_kronecker_MM ssqrtm 2 1 X tol 1 = Ok (Some (A, 1%:M, tol, 1%N)).
  apply: (@C56_complete _ ssqrtm _ 2 1 X tol 1 A (invmx A) 1%:M (mm_change (A, invmx A, 1%:M) (1%:M, invmx 1%:M, 1%:M)) 1).
  have s1 := step49 jj jC ok; split=> //; [by do 2 eexists; split; last reflexivity|by case=> // dj _ ->].
split=> //; have pA : pd A := A49_pd jj jC.
split=> //; [exact: pd1| |exact: cost49].
by apply: (C72_run ok _ _ e) => //; exact: X49_rows.
Qed.

(* ------------------------------------------------------------------ C56, the fit method *)
Section Fit.
Variables (ssqrtm : forall n, 'M[complex_sf]_n -> 'M[complex_sf]_n) (pinvh : arr -> res arr).
Hypothesis sq_ok : sqrtm_psd_ok ssqrtm.
Local Notation fit := (kmm_fit ssqrtm pinvh).
Lemma kmm_runE a b tol m Xv N q : sh Xv = [:: N; q] -> kmm_run ssqrtm a b tol m Xv =
  bindr (estimation_cov_kronecker_MM ssqrtm a b (to_mx N q Xv : 'M[complex_sf]_(N, q)) tol m) (fun r =>
  if r is Some (A, B, _, _) then Ok (A, B) else Err TypeErr).
Proof. by rewrite /kmm_run => ->. Qed.
Lemma note_nfeatE o X : o_cls (note_nfeat o X) = o_cls o /\ o_covariance (note_nfeat o X) = o_covariance o.
Proof. by rewrite /note_nfeat; case: (validate_nfeat _ _). Qed.
(* sizes that do not match: fit raises and sets nothing *)
Theorem C56_fit_size_mismatch k a b tol m X N p : is_cplx (o_cls (k_obj k)) -> kd X = KCplx -> sh X = [:: N.+1; p.+1] ->
  (a * b)%N != p.+1 -> exists k', [/\ fit k a b tol m X = (k', Err TypeErr), k_A k' = k_A k, k_B k' = k_B k &
    o_covariance (k_obj k') = o_covariance (k_obj k)].
Proof.
move=> hc kX sX ne; rewrite /kmm_fit /=; have [ec ev] := note_nfeatE (k_obj k) X.
have [Xv [n [-> [_ sv _]]]] := @C15_complex_data (o_cls (note_nfeat (k_obj k) X)) X N p (etrans (congr1 _ ec) hc) kX sX.
rewrite bindrOk (@kmm_runE _ _ _ _ _ N.+1 p.+1) ?sv ?sX // C56_size_mismatch //=.
by eexists; split; first reflexivity.
Qed.
(* complex data that are not zero and span rows and columns: A_ and B_ are positive definite, covariance_
   is kron(A_, B_), positive definite *)
Theorem C56_fit k N a b tol m (Y : 'M[complex_sf]_(N.+1, a.+1 * b.+1)) : is_cplx (o_cls (k_obj k)) ->
  (forall c, exists P, pinvh c = Ok P) -> nonzero_samples Y -> span_columns Y -> span_rows Y ->
  exists k' A B c i, fit k a.+1 b.+1 tol m (of_mx KCplx (Y : 'M[C]_(_, _))) = (k', Ok tt) /\
    [/\ estimation_cov_kronecker_MM ssqrtm a.+1 b.+1 Y tol m = Ok (Some (A, B, tol, i)),
        k_A k' = Some (of_mx KCplx (A : 'M[C]_a.+1)) /\ k_B k' = Some (of_mx KCplx (B : 'M[C]_b.+1)),
        o_covariance (k_obj k') = Some c, same c (of_mx KCplx (A *t B : 'M[C]_(a.+1 * b.+1))) & [/\ pd A, pd B & pd (A *t B)]].
Proof.
move=> hc hp nz sc sr; have [A [B [i [e _ pA pB]]]] := C56_succeeds sq_ok tol m nz sc sr.
rewrite /kmm_fit /=; set X := of_mx _ _; have [ec _] := note_nfeatE (k_obj k) X.
have hc' : is_cplx (o_cls (note_nfeat (k_obj k) X)) by rewrite ec.
have sX : sh X = [:: N.+1; (a.+1 * b.+1)%N] by [].
have [Xv [n [-> sm]]] := @C15_complex_data _ X N (b + a * b.+1) hc' erefl sX.
have sv : sh Xv = [:: N.+1; (a.+1 * b.+1)%N] by case: sm => _ ->.
rewrite bindrOk (kmm_runE _ _ _ _ sv) (same_to_mx sm sv) to_of_mx e bindrOk /set_factors.
have [o' [c [-> tr hs]]] := @C14_set_then_transform pinvh (note_nfeat (k_obj k) X) (np_kron A B) (b + a * b.+1) hc' erefl erefl hp.
eexists; exists A, B, c, i; split; first reflexivity; split.
- by [].
- by split.
- by move: tr; rewrite /transform /=; case: (o_covariance o') => // c' [->].
- exact: hs.
by split=> //; exact: tens_pd.
Qed.
End Fit.

(* examples: the vectors of the canonical basis are such data *)
Lemma basis_ok (K : starField) a b : let X : 'M[K]_(a.+1 * b.+1, a.+1 * b.+1) := 1%:M in
  [/\ nonzero_samples X, span_columns X & span_rows X].
Proof.
split.
- by move=> i; apply/eqP => /matrixP /(_ i 0); rewrite !mxE eqxx => /eqP; rewrite oner_eq0.
- move=> y h; apply/matrixP => c j; rewrite ord1 !mxE.
  have := h (mxtens_index (c, 0)) => /matrixP /(_ 0 0); rewrite !mxE (bigD1 c) //= !mxE eqxx mul1r big1 ?addr0 // => c' ne.
  by rewrite !mxE (can_eq (@mxtens_indexK _ _)) xpair_eqE eq_sym (negbTE ne) mul0r.
move=> y h; apply/matrixP => c j; rewrite ord1 !mxE.
have := h (mxtens_index (0, c)) => /matrixP /(_ 0 0); rewrite !mxE (bigD1 c) //= !mxE eqxx rmorph1 mul1r big1 ?addr0 // => c' ne.
by rewrite !mxE (can_eq (@mxtens_indexK _ _)) xpair_eqE [c == _]eq_sym (negbTE ne) andbF rmorph0 mul0r.
Qed.
Example C56_example a b tol m : exists A B k, [/\ estimation_cov_kronecker_MM (fun n (A : 'M[complex_sf]_n) => fmx R_sqrt.sqrt A) a.+1 b.+1
   (1%:M : 'M[complex_sf]_(a.+1 * b.+1)) tol m = Ok (Some (A, B, tol, k)), (k <= m)%N, pd A & pd B].
Proof. by have [nz sc sr] := basis_ok complex_sf a b; exact: (@C56_succeeds complex_sf _ (@sqrtm_psd_exists complex_sf) _ a.+1 b.+1 _ tol m nz sc sr). Qed.

Print Assumptions C56_size_mismatch.
Print Assumptions C56_complete.
Print Assumptions C56_B_iff.
Print Assumptions C56_rows_missing.
Print Assumptions C56_singular_B_refuted.
Print Assumptions C56_final_error_refuted.
Print Assumptions C57_reported_worse_than_identity_refuted.
Print Assumptions C56_fit_size_mismatch.
Print Assumptions C56_fit.
