(* Theorems about the MM algorithm for Kronecker structured covariances: C56, C57, C72. *)
From Coq Require Import Reals String.
From mathcomp Require Import all_ssreflect all_algebra.
From mathcomp Require Import complex mxtens.
From Verif Require Import RealsMC RealTac RealTac2 Star StarInst FunCalc Model_featurearray Model_linalg Proofs_linalg NpArray Proofs_numpy
  Model_mappings Props_mappings Model_covariance Spec_covariance Model_estimators Model_scipy Model_probability Model_scores Model_sklearn Model_objects
  Proofs_objects Props_objects Proofs_loop Proofs_cost Model_structured Proofs_structured.
Set Implicit Arguments.
Unset Strict Implicit.
Unset Printing Implicit Defensive.
Local Open Scope ring_scope.
Import GRing.Theory Num.Theory Order.TTheory.

(* ---------- specification ---------- *)
Section Spec.
Variable K : starField.
(* the b x a matrix whose columns, one below the other, are sample i *)
Definition unstack N a b (X : 'M[K]_(N, a * b)) (i : 'I_N) : 'M[K]_(b, a) := \matrix_(r, c) X i (mxtens_index (c, r)).
(* no sample is zero; the samples span rows and columns *)
Definition nonzero_samples N q (X : 'M[K]_(N, q)) := forall i, samp X i != 0.
Definition span_columns N a b (X : 'M[K]_(N, a * b)) := forall y : 'cV[K]_a, (forall i, unstack X i *m y = 0) -> y = 0.
Definition span_rows N a b (X : 'M[K]_(N, a * b)) := forall y : 'cV[K]_b, (forall i, (unstack X i)^H *m y = 0) -> y = 0.
(* Tyler's cost of the covariance S *)
Definition tyler_cost N p (X : 'M[K]_(N, p)) (S : 'M[K]_p) : R :=
  ln (@toR K (\det S)) + p%:R / N%:R * \sum_i ln (maha S (samp X i)).
End Spec.

Section Tens.
Variable K : starField.
Local Notation ofR := (@ofR K).
Lemma big_tens a b (F : 'I_(a * b) -> K) : \sum_k F k = \sum_c \sum_r F (mxtens_index (c, r)).
Proof.
rewrite (reindex (@mxtens_index a b)) /=; last by exists (@mxtens_unindex a b) => z _; rewrite ?mxtens_indexK ?mxtens_unindexK.
by rewrite pair_bigA; apply: eq_bigr => -[c r] _.
Qed.
Lemma tens_adj m n p q (A : 'M[K]_(m, n)) (B : 'M[K]_(p, q)) : (A *t B)^H = A^H *t B^H.
Proof.
apply/matrixP => i j; case: (mxtens_indexP i) => i1 i2; case: (mxtens_indexP j) => j1 j2.
by rewrite adjE !tensmxE !adjE rmorphM.
Qed.
Lemma tens_one m n : (1%:M : 'M[K]_m) *t (1%:M : 'M[K]_n) = 1%:M.
Proof.
apply/matrixP => i j; case: (mxtens_indexP i) => i1 i2; case: (mxtens_indexP j) => j1 j2.
by rewrite tensmxE !mxE -natrM mulnb (can_eq (@mxtens_indexK _ _)) xpair_eqE.
Qed.
Lemma tens_inv m n (A : 'M[K]_m) (B : 'M[K]_n) : A \in unitmx -> B \in unitmx -> A *t B \in unitmx /\ invmx (A *t B) = invmx A *t invmx B.
Proof.
move=> uA uB; have e : (A *t B) *m (invmx A *t invmx B) = 1%:M.
  by rewrite tensmx_mul !mulmxV // tens_one.
have [u1 _] := mulmx1_unit e; split=> //.
by rewrite -[RHS]mul1mx -(mulVmx u1) -mulmxA e mulmx1.
Qed.
Lemma det_tens_herm m n (A : 'M[K]_m) (B : 'M[K]_n) : herm A -> herm B -> \det (A *t B) = \det A ^+ n * \det B ^+ m.
Proof.
move=> hA hB; have [d [V decA]] := spectral hA; have [e [W decB]] := spectral hB.
have [uV eA] := decA; have [uW eB] := decB.
pose f : 'rV[R]_(m * n) := \row_k (d 0 (mxtens_unindex k).1 * e 0 (mxtens_unindex k).2).
have dec : eigdec (A *t B) f (V *t W).
  split; first by rewrite /unitary tens_adj tensmx_mul uV uW tens_one.
  rewrite {1}eA {1}eB -!tensmx_mul tens_adj; congr (_ *m _ *m _).
  apply/matrixP => i j; case: (mxtens_indexP i) => i1 i2; case: (mxtens_indexP j) => j1 j2.
  rewrite tensmxE !diaE (can_eq (@mxtens_indexK _ _)) xpair_eqE mxE mxtens_indexK rmorphM /=.
  by case: (i1 == j1); case: (i2 == j2); rewrite ?mulr1n ?mulr0n ?mulr0 ?mul0r.
rewrite (eigdec_det dec) (eigdec_det decA) (eigdec_det decB) -!rmorphX -rmorphM; congr (ofR _).
rewrite (reindex (@mxtens_index m n)) /=; last by exists (@mxtens_unindex m n) => z _; rewrite ?mxtens_indexK ?mxtens_unindexK.
rewrite (eq_bigr (fun z : 'I_m * 'I_n => d 0 z.1 * e 0 z.2)) => [|z _]; last by rewrite mxE mxtens_indexK.
rewrite -(pair_bigA _ (fun i j => d 0 i * e 0 j)) /=.
rewrite (eq_bigr (fun i => d 0 i ^+ n * \prod_j e 0 j)) => [|i _]; last by rewrite big_split /= prodr_const card_ord.
by rewrite big_split /= prodrXl prodr_const card_ord.
Qed.
Lemma tens_pd m n (A : 'M[K]_m) (B : 'M[K]_n) : pd A -> pd B -> pd (A *t B).
Proof.
move=> pA pB; have [uG eG] := fsqrtP pA; have [uH eH] := fsqrtP pB.
rewrite -eG -eH -tensmx_mul -tens_adj -[X in X *m _]mulmx1; apply: pd_congr (pd1 _ _).
by case: (tens_inv uG uH).
Qed.
Lemma tr_pd n (A : 'M[K]_n) : pd A -> pd A^T.
Proof.
move=> pA; have [uG eG] := fsqrtP pA; set G := fmx _ _ in uG eG.
have -> : A^T = (G^H)^T *m 1%:M *m ((G^H)^T)^H by rewrite -eG trmx_mul mulmx1; congr (_ *m _); apply/matrixP => i j; rewrite !mxE cjK.
by apply: pd_congr (pd1 _ _); rewrite unitmx_tr unitmx_adj.
Qed.
End Tens.

Section MM.
Variables (K : starField) (ssqrtm : forall n, 'M[K]_n -> 'M[K]_n).
Hypothesis sq_ok : sqrtm_psd_ok ssqrtm.
Local Notation ofR := (@ofR K).
Local Notation MM := (estimation_cov_kronecker_MM ssqrtm).
Section Data.
Variables (N a b : nat) (X : 'M[K]_(N, a * b)).
Lemma cellE i : cell X a b i = unstack X i.
Proof.
apply/matrixP => r c; rewrite !mxE /entry; have e : (r + b * c)%N = mxtens_index (c, r) by rewrite /= addnC mulnC.
by rewrite e valK.
Qed.
Lemma unstack_eq0 i : (unstack X i == 0) = (samp X i == 0).
Proof.
apply/eqP/eqP => h; apply/matrixP => r c.
  case: (mxtens_indexP r) => i1 i2; have := congr1 (fun M : 'M_(b, a) => M i2 i1) h; by rewrite !mxE.
have := congr1 (fun M : 'cV_(a * b) => M (mxtens_index (c, r)) 0) h; by rewrite !mxE.
Qed.
Lemma nonzeroE : reflect (nonzero_samples X) [forall i, cell X a b i != 0].
Proof. by apply: (iffP forallP) => h i; have := h i; rewrite cellE unstack_eq0. Qed.

(* ------------------------------------------------------------------ C57 *)
(* the quadratic form of the updates is that of kron(A.T, B) *)
Theorem C57_quadratic_form (A : 'M[K]_a) (B : 'M[K]_b) i : A \in unitmx -> B \in unitmx ->
  \tr (invmx A *m ((unstack X i)^H *m invmx B *m unstack X i)) = ((samp X i)^H *m invmx (A^T *t B) *m samp X i) 0 0.
Proof.
move=> uA uB; have [_ ->] := tens_inv (etrans (unitmx_tr A) uA) uB.
rewrite [RHS]mxE big_tens.
rewrite /mxtrace; apply: eq_bigr => c _; rewrite mxE.
rewrite (eq_bigr (fun c' => \sum_r \sum_r' invmx A c c' * (cj K (X i (mxtens_index (c', r'))) * invmx B r' r) * X i (mxtens_index (c, r)))); last first.
  move=> c' _; rewrite mxE big_distrr /=; apply: eq_bigr => r _; rewrite !mxE mulrA big_distrr big_distrl /=; apply: eq_bigr => r' _.
  by rewrite !mxE.
rewrite exchange_big /=; apply: eq_bigr => r _.
rewrite !mxE big_tens.
rewrite big_distrl /=; apply: eq_bigr => c' _; rewrite big_distrl; apply: eq_bigr => r' _ /=.
by rewrite tensmxE -trmx_inv !mxE; congr (_ * _); rewrite mulrCA !mulrA.
Qed.
(* so it is that of kron(A, B) when A is symmetric, e.g. real *)
Theorem C57_symmetric_partial (A : 'M[K]_a) (B : 'M[K]_b) i : A^T = A -> A \in unitmx -> B \in unitmx ->
  \tr (invmx A *m ((unstack X i)^H *m invmx B *m unstack X i)) = ((samp X i)^H *m invmx (A *t B) *m samp X i) 0 0.
Proof. by move=> sA uA uB; rewrite C57_quadratic_form // sA. Qed.
Lemma den_maha (A : 'M[K]_a) (B : 'M[K]_b) i : A \in unitmx -> B \in unitmx ->
  @toR K (mm_denominator X (invmx A) (invmx B) i) = maha (A^T *t B) (samp X i).
Proof. by move=> uA uB; rewrite /mm_denominator /mm_numerator cellE C57_quadratic_form. Qed.

(* ------------------------------------------------------------------ C56 *)
Lemma MA_pd (A : 'M[K]_a) (B : 'M[K]_b) : pd A -> pd B -> nonzero_samples X -> span_columns X -> pd (MA X A B).
Proof.
move=> /pd_inv pA /pd_inv pB nz sp; apply: mm_M_pd.
- by move=> i; exact: num_psd.
- by move=> i; rewrite den_gt0 // cellE unstack_eq0.
move=> y h; apply: sp => i; apply/eqP; apply: contraT => n0; have := h i.
rewrite /mm_numerator cellE; set U := unstack X i => e.
have : 0 < qf (invmx B) (U *m y) by exact: (proj2 pB).
by move: e; rewrite /qf /sesq adjM !mulmxA => ->; rewrite ltxx.
Qed.
Lemma MB_pd (A : 'M[K]_a) (B : 'M[K]_b) : pd A -> pd B -> nonzero_samples X -> span_rows X -> pd (MB X A B).
Proof.
move=> /pd_inv pA /pd_inv pB nz sp; apply: mm_M_pd.
- by move=> i; exact: numB_psd.
- by move=> i; rewrite den_gt0 // cellE unstack_eq0.
move=> y h; apply: sp => i; apply/eqP; apply: contraT => n0; have := h i.
rewrite /mm_numerator_B cellE; set U := unstack X i => e.
have : 0 < qf (invmx A) (U^H *m y) by exact: (proj2 pA).
by move: e; rewrite /qf /sesq adjM adjK !mulmxA => ->; rewrite ltxx.
Qed.
Local Notation step := (@mm_step K ssqrtm N (a * b) a b X).
Local Notation start := ((1%:M, invmx 1%:M, 1%:M) : mm_state K a b).
(* both factors positive definite *)
Definition mm_good (s : mm_state K a b) := let: (A, i_A, B) := s in [/\ pd A, i_A = invmx A & pd B].
Lemma good0 : mm_good start. Proof. by split=> //; exact: pd1. Qed.
Lemma step_good s s' : span_rows X -> mm_good s -> step s = Ok s' -> mm_good s'.
Proof.
case: s => [[A iA] B] sp [pA -> pB]; rewrite mm_stepE //; case: ifP => // /negbFE /nonzeroE nz /=; case: ifP => // uA' [<-].
have pA' : pd (gmean A (MA X A B)) by apply: psd_unit_pd => //; apply: gmean_psd => //; exact: MA_psd.
split=> //; apply: gmean_pd => //; exact: MB_pd.
Qed.
Lemma step_succeeds s : nonzero_samples X -> span_columns X -> mm_good s -> exists s', step s = Ok s'.
Proof.
case: s => [[A iA] B] nz sp [pA -> pB]; rewrite mm_stepE //; move/nonzeroE: (nz) => -> /=.
have -> : gmean A (MA X A B) \in unitmx by apply/pd_unit/gmean_pd => //; exact: MA_pd.
by eexists.
Qed.
(* the function does not loop for ever: it returns or raises, after at most iter_max iterations *)
Theorem C56_at_most_iter_max tol iter_max : (exists e, MM a b X tol iter_max = Err e) \/
  exists A B k, MM a b X tol iter_max = Ok (Some (A, B, tol, k)) /\ (k <= iter_max)%N.
Proof.
rewrite /estimation_cov_kronecker_MM eqxx /=.
case: (loop_spec gtf PInf step (@mm_change K a b) tol iter_max start) => [[[[A iA] B] [d [k [e st]]]]|[e [j [er _]]]].
  by rewrite /mm_loop e; right; exists A, B, k; split=> //; case: st.
by rewrite /mm_loop er; left; exists e.
Qed.
(* the value returned after k iterations is what k passes of the loop compute; the error between the last
   two passes satisfies the stopping rule *)
Theorem C56_result tol iter_max A B t k : MM a b X tol iter_max = Ok (Some (A, B, t, k)) ->
  exists iA d, stops_with gtf PInf step (@mm_change K a b) tol iter_max start (A, iA, B) d k.
Proof.
rewrite /estimation_cov_kronecker_MM eqxx /=; case e: (mm_loop _ _ _ _) => [[[[[[A1 iA] B1] d] k1]|x]|] //= [<- <- _ <-].
by exists iA, d; exact: loop_stops.
Qed.
(* A is positive definite, B positive semidefinite, and definite when the samples span the rows *)
Theorem C56_factors_partial tol iter_max A B t k : MM a b X tol iter_max = Ok (Some (A, B, t, k)) ->
  [/\ pd A, psd B & span_rows X -> pd B].
Proof.
move=> /C56_result [iA [d [up _ _ _ _]]]; split.
- by have [] := updates_inv (I := @mm_inv K a b) (mm_inv0 _ _ _) (fun s s' => @mm_step_inv K ssqrtm sq_ok N (a * b) a b X s s') up.
- by have [] := updates_inv (I := @mm_inv K a b) (mm_inv0 _ _ _) (fun s s' => @mm_step_inv K ssqrtm sq_ok N (a * b) a b X s s') up.
by move=> sp; have [] := updates_inv (I := mm_good) good0 (fun s s' => @step_good s s' sp) up.
Qed.
(* it succeeds on samples that are not zero and span rows and columns *)
Theorem C56_succeeds tol iter_max : nonzero_samples X -> span_columns X -> span_rows X ->
  exists A B k, [/\ MM a b X tol iter_max = Ok (Some (A, B, tol, k)), (k <= iter_max)%N, pd A & pd B].
Proof.
move=> nz sc sr; case: (C56_at_most_iter_max tol iter_max) => [[e er]|[A [B [k [e kk]]]]]; last first.
  by exists A, B, k; have [pA _ pB] := C56_factors_partial e; split=> //; exact: pB.
case: (loop_spec gtf PInf step (@mm_change K a b) tol iter_max start) => [[[[A iA] B] [d [k [e1 st]]]]|[e1 [j [er1 [up _ _]]]]].
  by move: er; rewrite /estimation_cov_kronecker_MM eqxx /= /mm_loop e1.
have : forall j, exists2 s, updates step j start = Ok s & mm_good s.
  elim=> [|i [s es gs]]; first by exists start => //; exact: good0.
  have [s' e'] := step_succeeds nz sc gs; exists s'; rewrite /= ?es //.
  exact: step_good e'.
by move=> /(_ j) [s]; rewrite up.
Qed.
(* and raises when a sample is zero, as soon as there is an iteration *)
Theorem C56_zero_sample tol iter_max i : samp X i = 0 -> gtf PInf tol -> (0 < iter_max)%N ->
  MM a b X tol iter_max = Err ValueErr.
Proof.
case: iter_max => // m x0 g _; rewrite /estimation_cov_kronecker_MM eqxx /= /mm_loop /loop; cbn [while].
have -> : loop_cond gtf tol m.+1 (start, PInf, 0%N) = true by rewrite /loop_cond g.
rewrite /loop_body mm_stepE //; try exact: pd1.
by have -> : [forall i, cell X a b i != 0] = false by apply/negbTE/negP => /nonzeroE /(_ i); rewrite x0 eqxx.
Qed.
(* The third value is the tolerance given, not the final error *)
Theorem C56_returns_tol_refuted tol iter_max A B t k : MM a b X tol iter_max = Ok (Some (A, B, t, k)) -> t = tol.
Proof. by rewrite /estimation_cov_kronecker_MM eqxx /=; case: (mm_loop _ _ _ _) => [[[[[[A1 iA] B1] d] k1]|x]|] //= [_ _ <-]. Qed.

(* ------------------------------------------------------------------ C72 *)
Lemma ln_det_tens (A : 'M[K]_a) (B : 'M[K]_b) : pd A -> pd B ->
  ln (@toR K (\det (A^T *t B))) = b%:R * ln (@toR K (\det A)) + a%:R * ln (@toR K (\det B)).
Proof.
move=> pA pB; rewrite det_tens_herm ?det_tr; [|exact/pd_herm/tr_pd|exact: pd_herm].
have dA := det_pd pA; have dB := det_pd pB.
rewrite -(ofR_toR_ge0 (ltW dA)) -(ofR_toR_ge0 (ltW dB)) -!rmorphX toRZ !toRK lnM ?exprn_gt0 ?toR_gt0 //.
by rewrite !lnX ?toR_gt0.
Qed.
Lemma costE (A : 'M[K]_a) (B : 'M[K]_b) : pd A -> pd B ->
  tyler_cost X (A^T *t B) = b%:R * ln (@toR K (\det A)) + a%:R * ln (@toR K (\det B))
     + a%:R * b%:R / N%:R * \sum_i ln (@toR K (mm_denominator X (invmx A) (invmx B) i)).
Proof.
move=> pA pB; rewrite /tyler_cost ln_det_tens // natrM; congr (_ + _ * _); apply: eq_bigr => i _.
by rewrite den_maha //; exact: pd_unit.
Qed.
(* A pass of the loop decreases Tyler's cost of kron(A.T, B), strictly unless nothing changes. *)
Theorem C72_descent (A : 'M[K]_a) (B : 'M[K]_b) A' iA' B' : (0 < N)%N -> pd A -> pd B -> pd B' ->
  step (A, invmx A, B) = Ok (A', iA', B') ->
  tyler_cost X (A'^T *t B') <= tyler_cost X (A^T *t B) /\
  (tyler_cost X (A'^T *t B') = tyler_cost X (A^T *t B) -> (0 < a)%N -> (0 < b)%N -> A' = A /\ B' = B).
Proof.
move=> N0 pA pB pB'; rewrite mm_stepE //; case: ifP => // /negbFE /nonzeroE nz /=; case: ifP => // uA' [eA _ eB]; subst A' B'.
have pM := MA_psd X pA pB; set A' := gmean A _ in uA' pB' *.
have pA' : pd A' by apply: psd_unit_pd => //; exact: gmean_psd.
have pM' := MB_psd X pA' pB; set B' := gmean B _ in pB' *.
have nzc i : cell X a b i != 0 by rewrite cellE unstack_eq0.
have pos (C : 'M[K]_a) (D : 'M[K]_b) i : pd C -> pd D -> 0 < mm_denominator X (invmx C) (invmx D) i.
  by move=> pC pD; rewrite den_gt0 //; exact: pd_inv.
pose t (C : 'M[K]_a) (D : 'M[K]_b) (i : 'I_N) : R := @toR K (mm_denominator X (invmx C) (invmx D) i).
have t0 C D i : pd C -> pd D -> 0 < t C D i by move=> pC pD; apply: toR_gt0; exact: pos.
have tE (C : 'M[K]_a) (D : 'M[K]_b) i : pd C -> pd D -> ofR (t C D i) = mm_denominator X (invmx C) (invmx D) i.
  by move=> pC pD; rewrite /t ofR_toR_ge0 //; apply/ltW/pos.
have trB (C : 'M[K]_a) (D : 'M[K]_b) i : \tr (invmx D *m mm_numerator_B b X (invmx C) i) = mm_denominator X (invmx C) (invmx D) i.
  by rewrite /mm_denominator /mm_numerator_B /mm_numerator -!mulmxA mxtrace_mulC -!mulmxA mxtrace_mulC -!mulmxA.
have [d1 e1] := gmean_descent pA pM N0 (fun i => t0 A B i pA pB) (fun i => t0 A' B i pA' pB)
   (fun i => esym (tE A B i pA pB)) (fun i => esym (tE A' B i pA' pB)) erefl pA'.
have eMB : MB X A' B = \sum_i (b%:R / N%:R) *: ((\tr (invmx B *m mm_numerator_B b X (invmx A') i))^-1 *: mm_numerator_B b X (invmx A') i).
  by apply: eq_bigr => i _; rewrite trB.
have [d2 e2] := gmean_descent pB pM' N0 (fun i => t0 A' B i pA' pB) (fun i => t0 A' B' i pA' pB')
   (fun i => etrans (trB A' B i) (esym (tE A' B i pA' pB))) (fun i => etrans (trB A' B' i) (esym (tE A' B' i pA' pB'))) eMB pB'.
rewrite !costE // -/(t A B) -/(t A' B').
move: d1 e1 d2 e2; rewrite -/A' -/B' /=.
have -> : \sum_i ln (@toR K (mm_denominator X (invmx A) (invmx B) i)) = \sum_i ln (t A B i) by [].
have -> : \sum_i ln (@toR K (mm_denominator X (invmx A') (invmx B') i)) = \sum_i ln (t A' B' i) by [].
move: (ln (toR K (\det A))) (ln (toR K (\det A'))) (ln (toR K (\det B))) (ln (toR K (\det B'))) => lA lA' lB lB'.
have aN : 0 <= a%:R :> R by rewrite ler0n.
have bN : 0 <= b%:R :> R by rewrite ler0n.
move: (\sum_i ln (t A B i)) (\sum_i ln (t A' B i)) (\sum_i ln (t A' B' i)) => u v w d1 e1 d2 e2.
have E1 x y : b%:R * x + a%:R * y + a%:R * b%:R / N%:R * u = b%:R * (x + a%:R / N%:R * u) + a%:R * y :> R by rring.
have E2 x y z : b%:R * x + a%:R * y + a%:R * b%:R / N%:R * z = b%:R * x + a%:R * (y + b%:R / N%:R * z) :> R by rring.
have E3 x y z : b%:R * (x + a%:R / N%:R * z) + a%:R * y = b%:R * x + a%:R * (y + b%:R / N%:R * z) :> R by rring.
have h1 := ler_wpmul2l bN d1; have h2 := ler_wpmul2l aN d2.
rewrite E1 E2; split.
  apply: (@le_trans _ _ (b%:R * lA' + a%:R * (lB + b%:R / N%:R * v))); first by rewrite ler_add2l.
  by rewrite -E3 ler_add2r.
move=> e a0 b0; have q1 : b%:R * (lA' + a%:R / N%:R * v) = b%:R * (lA + a%:R / N%:R * u).
  apply/le_anti; rewrite h1 /= -(ler_add2r (a%:R * lB)) -e E3 ler_add2l //.
have q2 : a%:R * (lB' + b%:R / N%:R * w) = a%:R * (lB + b%:R / N%:R * v).
  by apply: (@addrI _ (b%:R * lA')); rewrite e -q1 E3.
split.
  by apply: e1; apply: (mulfI _ q1); rewrite pnatr_eq0 -lt0n.
by apply: e2; apply: (mulfI _ q2); rewrite pnatr_eq0 -lt0n.
Qed.
(* Hence along a run, and the estimate returned is at least as good as the identity. *)
Theorem C72_run tol iter_max A B t k : (0 < N)%N -> span_rows X ->
  MM a b X tol iter_max = Ok (Some (A, B, t, k)) -> tyler_cost X (A^T *t B) <= tyler_cost X 1%:M.
Proof.
move=> N0 sp /C56_result [iA [d [up _ _ _ _]]].
pose I (s : mm_state K a b) := mm_good s /\ (let: (A, _, B) := s in tyler_cost X (A^T *t B) <= tyler_cost X 1%:M).
suff [] : I (A, iA, B) by [].
apply: (updates_inv (I := I)) up; first by split; [exact: good0|rewrite trmx1 tens_one].
move=> [[A1 iA1] B1] [[A2 iA2] B2] [g1 c1] es; have g2 := step_good sp g1 es; split=> //.
move: g1 g2 es => [pA1 -> pB1] [pA2 _ pB2] es; apply: le_trans c1.
by have [] := C72_descent N0 pA1 pB1 pB2 es.
Qed.
End Data.
End MM.

Print Assumptions C57_quadratic_form.
Print Assumptions C57_symmetric_partial.
Print Assumptions C56_at_most_iter_max.
Print Assumptions C56_result.
Print Assumptions C56_factors_partial.
Print Assumptions C56_succeeds.
Print Assumptions C56_zero_sample.
Print Assumptions C56_returns_tol_refuted.
Print Assumptions C72_descent.
Print Assumptions C72_run.
