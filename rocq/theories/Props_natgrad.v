(* Theorems about Tyler's estimators by natural gradient: C83. *)
From Coq Require Import Reals String Lra Epsilon Classical_Prop.
From mathcomp Require Import all_ssreflect all_algebra all_fingroup.
From mathcomp Require Import complex zify.
From Verif Require Import RealsMC RealTac RealTac2 Star StarInst FunCalc Model_featurearray NpArray Model_linalg Proofs_linalg Props_linalg
  Model_covariance Spec_covariance Spec_fixedpoint Model_estimators Proofs_mest Proofs_loop Proofs_covariance Proofs_estimators Props_covariance
  Proofs_cost Props_cost Props_robust RealRep Proofs_unique Proofs_unique2 Props_unique Model_natgrad.
Set Implicit Arguments.
Unset Strict Implicit.
Unset Printing Implicit Defensive.
Local Open Scope ring_scope.
Import GRing.Theory Num.Theory Order.TTheory.
Local Notation "A ^H" := (adj A) (at level 8, format "A ^H").

(* when it returns, the optimiser has found a minimum of the cost over the positive definite matrices *)
Definition exact_solver (solve : solver) := forall p (cost : 'M[real_sf]_p -> res R) init s, solve p cost init = Ok s ->
  pd s /\ forall T v w, pd T -> cost s = Ok v -> cost T = Ok w -> v <= w.

Lemma normalise_rowsE N p (X : 'M[real_sf]_(N, p)) : normalise_rows X = scale_samples (fun i => (R_sqrt.sqrt (\sum_k X i k ^+ 2))^-1) X.
Proof. by apply/matrixP => i j; rewrite !mxE mulrC. Qed.
Lemma row_norm2 N p (X : 'M[real_sf]_(N, p)) i : row i X != 0 -> 0 < \sum_k X i k ^+ 2.
Proof.
move=> h; rewrite lt_neqAle eq_sym sumr_ge0 ?andbT => [|k _]; last exact: sqr_ge0.
apply: contraNneq h => e; apply/eqP/rowP => k; rewrite !mxE; apply/eqP; rewrite -sqrf_eq0.
apply/eqP; exact: (psumr_eq0P (fun k _ => sqr_ge0 (X i k)) e).
Qed.
Lemma natgrad_minimiser eigh solve N p (X : 'M[real_sf]_(N, p.+1)) init nrm s c k : eigh_ok eigh -> exact_solver solve ->
  \rank X = p.+1 -> (forall i, row i X != 0) ->
  tyler_shape_matrix_naturalgradient eigh solve X init nrm = Ok (s, c, k) ->
  exists v, [/\ tyler_solution X v, s = normalised nrm v, k = None &
    c = p.+1%:R * (\sum_i ln (\sum_j X i j ^+ 2)) - tyler_objective X v].
Proof.
move=> ok ex rX X0; rewrite /tyler_shape_matrix_naturalgradient; case E: (solve _ _ _) => [v|//] /=.
have [pv mv] := ex _ _ _ _ E.
have tc T : pd T -> _generate_realTyler_cost_function eigh (normalise_rows X) T = Ok (tcost (normalise_rows X) T).
  by move=> pT; rewrite /_generate_realTyler_cost_function (C40_formula N p.+1).1.
rewrite tc //= => -[<- <- <-].
have c0 i : (R_sqrt.sqrt (\sum_k X i k ^+ 2))^-1 != 0 by rewrite invr_eq0 gt_eqF // sqrtR_gt0 // row_norm2.
have cst T : pd T -> tcost (normalise_rows X) T = tcost X T - p.+1%:R * (\sum_i ln (\sum_k X i k ^+ 2)).
  move=> pT; rewrite normalise_rowsE tcost_scale_samples // -mulrN -sumrN; congr (_ + _ * _); apply: eq_bigr => i _.
  have g := row_norm2 (X0 i).
  have -> : @toR real_sf ((R_sqrt.sqrt (\sum_k X i k ^+ 2))^-1 * @cj real_sf ((R_sqrt.sqrt (\sum_k X i k ^+ 2))^-1)) = (\sum_k X i k ^+ 2)^-1.
    by rewrite -invfM sqrtR_sqr // ltW.
  by rewrite -Rinv_E ln_Rinv //; exact/RltP.
exists v; split=> //; last by rewrite cst // opprB.
apply: (tyler_minimiser (rank_N rX) X0 (spanning_rank rX)) => // T pT.
by have := mv T _ _ pT (tc v pv) (tc T pT); rewrite !cst // ler_add2r.
Qed.

(* ---- complex data ---- *)
From Verif Require Import Props_probability.
Lemma samp_toreal N p (X : 'M[complex_sf]_(N, p)) i : samp (mx_toreal X) i = rvec (samp X i).
Proof. by apply/matrixP => j k; rewrite (ord1 k) !mxE; case: splitP => u _; rewrite !mxE. Qed.
Lemma maha_rep p (H : 'M[complex_sf]_p) x : pd H -> @maha real_sf _ (rep H) (rvec x) = maha H x.
Proof. by move=> pH; rewrite /maha rep_inv ?pd_unit // adj_real rvec_qf mxE. Qed.
Lemma mx_tocomplex_rep p (H : 'M[complex_sf]_p) : mx_tocomplex (rep H) = @ofR complex_sf 2%:R *: H.
Proof.
apply/matrixP => i j; rewrite mxE /rep block_mxKul block_mxKdl !mxE; case: (H i j) => a b.
rewrite !mulr2n /GRing.mul /= /GRing.add /=; congr Complex; rring.
Qed.
Lemma rep_solution N p (X : 'M[complex_sf]_(N, p)) (H : 'M[complex_sf]_p) :
  @tyler_solution real_sf N (p + p) (mx_toreal X) (rep H) -> tyler_solution X H.
Proof.
case=> /rep_pd pH e; split=> //.
pose w i : R := (p + p)%:R / N%:R / maha H (samp X i).
have [c _] : covar w 0 X = @ofR complex_sf 2%:R *: H /\ pseudo_covar w 0 X = 0.
  apply: circular; rewrite repZ scalerA mulVf ?gt_eqF ?ltr0n // scale1r [RHS]e rvec0 /moment; apply: eq_bigr => i _.
  by rewrite row_rvec samp_toreal maha_rep // subr0 /outer adj_real.
have h2 : @ofR complex_sf 2%:R != 0 by rewrite fmorph_eq0 gt_eqF // ltr0n.
apply: (scalerI h2); rewrite -c wsum_scale; apply: eq_bigr => i _; rewrite subr0; congr (@ofR complex_sf _ *: _).
by rewrite /w addnn -mul2n natrM !mulrA.
Qed.
(* the block structure *)
Definition ii N p (X : 'M[complex_sf]_(N, p)) : 'M[complex_sf]_(N, p) := (Complex 0 1 : C) *: X.
Definition Jmx p : 'M[real_sf]_(p + p) := rep ((Complex 0 1 : C)%:M).
Lemma Jmx_block p : Jmx p = block_mx 0 (- 1%:M) 1%:M 0.
Proof.
rewrite /Jmx /rep; congr block_mx; first 2 [congr (- _)]; apply/matrixP => i j; rewrite !mxE; by case: (i == j).
Qed.
Lemma J_invariant p (T : 'M[real_sf]_(p + p)) : herm T -> Jmx p *m T *m (Jmx p)^T = T -> exists H, T = rep H.
Proof.
rewrite /herm adj_real -[T]submxK; move: (ulsubmx _) (ursubmx _) (dlsubmx _) (drsubmx _) => A B C' D.
have -> : (Jmx p)^T = block_mx 0 1%:M (- 1%:M) 0 by rewrite Jmx_block tr_block_mx linearN /= !trmx0 !trmx1.
rewrite Jmx_block tr_block_mx !mulmx_block ?mulmxN ?mulNmx ?mulmx1 ?mul1mx ?mulmx0 ?mul0mx ?add0r ?addr0 ?opprK.
rewrite ?mulmxN ?mulNmx ?mulmx1 ?mul1mx ?mulmx0 ?mul0mx ?add0r ?addr0 ?opprK.
move=> /eq_block_mx [hA hB hC hD] /eq_block_mx [e1 e2 e3 e4].
by exists (ofM A C'); rewrite -rep_of e2 e1.
Qed.
(* up to order, the data are closed under multiplication by the imaginary unit *)
Definition closed_under_i N p (X : 'M[complex_sf]_(N, p)) := exists s : {perm 'I_N}, row_perm s X = (Complex 0 1 : C) *: X.
Lemma toreal_i N p (X : 'M[complex_sf]_(N, p)) : mx_toreal ((Complex 0 1 : C) *: X) = mx_toreal X *m (Jmx p)^T.
Proof.
have -> : (Jmx p)^T = block_mx 0 1%:M (- 1%:M) 0 by rewrite Jmx_block tr_block_mx linearN /= !trmx0 !trmx1.
rewrite /mx_toreal mul_row_block !mulmx0 !mulmx1 mulmxN mulmx1 add0r addr0; congr row_mx;
  apply/matrixP => i j; rewrite !mxE; case: (X i j) => a b /=; rewrite ?mul0r ?mul1r ?add0r ?addr0 ?subr0 ?sub0r //.
Qed.
Lemma toreal_perm N p (X : 'M[complex_sf]_(N, p)) s : mx_toreal (row_perm s X) = row_perm s (mx_toreal X).
Proof. by apply/matrixP => i j; rewrite !mxE; case: splitP => k _; rewrite !mxE. Qed.
Lemma JJ p : (Jmx p)^T *m Jmx p = 1%:M.
Proof.
have -> : (Jmx p)^T = block_mx 0 1%:M (- 1%:M) 0 by rewrite Jmx_block tr_block_mx linearN /= !trmx0 !trmx1.
by rewrite Jmx_block mulmx_block ?mulmxN ?mulNmx ?mulmx1 ?mul1mx ?mulmx0 ?mul0mx ?add0r ?addr0 ?opprK ?oppr0 -scalar_mx_block.
Qed.
Lemma closed_invariant N p (X : 'M[complex_sf]_(N, p.+1)) T : (0 < N)%N -> (forall i, row i (mx_toreal X) != 0) -> closed_under_i X ->
  @irreducible real_sf _ _ (mx_toreal X) -> tyler_solution (mx_toreal X) T -> Jmx p.+1 *m T *m (Jmx p.+1)^T = T.
Proof.
move=> N0 X0 [s es] irr sT; set J := Jmx p.+1.
have [_ uJ] := mulmx1_unit (JJ p.+1).
have pJ : pd (J *m T *m J^H) by apply: pd_congr sT.1.
have s' : tyler_solution (mx_toreal X) (J *m T *m J^H).
  split=> //; pose w := fun q : R => (p.+1 + p.+1)%:R / N%:R / q.
  have h := @mstep_congr real_sf N (p.+1 + p.+1) w (mx_toreal X) J T uJ (pd_unit sT.1).
  rewrite -toreal_i -es toreal_perm mstep_perm in h; rewrite -[RHS]/(mstep w (mx_toreal X) (J *m T *m J^H)) h.
  congr (_ *m _ *m _); exact: sT.2.
have [c c0 ec] := tyler_unique N0 X0 irr sT s'.
have t0 : 0 < \tr T by exact: (@pd_tr_gt0 real_sf (p + p.+1) T sT.1).
have et : 1 * \tr T = c * \tr T by rewrite mul1r -[RHS]mxtraceZ -[c *: T]ec mxtrace_mulC mulmxA adj_real JJ mul1mx.
have c1 : 1 = c by apply: (mulIf _ et); rewrite gt_eqF.
by rewrite -adj_real ec -c1; exact: scale1r.
Qed.
Lemma row_toreal N p (X : 'M[complex_sf]_(N, p)) i : row i X != 0 -> row i (mx_toreal X) != 0.
Proof.
move=> h; have := samp_toreal X i; rewrite /samp => e; rewrite -trmx_eq0 e -(rvec0 p 1) (inj_eq (@rvec_inj _ _)).
by rewrite trmx_eq0.
Qed.
Lemma complex_natgradE eigh solve N p (X : 'M[complex_sf]_(N, p.+1)) init nrm s c k : eigh_ok eigh -> exact_solver solve ->
  \rank (mx_toreal X) = (p.+1 + p.+1)%N -> (forall i, row i X != 0) ->
  complex_tyler_shape_matrix_naturalgradient eigh solve X init nrm = Ok (s, c, k) ->
  exists v, [/\ tyler_solution (mx_toreal X) v, k = None,
    s = normalised nrm (2%:R^-1 *: (mx_tocomplex v + (mx_tocomplex v)^H)) &
    c = (p.+1 + p.+1)%:R * (\sum_i ln (\sum_j mx_toreal X i j ^+ 2)) - tyler_objective (mx_toreal X) v].
Proof.
move=> ok ex rX X0; rewrite /complex_tyler_shape_matrix_naturalgradient.
case E: (tyler_shape_matrix_naturalgradient _ _ _ _ _) => [[[v c'] k']|//] /=.
have r0 i : row i (mx_toreal X) != 0 by apply: row_toreal.
have [v' [h1 h2 _ h4]] := @natgrad_minimiser eigh solve N (p + p.+1) (mx_toreal X) init "None" v c' k' ok ex rX r0 E.
move=> [<- <- <-]; exists v'; split=> //; rewrite h2.
by have -> : normalised "None" v' = v' by rewrite /normalised /get_normalisation_function /= invr1 scale1r.
Qed.

(* ------------------------------------------------------------------ C83 *)
(* Real data: with an optimiser that finds the minimum, the function returns a normalised solution of Tyler's
   equation, the opposite of the cost of the samples divided by their norms, and None *)
Theorem C83_real_solution eigh solve N p (X : 'M[real_sf]_(N, p.+1)) init nrm s c k : eigh_ok eigh -> exact_solver solve ->
  \rank X = p.+1 -> (forall i, row i X != 0) ->
  tyler_shape_matrix_naturalgradient eigh solve X init nrm = Ok (s, c, k) ->
  exists v, [/\ tyler_solution X v, s = normalised nrm v, k = None &
    c = p.+1%:R * (\sum_i ln (\sum_j X i j ^+ 2)) - tyler_objective X v].
Proof. exact: natgrad_minimiser. Qed.
(* ... hence what the fixed-point function returns when it converges *)
Theorem C83_real_agree eigh eigh' solve N p (X : 'M[real_sf]_(N, p.+1)) init init' nrm tol m s c k s' k' :
  eigh_ok eigh -> eigh_ok eigh' -> exact_solver solve -> scaling_norm nrm ->
  \rank X = p.+1 -> (forall i, row i X != 0) -> irreducible X -> (forall s0, init' = Some s0 -> pd s0) ->
  tyler_shape_matrix_naturalgradient eigh solve X init nrm = Ok (s, c, k) ->
  tyler_shape_matrix_fixedpoint eigh' X init' tol m nrm = Some (Ok (s', Fin 0, k')) -> s = s'.
Proof.
move=> ok ok' ex hn rX X0 irr pi h h'; have sp := spanning_rank rX.
have [v [sv -> _ _]] := C83_real_solution ok ex rX X0 h.
have [st [u [-> a b d sw]]] := real_tyler_run ok' X0 sp pi h'; have [pu fu] := run_fixed a b d sw.
have su : tyler_solution X u by split=> //; rewrite -{1}fu.
exact: (same_normalised hn su.1 (tyler_unique (rank_N rX) X0 irr su sv)).
Qed.
(* Complex data: the result is a normalised solution of the complex equation when the solution of the equation of the
   real data has the block structure *)
Lemma herm_half p (H : 'M[complex_sf]_p) : herm H -> 2%:R^-1 *: (mx_tocomplex (rep H) + (mx_tocomplex (rep H))^H) = @ofR complex_sf 2%:R *: H.
Proof.
move=> hH; rewrite mx_tocomplex_rep adjZ cj_ofR hH -mulr2n -scaler_nat.
rewrite [LHS]scalerA mulVf ?scale1r //.
by rewrite pnatr_eq0.
Qed.
Theorem C83_complex_partial eigh solve N p (X : 'M[complex_sf]_(N, p.+1)) init nrm s c k : eigh_ok eigh -> exact_solver solve ->
  scaling_norm nrm -> \rank (mx_toreal X) = (p.+1 + p.+1)%N -> (forall i, row i X != 0) ->
  (forall v, tyler_solution (mx_toreal X) v -> exists H, v = rep H) ->
  complex_tyler_shape_matrix_naturalgradient eigh solve X init nrm = Ok (s, c, k) ->
  exists2 v, tyler_solution X v & s = normalised nrm v.
Proof.
move=> ok ex hn rX X0 bl h; have [v [sv _ -> _]] := complex_natgradE ok ex rX X0 h.
have [H eH] := bl v sv; rewrite eH in sv *; have sH := rep_solution sv; exists H => //.
rewrite (herm_half sH.1.1); apply: (@same_normalised complex_sf p nrm H _ hn sH.1); exists 2%:R => //; by rewrite ltr0n.
Qed.
Theorem C83_complex_closed_partial eigh solve N p (X : 'M[complex_sf]_(N, p.+1)) init nrm s c k : eigh_ok eigh -> exact_solver solve ->
  scaling_norm nrm -> \rank (mx_toreal X) = (p.+1 + p.+1)%N -> (forall i, row i X != 0) -> closed_under_i X ->
  @irreducible real_sf _ _ (mx_toreal X) ->
  complex_tyler_shape_matrix_naturalgradient eigh solve X init nrm = Ok (s, c, k) ->
  exists2 v, tyler_solution X v & s = normalised nrm v.
Proof.
move=> ok ex hn rX X0 cl irr; apply: C83_complex_partial => // v sv; apply: J_invariant; first by case: sv => -[].
apply: (closed_invariant _ _ cl irr sv); last by move=> i; apply: row_toreal.
exact: (@rank_N real_sf N (p + p.+1) (mx_toreal X) rX).
Qed.
(* ---- witness: the samples 2a + ic, b + id for (a, b, c, d) in the canonical and a Hadamard basis ---- *)
Definition tab : seq (seq R) :=
  [:: [:: 2%:R; 0; 0; 0]; [:: 0; 1; 0; 0]; [:: 0; 0; 1; 0]; [:: 0; 0; 0; 1];
      [:: 2%:R; 1; 1; 1]; [:: 2%:R; -1; 1; -1]; [:: 2%:R; 1; -1; -1]; [:: 2%:R; -1; -1; 1]].
Definition tb (i j : nat) : R := nth 0 (nth [::] tab i) j.
Definition X8 : 'M[complex_sf]_(8, 2) := \matrix_(i, j) Complex (tb i j) (tb i (2 + j)).
Lemma Y8E i j : mx_toreal X8 i j = tb i j.
Proof. by rewrite !mxE; case: splitP => k e; rewrite !mxE /= e. Qed.
Definition d4 : 'rV[R]_(2 + 2) := \row_j (nth 0 [:: 4%:R; 1; 1; 1] j).
Definition d2 : 'rV[R]_2 := \row_j (nth 0 [:: 5%:R / 2%:R; 1] j).
Lemma d4_gt0 j : 0 < d4 0 j.
Proof. by rewrite mxE; case: j => -[|[|[|[|//]]]] ? /=; rewrite ?ltr01 ?ltr0n. Qed.
Lemma d2_gt0 j : 0 < d2 0 j.
Proof. by rewrite mxE; case: j => -[|[|//]] ? /=; rewrite ?ltr01 ?divr_gt0 ?ltr0n. Qed.
Lemma basis_irreducible (K : starField) N p (X : 'M[K]_(N, p)) (f : 'I_p -> 'I_N) (g : 'I_N) (c : 'I_p -> K) :
  (forall j k, X (f j) k = c j * (k == j)%:R) -> (forall j, c j != 0) -> (forall k, X g k != 0) -> irreducible X.
Proof.
move=> hf c0 hg P _ h.
have Pf a j : (P *m samp X (f j)) a 0 = P a j * c j.
  rewrite mxE (bigD1 j) //= big1 ?addr0 => [|k kj]; last by rewrite !mxE hf (negbTE kj) !mulr0.
  by rewrite !mxE hf eqxx mulr1.
have Sf a j : samp X (f j) a 0 = c j * (a == j)%:R by rewrite !mxE hf.
have off a j : a != j -> P a j = 0.
  move=> aj; apply: (mulIf (c0 j)); rewrite -Pf mul0r.
  by case: (h (f j)) => ->; rewrite ?Sf ?(negbTE aj) ?mulr0 ?mxE.
have Pg a : (P *m samp X g) a 0 = P a a * X g a.
  rewrite mxE (bigD1 a) //= big1 ?addr0 => [|k kj]; last by rewrite off ?mul0r // eq_sym.
  by rewrite !mxE.
case: (h g) => e; [left|right]; apply/matrixP => a j; rewrite !mxE; case: (eqVneq a j) => [<-|/off -> //];
  apply: (mulIf (hg a)); rewrite -Pg e ?mul0r ?mul1r !mxE //.
Qed.
Lemma samp8 i j : samp (mx_toreal X8) i j 0 = tb i j.
Proof. by rewrite -Y8E [LHS]mxE [LHS]mxE. Qed.
Lemma maha4 i : maha (dia real_sf d4) (samp (mx_toreal X8) i) = if (i < 4)%N then 1 else 4%:R.
Proof.
rewrite maha_dia; last exact: d4_gt0.
under eq_bigr do rewrite samp8 mxE /sq; rewrite !big_ord_recl big_ord0 /=.
case: i => -[|[|[|[|[|[|[|[|//]]]]]]]] ? /=; rewrite /tb /=; rfield.
Qed.
Lemma sol4 : tyler_solution (mx_toreal X8) (dia real_sf d4).
Proof.
split; first by apply: pd_dia; exact: d4_gt0.
under eq_wsum do rewrite maha4.
apply/matrixP => a b; rewrite /wsum summxE.
under eq_bigr do rewrite 2!mxE big_ord1 samp8 adjE samp8.
rewrite !big_ord_recl big_ord0 /= /tb; rewrite !mxE.
case: a => -[|[|[|[|//]]]] ?; case: b => -[|[|[|[|//]]]] ? /=; rewrite ?mulr1n ?mulr0n; r2R; simpl Z.of_nat; match goal with |- @eq _ ?a ?b => change (@eq R a b) end; field.
Qed.
Lemma sampC i j : samp X8 i j 0 = Complex (tb i j) (tb i (2 + j)).
Proof. by rewrite !mxE. Qed.
Lemma sqC (a b : R) : @sq complex_sf (Complex a b) = a * a + b * b.
Proof. by rewrite /sq /= mulrN opprK. Qed.
Definition q8 (i : nat) : R := nth 0 [:: 8%:R / 5%:R; 1; 2%:R / 5%:R; 1; 4%:R; 4%:R; 4%:R; 4%:R] i.
Lemma maha2 i : maha (dia complex_sf d2) (samp X8 i) = q8 i.
Proof.
rewrite maha_dia; last exact: d2_gt0.
under eq_bigr do rewrite sampC mxE sqC; rewrite !big_ord_recl big_ord0 /=.
by case: i => -[|[|[|[|[|[|[|[|//]]]]]]]] ? /=; rewrite /tb /q8 /=; r2R; field.
Qed.
Lemma cterm (w a b c d : R) : (@ofR complex_sf w * (Complex a b * @cj complex_sf (Complex c d)) : C) = Complex (w * (a * c + b * d)) (w * (b * c - a * d)).
Proof. rewrite /GRing.mul /=; congr Complex; rring. Qed.
Lemma sol2 : tyler_solution X8 (dia complex_sf d2).
Proof.
split; first by apply: pd_dia; exact: d2_gt0.
under eq_wsum do rewrite maha2.
apply/matrixP => a b; rewrite /wsum summxE.
have E (i : 'I_8) : (@ofR complex_sf (2%:R / 8%:R / q8 i) *: outer (samp X8 i)) a b =
    Complex (2%:R / 8%:R / q8 i * (tb i a * tb i b + tb i (2 + a) * tb i (2 + b)))
            (2%:R / 8%:R / q8 i * (tb i (2 + a) * tb i b - tb i a * tb i (2 + b))).
  by rewrite mxE [X in _ * X]mxE big_ord1 adjE !sampC cterm.
rewrite (eq_bigr _ (fun i _ => E i)) !mxE.
have ceq (z w : C) : complex.Re z = complex.Re w -> complex.Im z = complex.Im w -> z = w by case: z w => ? ? [? ?] /= -> ->.
apply: ceq; rewrite raddf_sum !big_ord_recl big_ord0 /= /tb /q8;
  case: a {E} => -[|[|//]] ?; case: b => -[|[|//]] ? /=; rewrite ?mulr1n ?mulr0n; r2R; simpl Z.of_nat;
  match goal with |- @eq _ ?a ?b => change (@eq R a b) end; field.
Qed.
Lemma X8_irr : irreducible X8.
Proof.
apply: (@basis_irreducible complex_sf 8 2 X8 (fun j => inord j) (inord 4) (fun j => nth 0 [:: 2%:R; 1] j)).
- move=> j k; rewrite mxE inordK; last by case: j => j /=; lia.
  have e2 : (Complex 2%:R 0 : C) = 2%:R by rewrite !mulr2n; congr Complex; rewrite addr0.
  by case: j => -[|[|//]] ?; case: k => -[|[|//]] ? /=; rewrite /tb /= ?mulr1 ?mulr0 // e2.
- by move=> j; case: j => -[|[|//]] ? /=; rewrite ?oner_eq0 // pnatr_eq0.
- move=> k; rewrite mxE inordK // eq_complex /tb; case: k => -[|[|//]] ? /=; by rewrite negb_and oner_eq0 orbT.
Qed.
Lemma Y8_irr : @irreducible real_sf _ _ (mx_toreal X8).
Proof.
apply: (@basis_irreducible real_sf 8 (2 + 2) (mx_toreal X8) (fun j => inord j) (inord 4) (fun j => nth 0 [:: 2%:R; 1; 1; 1] j)).
- move=> j k; rewrite Y8E inordK; last by case: j => j /=; lia.
  by case: j => -[|[|[|[|//]]]] ?; case: k => -[|[|[|[|//]]]] ? /=; rewrite /tb /= ?mulr1 ?mulr0.
- by move=> j; case: j => -[|[|[|[|//]]]] ? /=; rewrite ?oner_eq0 // pnatr_eq0.
- move=> k; rewrite Y8E inordK // /tb; by case: k => -[|[|[|[|//]]]] ? /=; rewrite ?oner_eq0 ?pnatr_eq0.
Qed.
Lemma rank_spanning (K : starField) N p (X : 'M[K]_(N, p)) : spanning X -> \rank X = p.
Proof.
move=> sp; have h : kermx (map_mx (@cj K) X)^T = 0.
  apply/row_matrixP => i; rewrite row0; apply: trmx_inj; rewrite trmx0; apply: sp => j.
  have /(congr1 trmx) e : row i (kermx (map_mx (@cj K) X)^T) *m (map_mx (@cj K) X)^T = 0 by apply/sub_kermxP; exact: row_sub.
  rewrite trmx_mul trmxK trmx0 in e; have := congr1 (row j) e; rewrite row0 row_mul => e'; rewrite -[RHS]e'; congr (_ *m _).
  by apply/rowP => k; rewrite !mxE.
have := mxrank_ker (map_mx (@cj K) X)^T; rewrite h mxrank0 mxrank_tr mxrank_map => /esym /eqP; rewrite subn_eq0 => le.
by apply/eqP; rewrite eqn_leq le rank_leq_col.
Qed.
Lemma X8_row i : row i X8 != 0.
Proof.
have h : row i (mx_toreal X8) != 0.
  have := @maha4 i; case: eqP => // e; rewrite /samp e trmx0 /maha mulmx0 mxE raddf0 => /esym.
  by case: ifP => _ /eqP; rewrite ?oner_eq0 ?pnatr_eq0.
apply: contraNneq h => e; apply/eqP/trmx_inj; rewrite -[LHS]/(samp (mx_toreal X8) i) samp_toreal /samp e !trmx0; exact: rvec0.
Qed.
(* Not every complex data set: whatever the exact optimiser, the scaling and the initial point, for these eight samples
   the function does not return the normalised solution of the complex equation, which exists and is unique *)
Theorem C83_complex_refuted : exists (X : 'M[complex_sf]_(8, 2)) (Sol : 'M[complex_sf]_2),
  [/\ \rank (mx_toreal X) = 4%N, forall i, row i X != 0, irreducible X, tyler_solution X Sol &
   forall eigh solve init nrm s c k, eigh_ok eigh -> exact_solver solve -> scaling_norm nrm ->
     complex_tyler_shape_matrix_naturalgradient eigh solve X init nrm = Ok (s, c, k) ->
     s <> normalised nrm Sol /\ ~ tyler_solution X s].
Proof.
have rk : \rank (mx_toreal X8) = 4%N := rank_spanning (tyler_spanning sol4).
exists X8, (dia complex_sf d2); split=> //; [exact: X8_row | exact: X8_irr | exact: sol2 |].
move=> eigh solve init nrm s c k ok ex hn /(complex_natgradE ok ex rk X8_row) [v [sv _ es _]].
have y0 i : row i (mx_toreal X8) != 0 := row_toreal (X8_row i).
have [t t0 ev] := tyler_unique (isT : (0 < 8)%N) y0 Y8_irr sol4 sv.
pose D : 'M[complex_sf]_2 := dia complex_sf (\row_j nth 0 [:: 4%:R; 1] j).
have pD : pd D.
  by apply: pd_dia => j; rewrite mxE; case: j => -[|[|//]] ? /=; rewrite ?ltr01 ?ltr0n.
have eD : mx_tocomplex (@ofR real_sf t *: dia real_sf d4) = @ofR complex_sf (2%:R * t) *: D.
  apply/matrixP => a b; rewrite !mxE.
  case: a => -[|[|//]] ?; case: b => -[|[|//]] ? /=; rewrite ?mulr1n ?mulr0n !mulr2n /GRing.mul /= /GRing.add /=; congr Complex; rring.
have {es} es : s = (get_normalisation_function nrm D)^-1 *: D.
  rewrite es ev eD adjZ cj_ofR pD.1 -mulr2n -scaler_nat [2%:R^-1 *: _]scalerA mulVf ?pnatr_eq0 // scale1r.
  rewrite -[RHS]/(normalised nrm D); apply: (same_normalised hn pD); exists (2%:R * t) => //; by rewrite mulr_gt0 ?ltr0n.
have np r : s <> r *: dia complex_sf d2.
  move=> e; have /matrixP e' : (get_normalisation_function nrm D)^-1 *: D = r *: dia complex_sf d2 by rewrite -es.
  have r0 : (get_normalisation_function nrm D)^-1 != 0.
    by rewrite invr_eq0 gt_eqF // norm_gt0.
  have := e' 0 0; have := e' 1 1; rewrite !mxE /= !mulr1n !mulr1 => <-.
  move=> /(mulfI r0) [] h; have : (4%:R * 2%:R : R) = 5%:R by rewrite h divfK // pnatr_eq0.
  by rewrite -natrM => /eqP; rewrite eqr_nat.
split; first exact: np.
move=> ss; have [u _ eu] := tyler_unique (isT : (0 < 8)%N) X8_row X8_irr sol2 ss; exact: (np _ eu).
Qed.
(* an exact optimiser, that returns whenever there is a minimum *)
Theorem C83_solver_exists : exists solve, [/\ exact_solver solve,
  forall eigh N p (X : 'M[real_sf]_(N, p.+1)) S init nrm, eigh_ok eigh -> (forall i, row i X != 0) -> tyler_solution X S ->
    exists s c, tyler_shape_matrix_naturalgradient eigh solve X init nrm = Ok (s, c, None) &
  forall eigh N p (X : 'M[complex_sf]_(N, p.+1)) S init nrm, eigh_ok eigh -> (forall i, row i X != 0) -> tyler_solution (mx_toreal X) S ->
    exists s c, complex_tyler_shape_matrix_naturalgradient eigh solve X init nrm = Ok (s, c, None)].
Proof.
pose best p (cost : 'M[real_sf]_p -> res R) s := pd s /\ forall T v w, pd T -> cost s = Ok v -> cost T = Ok w -> v <= w.
pose good p (cost : 'M[real_sf]_p -> res R) (r : res 'M[real_sf]_p) :=
  match r with Ok s => best p cost s | Err _ => ~ exists s, best p cost s end.
pose solve : solver := fun p cost _ => epsilon (inhabits (Err ValueErr)) (good p cost).
have ok p cost init : good p cost (solve p cost init).
  apply: epsilon_spec; case: (classic (exists s, best p cost s)) => [[s hs]|hs]; first by exists (Ok s).
  by exists (Err ValueErr).
have ex : exact_solver solve by move=> p cost init s e; have := ok p cost init; rewrite e.
have R eigh N p (X : 'M[real_sf]_(N, p.+1)) S init nrm : eigh_ok eigh -> (forall i, row i X != 0) -> tyler_solution X S ->
    exists s c, tyler_shape_matrix_naturalgradient eigh solve X init nrm = Ok (s, c, None).
  move=> oe X0 sS; have N0 := spanning_N (tyler_spanning sS).
  have tc T : pd T -> _generate_realTyler_cost_function eigh (normalise_rows X) T = Ok (tcost (normalise_rows X) T).
    by move=> pT; rewrite /_generate_realTyler_cost_function (C40_formula N p.+1).1.
  have bS : best p.+1 (_generate_realTyler_cost_function eigh (normalise_rows X)) S.
    split; first exact: sS.1.
    move=> T v w pT; rewrite !tc //; last exact: sS.1.
    move=> -[<-] [<-]; have c0 i : (R_sqrt.sqrt (\sum_k X i k ^+ 2))^-1 != 0 by rewrite invr_eq0 gt_eqF // sqrtR_gt0 // row_norm2.
    rewrite normalise_rowsE !tcost_scale_samples //; last exact: sS.1.
    rewrite ler_add2r; apply: (tyler_min N0 X0) => //; [exact: sS.1 | exact: sS.2].
  rewrite /tyler_shape_matrix_naturalgradient; have := ok _ (_generate_realTyler_cost_function eigh (normalise_rows X)) init.
  case: (solve _ _ _) => [s [ps _]|? h]; last by case: h; exists S.
  by rewrite /= tc //=; eexists; eexists.
exists solve; split=> // eigh N p X S init nrm oe X0 sS.
rewrite /complex_tyler_shape_matrix_naturalgradient.
have r0 i : row i (mx_toreal X) != 0 by apply: row_toreal.
have [s [c ->]] := R eigh N (p + p.+1)%N (mx_toreal X) S init "None"%string oe r0 sS.
by eexists; eexists.
Qed.
(* Real samples that meet the hypotheses: those of the witness *)
Example C83_real_hypotheses : exists (X : 'M[real_sf]_(8, 4)) S, [/\ \rank X = 4%N, forall i, row i X != 0, irreducible X & tyler_solution X S].
Proof.
exists (mx_toreal X8), (dia real_sf d4); split; [exact: rank_spanning (tyler_spanning sol4) | | exact: Y8_irr | exact: sol4].
move=> i; exact: (row_toreal (X8_row i)).
Qed.
(* the complex samples i^k and i^k (1 + i) *)
Definition tbz : seq (seq R) := [:: [:: 1; 0]; [:: 0; 1]; [:: -1; 0]; [:: 0; -1]; [:: 1; 1]; [:: -1; 1]; [:: -1; -1]; [:: 1; -1]].
Definition tz (i j : nat) : R := nth 0 (nth [::] tbz i) j.
Definition Xz : 'M[complex_sf]_(8, 1) := \matrix_(i, j) Complex (tz i 0) (tz i 1).
Lemma YzE i j : mx_toreal Xz i j = tz i j.
Proof. by rewrite !mxE; case: splitP => k e; rewrite !mxE /= e; case: k {e} => -[|//] ?. Qed.
Lemma sampz i j : samp (mx_toreal Xz) i j 0 = tz i j.
Proof. by rewrite -YzE [LHS]mxE [LHS]mxE. Qed.
Definition d1 : 'rV[R]_(1 + 1) := const_mx 1.
Lemma d1_gt0 j : 0 < d1 0 j. Proof. by rewrite mxE ltr01. Qed.
Lemma mahaz i : maha (dia real_sf d1) (samp (mx_toreal Xz) i) = if (i < 4)%N then 1 else 2%:R.
Proof.
rewrite maha_dia; last exact: d1_gt0.
under eq_bigr do rewrite sampz mxE /sq; rewrite !big_ord_recl big_ord0 /=.
by case: i => -[|[|[|[|[|[|[|[|//]]]]]]]] ? /=; rewrite /tz /=; rfield.
Qed.
Lemma solz : tyler_solution (mx_toreal Xz) (dia real_sf d1).
Proof.
split; first by apply: pd_dia; exact: d1_gt0.
under eq_wsum do rewrite mahaz.
apply/matrixP => a b; rewrite /wsum summxE.
under eq_bigr do rewrite 2!mxE big_ord1 sampz adjE sampz.
rewrite !big_ord_recl big_ord0 /= /tz; rewrite !mxE.
case: a => -[|[|//]] ?; case: b => -[|[|//]] ? /=; rewrite ?mulr1n ?mulr0n; r2R; simpl Z.of_nat;
  match goal with |- @eq _ ?a ?b => change (@eq R a b) end; field.
Qed.
Example C83_complex_hypotheses : exists (X : 'M[complex_sf]_(8, 1)) S, [/\ \rank (mx_toreal X) = 2%N, forall i, row i X != 0,
  closed_under_i X, @irreducible real_sf _ _ (mx_toreal X) & tyler_solution (mx_toreal X) S].
Proof.
exists Xz, (dia real_sf d1); split.
- exact: rank_spanning (tyler_spanning solz).
- move=> i; apply/negP => /eqP /rowP /(_ 0) /eqP; rewrite !mxE eq_complex /tz.
  by case: i => -[|[|[|[|[|[|[|[|//]]]]]]]] ? /=; rewrite ?oppr_eq0 oner_eq0 ?andbF.
- pose f (i : 'I_8) : 'I_8 := inord (nth 0%N [:: 1; 2; 3; 0; 5; 6; 7; 4]%N i).
  have fE (i : 'I_8) : f i = nth 0%N [:: 1; 2; 3; 0; 5; 6; 7; 4]%N i :> nat.
    by rewrite inordK //; case: i => -[|[|[|[|[|[|[|[|//]]]]]]]].
  have fi : injective f.
    move=> i j /(congr1 val); rewrite /= !fE => e; apply: val_inj; move: e.
    by case: i => -[|[|[|[|[|[|[|[|//]]]]]]]] ?; case: j => -[|[|[|[|[|[|[|[|//]]]]]]]].
  exists (perm fi); apply/matrixP => i j; rewrite !mxE permE fE /tz.
  case: i => -[|[|[|[|[|[|[|[|//]]]]]]]] ? /=; rewrite /GRing.mul /=; congr Complex; rring.
- apply: (@basis_irreducible real_sf 8 (1 + 1) (mx_toreal Xz) (fun j => inord j) (inord 4) (fun j => 1)).
  + move=> j k; rewrite YzE inordK; last by case: j => j /=; lia.
    by case: j => -[|[|//]] ?; case: k => -[|[|//]] ? /=; rewrite /tz /= ?mulr1 ?mulr0.
  + by move=> j; rewrite oner_eq0.
  + move=> k; rewrite YzE inordK // /tz; by case: k => -[|[|//]] ? /=; rewrite oner_eq0.
- exact: solz.
Qed.

Print Assumptions C83_real_solution.
Print Assumptions C83_real_agree.
Print Assumptions C83_complex_partial.
Print Assumptions C83_complex_closed_partial.
Print Assumptions C83_complex_refuted.
Print Assumptions C83_solver_exists.
