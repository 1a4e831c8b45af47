(* The gradient that Tyler's natural gradient estimator follows: C103. *)
From Coq Require Import Reals String Classical_Prop ClassicalEpsilon.
From mathcomp Require Import all_ssreflect all_algebra.
From mathcomp Require Import complex.
From Coquelicot Require Import Coquelicot.
From Verif Require Import RealsMC RealTac RealTac2 Star StarInst FunCalc RealRep Model_featurearray NpArray Model_linalg Proofs_linalg Props_linalg
  Model_covariance Spec_covariance Spec_fixedpoint Proofs_mest Proofs_loop Proofs_covariance Proofs_estimators Props_covariance Proofs_cost Props_cost Props_probability
  Props_robust Proofs_unique Proofs_unique2 Props_unique Model_natgrad Props_natgrad Props_kstudent Proofs_structured Model_egrad Proofs_egrad.
Set Implicit Arguments.
Unset Strict Implicit.
Unset Printing Implicit Defensive.
Local Open Scope ring_scope.
Local Notation "A ^H" := (adj A) (at level 8, format "A ^H").
Import GRing.Theory Num.Theory Order.TTheory.

(* G gives the derivative of the cost along symmetric directions *)
Definition is_egrad p (cost : 'M[real_sf]_p -> res R) (Q G : 'M[real_sf]_p) :=
  forall H : 'M[real_sf]_p, H^T = H -> derivative_at0 (fun s v => cost (Q + s *: H) = Ok v) (\tr (G^T *m H)).
(* autograd computes derivatives *)
Definition exact_autograd (grad : autograd_grad) := forall p (cost : 'M[real_sf]_p -> res R) Q,
  (exists G, is_egrad cost Q G) -> is_egrad cost Q (grad p cost Q).
(* when it returns, the optimiser has found a positive definite matrix where the Riemannian gradient vanishes *)
Definition stationary_solver (solve : gsolver) := forall p (cost : 'M[real_sf]_p -> res R) egrad init s, solve p cost egrad init = Ok s ->
  pd s /\ spd_egrad2rgrad s (egrad s) = 0.

Section Real.
Variables (N p : nat).
Local Notation K := real_sf.
Lemma real_herm (H : 'M[K]_p) : H^T = H -> herm H. Proof. by rewrite /herm adj_real. Qed.
Lemma tyl_move_herm (X : 'M[K]_(N, p)) Q : (0 < N)%N -> pd Q -> (tyl_move X Q)^T = tyl_move X Q.
Proof.
move=> N0 pQ; have : herm (tyl_move X Q).
  rewrite /tyl_move; apply: hermZR; apply: hermB; [exact: pd_herm | apply: (proj1 (_ : psd _)); apply: wsum_psd => i].
  by rewrite !divr_ge0 ?ler0n // maha_ge0.
by rewrite /herm adj_real.
Qed.
Lemma real_derivative eigh (X : 'M[K]_(N, p)) (Q H : 'M[K]_p) : eigh_ok eigh -> (0 < N)%N -> (forall i, row i X != 0) -> pd Q -> H^T = H ->
  derivative_at0 (fun s v => Tyler_cost_real eigh X (Q + s *: H) = Ok v) (\tr (invmx Q *m tyl_move X Q *m invmx Q *m H)).
Proof.
move=> ok N0 X0 pQ hH; apply: derivative_imp (tyler_derivative X0 N0 pQ (real_herm hH)) => s v [pL ->].
by rewrite (C40_formula N p).1.
Qed.
Lemma trace_sym_eq0 (M : 'M[K]_p) : M^T = M -> (forall H : 'M[K]_p, H^T = H -> \tr (M *m H) = 0) -> M = 0.
Proof.
move=> hM h; apply: fro2_eq0; apply: (@ofR_inj K); rewrite fro2_tr rmorph0 -{2}hM adj_real trmxK; exact: h.
Qed.
Lemma rgrad_unique (cost : 'M[K]_p -> res R) (Q G M : 'M[K]_p) : pd Q -> M^T = M -> is_egrad cost Q G ->
  (forall H : 'M[K]_p, H^T = H -> derivative_at0 (fun s v => cost (Q + s *: H) = Ok v) (\tr (invmx Q *m M *m invmx Q *m H))) ->
  spd_egrad2rgrad Q G = M.
Proof.
move=> pQ hM hG hd; have uQ := pd_unit pQ; have hQ : Q^T = Q by have := pd_herm pQ; rewrite /herm adj_real.
pose S : 'M[K]_p := 2%:R^-1 *: (G + G^T); pose D : 'M[K]_p := invmx Q *m M *m invmx Q.
have sD : D^T = D by rewrite /D !trmx_mul trmx_inv hQ hM mulmxA.
have sS : S^T = S by rewrite /S linearZ linearD /= trmxK addrC.
have e : S - D = 0.
  apply: trace_sym_eq0; first by rewrite linearB /= sS sD.
  move=> H hH; rewrite mulmxBl raddfB /= -(derivative_unique _ (hG H hH) (hd H hH)); last by move=> s v v' -> [].
  rewrite /S -scalemxAl mxtraceZ mulmxDl raddfD /=.
  have -> : \tr (G *m H) = \tr (G^T *m H) by rewrite -mxtrace_tr trmx_mul hH mxtrace_mulC.
  have half (x : R) : 2%:R^-1 * (x + x) = x by rewrite -[x + x](mulr_natl x 2) mulKf // pnatr_eq0.
  by rewrite half subrr.
move/eqP: e; rewrite subr_eq0 => /eqP e; rewrite /spd_egrad2rgrad -/S e /D !mulmxA mulmxV // mul1mx -mulmxA mulVmx // mulmx1 //.
Qed.
End Real.

(* the matrix of the rows of X divided by their norms gives the same update *)
Lemma move_normalised N p (X : 'M[real_sf]_(N, p)) Q : (forall i, row i X != 0) -> pd Q -> tyl_move (normalise_rows X) Q = tyl_move X Q.
Proof.
move=> X0 pQ; rewrite /tyl_move; congr (_ *: (_ - _)).
have c0 i : 0 < (R_sqrt.sqrt (\sum_k X i k ^+ 2))^-1 by rewrite invr_gt0 sqrtR_gt0 // row_norm2.
rewrite normalise_rowsE /wsum; apply: eq_bigr => i _; rewrite samp_scale; move: (c0 i); move: (R_sqrt.sqrt _)^-1 => c cp.
have -> : maha Q (c *: samp X i) = c ^+ 2 * maha Q (samp X i).
  by rewrite /maha adjZ -scalemxAl -scalemxAl -scalemxAr scalerA mxE expr2.
have -> : outer (c *: samp X i) = (c ^+ 2) *: outer (samp X i).
  by rewrite /outer adjZ -scalemxAl -scalemxAr scalerA expr2.
rewrite scalerA; congr (_ *: _).
rewrite [c ^+ 2 * _]mulrC invfM; set m := (maha _ _)^-1; rewrite -[LHS]/(p%:R / N%:R * (m / c ^+ 2) * c ^+ 2) -mulrA divfK //.
by rewrite expf_neq0 // gt_eqF.
Qed.

(* ------------------------------------------------------------------ C103 *)
(* The cost has derivatives along every symmetric direction; whatever matrix G gives them, the Riemannian gradient that
   pymanopt makes of it is N times the change Q - p/N sum x x^T / (x^T Q^-1 x) of a fixed-point update *)
Theorem C103_gradient eigh N p (X : 'M[real_sf]_(N, p)) (Q : 'M[real_sf]_p) : eigh_ok eigh -> (0 < N)%N -> (forall i, row i X != 0) -> pd Q ->
  (exists G, is_egrad (Tyler_cost_real eigh X) Q G) /\
  forall G, is_egrad (Tyler_cost_real eigh X) Q G ->
    spd_egrad2rgrad Q G = N%:R *: (Q - wsum (fun i => p%:R / N%:R / maha Q (samp X i)) X).
Proof.
move=> ok N0 X0 pQ; have d H := @real_derivative N p eigh X Q H ok N0 X0 pQ; have tm := tyl_move_herm X N0 pQ.
have hQ : Q^T = Q by have := pd_herm pQ; rewrite /herm adj_real.
split; last by move=> G hG; exact: (rgrad_unique pQ tm hG d).
exists (invmx Q *m tyl_move X Q *m invmx Q) => H hH; rewrite !trmx_mul trmx_inv hQ tm mulmxA; exact: d.
Qed.
(* the same for the cost of complex data, along Hermitian directions *)
Theorem C103_complex_gradient eigh N p (X : 'M[complex_sf]_(N, p)) (Q H : 'M[complex_sf]_p) : eigh_ok eigh -> (0 < N)%N -> (forall i, row i X != 0) -> pd Q -> herm H ->
  derivative_at0 (fun s v => Tyler_cost_complex eigh X (Q + @ofR complex_sf s *: H) = Ok v)
    (@toR complex_sf (\tr (invmx Q *m (@ofR complex_sf N%:R *: (Q - wsum (fun i => p%:R / N%:R / maha Q (samp X i)) X)) *m invmx Q *m H))).
Proof.
move=> ok N0 X0 pQ hH; apply: derivative_imp (tyler_derivative X0 N0 pQ hH) => s v [pL ->].
exact: (C40_formula N p).2.
Qed.
(* what the estimator gives to pymanopt: the data is divided by its norms, which changes nothing *)
Theorem C103_natural_gradient eigh grad N p (X : 'M[real_sf]_(N, p.+1)) Q : eigh_ok eigh -> exact_autograd grad -> (0 < N)%N -> (forall i, row i X != 0) -> pd Q ->
  spd_egrad2rgrad Q (_generate_Tyler_egrad grad (_generate_realTyler_cost_function eigh (normalise_rows X)) Q) =
  N%:R *: (Q - wsum (fun i => p.+1%:R / N%:R / maha Q (samp X i)) X).
Proof.
move=> ok ex N0 X0 pQ.
have Y0 i : row i (normalise_rows X) != 0.
  have g := row_norm2 (X0 i); rewrite normalise_rowsE.
  have -> : row i (scale_samples (fun i => (R_sqrt.sqrt (\sum_k X i k ^+ 2))^-1) X) = (R_sqrt.sqrt (\sum_k X i k ^+ 2))^-1 *: row i X.
    by apply/rowP => j; rewrite !mxE.
  by rewrite scaler_eq0 negb_or X0 andbT invr_eq0 gt_eqF // sqrtR_gt0.
have [exG h] := C103_gradient ok N0 Y0 pQ.
have := h _ (ex _ _ _ exG); rewrite -[RHS]/(tyl_move (normalise_rows X) Q) move_normalised //.
Qed.
(* it vanishes exactly at the solutions of Tyler's equation *)
Theorem C103_stationary eigh grad N p (X : 'M[real_sf]_(N, p.+1)) Q : eigh_ok eigh -> exact_autograd grad -> (0 < N)%N -> (forall i, row i X != 0) -> pd Q ->
  (spd_egrad2rgrad Q (_generate_Tyler_egrad grad (_generate_realTyler_cost_function eigh (normalise_rows X)) Q) = 0 <-> tyler_solution X Q).
Proof.
move=> ok ex N0 X0 pQ; rewrite C103_natural_gradient //; split=> [/eqP|[_ e]].
  by rewrite scaler_eq0 pnatr_eq0 (gtn_eqF N0) /= subr_eq0 => /eqP e; split.
by rewrite [X in X - _]e subrr scaler0.
Qed.
(* elsewhere the opposite direction decreases the cost *)
Theorem C103_descent eigh N p (X : 'M[real_sf]_(N, p.+1)) Q G R : eigh_ok eigh -> (0 < N)%N -> (forall i, row i X != 0) -> pd Q ->
  is_egrad (Tyler_cost_real eigh X) Q G -> R = spd_egrad2rgrad Q G ->
  derivative_at0 (fun s v => Tyler_cost_real eigh X (Q + s *: - R) = Ok v) (- \tr (invmx Q *m R *m invmx Q *m R)) /\
  (~ tyler_solution X Q -> - \tr (invmx Q *m R *m invmx Q *m R) < 0).
Proof.
move=> ok N0 X0 pQ hG ->; have [_ h] := C103_gradient ok N0 X0 pQ; rewrite (h _ hG) {h hG G R}.
rewrite -/(tyl_move X Q); have tm := tyl_move_herm X N0 pQ; split.
  rewrite -[- \tr _](raddfN (mxtrace_additive _ _)) /= -mulmxN; apply: real_derivative => //; by rewrite linearN /= tm.
move=> ns; rewrite oppr_lt0; have uQ := pd_unit pQ; have [ur rr] := fsqrtP pQ; move: (fmx sqrt Q) ur rr => r ur rr.
set M := tyl_move X Q in tm *; have hM : M^H = M by rewrite adj_real.
pose W := invmx r *m M *m (invmx r)^H.
have iQ : invmx Q = (invmx r)^H *m invmx r by rewrite -rr invmxM' ?unitmx_adj // adjV.
have -> : \tr (invmx Q *m M *m invmx Q *m M) = fro2 W.
  apply: (@ofR_inj real_sf); rewrite fro2_tr /W !adjM adjK hM iQ -[LHS]/(\tr _) -!mulmxA [RHS]mxtrace_mulC -!mulmxA [RHS]mxtrace_mulC -!mulmxA //.
rewrite lt_def fro2_ge0 andbT; apply/eqP => /fro2_eq0 W0; apply: ns; split=> //.
have M0 : M = 0.
  have : r *m W *m r^H = M by rewrite /W !mulmxA mulmxV // mul1mx adjV mulmxKV // unitmx_adj.
  by rewrite W0 mulmx0 mul0mx.
by move/eqP: M0; rewrite scaler_eq0 pnatr_eq0 (gtn_eqF N0) /= subr_eq0 => /eqP.
Qed.
(* an optimiser that stops where the Riemannian gradient vanishes gives Tyler's estimate *)
Theorem C103_result eigh grad solve N p (X : 'M[real_sf]_(N, p.+1)) init nrm s c k : eigh_ok eigh -> exact_autograd grad -> stationary_solver solve ->
  (0 < N)%N -> (forall i, row i X != 0) ->
  tyler_shape_matrix_naturalgradient eigh (solve_with grad solve) X init nrm = Ok (s, c, k) ->
  exists v, [/\ tyler_solution X v, s = normalised nrm v, k = None & c = p.+1%:R * (\sum_i ln (\sum_j X i j ^+ 2)) - tyler_objective X v].
Proof.
move=> ok ex st N0 X0; rewrite /tyler_shape_matrix_naturalgradient /solve_with; case E: (solve _ _ _ _) => [v|//] /=.
have [pv r0] := st _ _ _ _ _ E; have sv : tyler_solution X v by apply/(C103_stationary ok ex N0 X0 pv).
have tc T : pd T -> _generate_realTyler_cost_function eigh (normalise_rows X) T = Ok (tcost (normalise_rows X) T).
  by move=> pT; rewrite /_generate_realTyler_cost_function (C40_formula N p.+1).1.
have c0 i : (R_sqrt.sqrt (\sum_k X i k ^+ 2))^-1 != 0 by rewrite invr_eq0 gt_eqF // sqrtR_gt0 // row_norm2.
rewrite tc //= => -[<- <- <-].
have cst : tcost (normalise_rows X) v = tcost X v - p.+1%:R * (\sum_i ln (\sum_k X i k ^+ 2)).
  rewrite normalise_rowsE tcost_scale_samples // -mulrN -sumrN; congr (_ + _ * _); apply: eq_bigr => i _.
  have g := row_norm2 (X0 i).
  have -> : @toR real_sf ((R_sqrt.sqrt (\sum_k X i k ^+ 2))^-1 * @cj real_sf ((R_sqrt.sqrt (\sum_k X i k ^+ 2))^-1)) = (\sum_k X i k ^+ 2)^-1.
    by rewrite -invfM sqrtR_sqr // ltW.
  by rewrite -Rinv_E ln_Rinv //; exact/RltP.
by exists v; split=> //; rewrite cst opprB.
Qed.
(* ... hence what the fixed-point function returns when it converges *)
Theorem C103_agree eigh eigh' grad solve N p (X : 'M[real_sf]_(N, p.+1)) init init' nrm tol m s c k s' k' :
  eigh_ok eigh -> eigh_ok eigh' -> exact_autograd grad -> stationary_solver solve -> scaling_norm nrm ->
  \rank X = p.+1 -> (forall i, row i X != 0) -> irreducible X -> (forall s0, init' = Some s0 -> pd s0) ->
  tyler_shape_matrix_naturalgradient eigh (solve_with grad solve) X init nrm = Ok (s, c, k) ->
  tyler_shape_matrix_fixedpoint eigh' X init' tol m nrm = Some (Ok (s', Fin 0, k')) -> s = s'.
Proof.
move=> ok ok' eg es hn rX X0 irr pi h h'; have sp := spanning_rank rX; have N0 := rank_N rX.
have [v [sv -> _ _]] := C103_result ok eg es N0 X0 h.
have [st [u [-> a b d sw]]] := real_tyler_run ok' X0 sp pi h'; have [pu fu] := run_fixed a b d sw.
have su : tyler_solution X u by split=> //; rewrite -{1}fu.
exact: (same_normalised hn su.1 (tyler_unique N0 X0 irr su sv)).
Qed.
(* such a gradient, and such an optimiser that returns whenever there is a solution *)
Theorem C103_oracles_exist : exists grad solve, [/\ exact_autograd grad, stationary_solver solve &
  forall eigh N p (X : 'M[real_sf]_(N, p.+1)) S init nrm, eigh_ok eigh -> (0 < N)%N -> (forall i, row i X != 0) -> tyler_solution X S ->
    exists s c, tyler_shape_matrix_naturalgradient eigh (solve_with grad solve) X init nrm = Ok (s, c, None)].
Proof.
pose grad : autograd_grad := fun p cost Q => epsilon (inhabits 0) (is_egrad cost Q).
have eg : exact_autograd grad by move=> p cost Q h; apply: epsilon_spec.
pose stat p (egrad : 'M[real_sf]_p -> 'M[real_sf]_p) s := pd s /\ spd_egrad2rgrad s (egrad s) = 0.
pose good p (egrad : 'M[real_sf]_p -> 'M[real_sf]_p) (r : res 'M[real_sf]_p) :=
  match r with Ok s => stat p egrad s | Err _ => ~ exists s, stat p egrad s end.
pose solve : gsolver := fun p cost egrad _ => epsilon (inhabits (Err ValueErr)) (good p egrad).
have ok p cost egrad init : good p egrad (solve p cost egrad init).
  apply: epsilon_spec; case: (classic (exists s, stat p egrad s)) => [[s hs]|hs]; first by exists (Ok s).
  by exists (Err ValueErr).
exists grad, solve; split=> //; first by move=> p cost egrad init s e; have := ok p cost egrad init; rewrite e.
move=> eigh N p X S init nrm oe N0 X0 sS.
have tc T : pd T -> _generate_realTyler_cost_function eigh (normalise_rows X) T = Ok (tcost (normalise_rows X) T).
  by move=> pT; rewrite /_generate_realTyler_cost_function (C40_formula N p.+1).1.
rewrite /tyler_shape_matrix_naturalgradient /solve_with.
set cost := _generate_realTyler_cost_function eigh (normalise_rows X).
have := ok _ cost (_generate_Tyler_egrad grad cost) init.
case: (solve _ _ _ _) => [s [ps _]|? h].
  by rewrite /= /cost tc //=; eexists; eexists.
case: h; exists S; split; first exact: sS.1.
exact/(C103_stationary oe eg N0 X0 sS.1).
Qed.
(* samples that meet the hypotheses, and a matrix that is not a solution *)
Example C103_hypotheses : exists (X : 'M[real_sf]_(8, 4)) S Q, [/\ \rank X = 4%N /\ (forall i, row i X != 0), irreducible X, tyler_solution X S, pd Q & ~ tyler_solution X Q].
Proof.
exists (mx_toreal X8), (dia real_sf d4), (1%:M : 'M[real_sf]_4).
have x0 i : row i (mx_toreal X8) != 0 := row_toreal (X8_row i).
split; [split=> //; exact: rank_spanning (tyler_spanning sol4) | exact: Y8_irr | exact: sol4 | exact: pd1 |].
move=> s1; have [t t0 e] := tyler_unique (isT : (0 < 8)%N) x0 Y8_irr s1 sol4.
have e0 := congr1 (fun M : 'M[real_sf]_4 => M 0 0) e; have e1 := congr1 (fun M : 'M[real_sf]_4 => M 1 1) e.
have : (dia real_sf d4) 0 0 = (dia real_sf d4) 1 1 by rewrite e0 e1 !mxE.
by rewrite !mxE /= !mulr1n => /eqP; rewrite -[X in _ == X]/(1%:R) eqr_nat.
Qed.

Print Assumptions C103_gradient.
Print Assumptions C103_complex_gradient.
Print Assumptions C103_natural_gradient.
Print Assumptions C103_stationary.
Print Assumptions C103_descent.
Print Assumptions C103_result.
Print Assumptions C103_agree.
Print Assumptions C103_oracles_exist.
Print Assumptions C103_hypotheses.
