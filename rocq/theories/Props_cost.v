(* Theorems about the estimating equations and costs: C13, C35-C40. *)
From Coq Require Import Reals String Lra.
From mathcomp Require Import all_ssreflect all_fingroup all_algebra.
From Verif Require Import RealsMC RealTac Star StarInst FunCalc Model_featurearray Model_linalg Proofs_linalg Props_linalg.
From Verif Require Import Model_covariance Spec_covariance Model_estimators Proofs_mest Proofs_loop Proofs_covariance
  Proofs_estimators Props_covariance Proofs_cost.
Set Implicit Arguments.
Unset Strict Implicit.
Unset Printing Implicit Defensive.
Local Open Scope ring_scope.
Import GRing.Theory Num.Theory Order.TTheory.
Local Notation "A ^H" := (adj A) (at level 8, format "A ^H").

(* ------------------------------------------------------------------ C40 *)
Lemma cost_real_ctau eigh N p (X : 'M[real_sf]_(N, p)) Q :
  Tyler_cost_real eigh X Q = Ok (p%:R * (\sum_i ln (ctau eigh X Q i)) + N%:R * ln (@toR real_sf (\det Q))).
Proof.
rewrite /Tyler_cost_real; case: eqP => // e; rewrite (eq_axiomK e) castmx_id.
congr (Ok (_ * _ + _)); apply: eq_bigr => i _; congr (ln _).
rewrite -/(real_tau eigh X Q) real_tauE; exact: gtauE.
Qed.
Lemma cost_complex_ctau eigh N p (X : 'M[complex_sf]_(N, p)) Q :
  Tyler_cost_complex eigh X Q = Ok (p%:R * (\sum_i ln (ctau eigh X Q i)) + N%:R * ln (@toR complex_sf (\det Q))).
Proof.
rewrite /Tyler_cost_complex; case: eqP => // e; rewrite (eq_axiomK e) castmx_id.
congr (Ok (_ * _ + _)); apply: eq_bigr => i _; congr (ln _).
have -> : np_conj (invsqrtm eigh Q *m X^T)^T = (np_conj (invsqrtm eigh Q *m X^T))^T.
  by apply/matrixP => a b; rewrite !mxE.
by rewrite -/(gtau eigh X Q) gtauE toRK.
Qed.
Theorem C40_formula N p :
  (forall eigh (X : 'M[real_sf]_(N, p)) Q, eigh_ok eigh -> pd Q ->
     Tyler_cost_real eigh X Q = Ok (p%:R * (\sum_i ln (maha Q (samp X i))) + N%:R * ln (\det Q))) /\
  (forall eigh (X : 'M[complex_sf]_(N, p)) Q, eigh_ok eigh -> pd Q ->
     Tyler_cost_complex eigh X Q = Ok (p%:R * (\sum_i ln (maha Q (samp X i))) + N%:R * ln (@toR complex_sf (\det Q)))).
Proof.
split=> eigh X Q ok pQ; rewrite ?cost_real_ctau ?cost_complex_ctau; congr (Ok (_ * _ + _)); apply: eq_bigr => i _; by rewrite ctau_pd.
Qed.
Theorem C40_incompatible_shapes n p q : p <> q ->
  (forall eigh (X : 'M[real_sf]_(n, p)) (Q : 'M_q), Tyler_cost_real eigh X Q = Err AttributeErr) /\
  (forall eigh (X : 'M[complex_sf]_(n, p)) (Q : 'M_q), Tyler_cost_complex eigh X Q = Err AttributeErr).
Proof. by move=> pq; split=> eigh X Q; rewrite /Tyler_cost_real /Tyler_cost_complex; case: eqP. Qed.

Section TylerCost.
Variable K : starField.
Variables (N p : nat).
Implicit Types (X : 'M[K]_(N, p)) (Q : 'M[K]_p).
Definition tcost X Q : R := p%:R * (\sum_i ln (maha Q (samp X i))) + N%:R * ln (@toR K (\det Q)).
Lemma tcost_mcost X Q : tcost X Q = mcost (fun q => p%:R * ln q) X Q.
Proof. by rewrite /tcost /mcost mulr_sumr. Qed.
Lemma samp_neq0 X i : row i X != 0 -> samp X i != 0. Proof. by rewrite /samp trmx_eq0. Qed.
Lemma tcost_scale c X Q : (forall i, row i X != 0) -> pd Q -> 0 < c -> tcost X (@ofR K c *: Q) = tcost X Q.
Proof.
move=> X0 pQ c0; rewrite /tcost detZ -rmorphX toRZ lnM ?exprn_gt0 ?toR_gt0 ?det_pd // lnX //.
have -> : \sum_i ln (maha (@ofR K c *: Q) (samp X i)) = \sum_i ln (maha Q (samp X i)) - N%:R * ln c.
  have -> : N%:R * ln c = \sum_(i < N) ln c by rewrite sumr_const card_ord mulr_natl.
  rewrite -sumrB; apply: eq_bigr => i _; rewrite maha_scale // lnD //; exact/maha_gt0/samp_neq0.
set dd := ln (@toR K (\det Q)); rewrite -?/dd; rring.
Qed.
Lemma tcost_scale_samples (c : 'I_N -> K) X Q : (forall i, row i X != 0) -> (forall i, c i != 0) -> pd Q ->
  tcost (scale_samples c X) Q = tcost X Q + p%:R * (\sum_i ln (@toR K (c i * @cj K (c i)))).
Proof.
move=> X0 c0 pQ; rewrite /tcost addrAC -mulrDr -big_split /=; congr (_ * _ + _); apply: eq_bigr => i _.
have t0 : 0 < c i * @cj K (c i) by rewrite lt_def mul_cj_eq0 c0 mul_cj_ge0.
have q0 : 0 < maha Q (samp X i) by exact/maha_gt0/samp_neq0.
have s0 := toR_gt0 t0; rewrite addrC -lnM //.
congr ln; rewrite samp_scale /maha adjZ -scalemxAl -scalemxAl -scalemxAr scalerA mxE.
by rewrite [cj K (c i) * _]mulrC toRZ_nneg ?mul_cj_ge0.
Qed.
Lemma tcost_affine (A : 'M[K]_p) X Q : A \in unitmx -> pd Q ->
  tcost (X *m A^T) (A *m Q *m A^H) = tcost X Q + N%:R * ln (@toR K (\det A * @cj K (\det A))).
Proof.
move=> uA pQ; rewrite /tcost -addrA -mulrDr; congr (_ * _ + _ * _).
  by apply: eq_bigr => i _; rewrite samp_mulmx maha_congr // pd_unit.
have t0 : 0 < \det A * @cj K (\det A) by rewrite lt_def mul_cj_eq0 mul_cj_ge0 andbT -unitfE -unitmxE.
have s0 := toR_gt0 t0; have d0 := toR_gt0 (det_pd pQ); rewrite addrC -lnM //; congr ln.
by rewrite !det_mulmx det_adj mulrAC toRZ_nneg // ltW.
Qed.
End TylerCost.

Theorem C40_scale_of_Q N p c : 0 < c ->
  (forall eigh (X : 'M[real_sf]_(N, p)) (Q : 'M_p), eigh_ok eigh -> (forall i, row i X != 0) -> pd Q ->
     Tyler_cost_real eigh X (@ofR real_sf c *: Q) = Tyler_cost_real eigh X Q) /\
  (forall eigh (X : 'M[complex_sf]_(N, p)) (Q : 'M_p), eigh_ok eigh -> (forall i, row i X != 0) -> pd Q ->
     Tyler_cost_complex eigh X (@ofR complex_sf c *: Q) = Tyler_cost_complex eigh X Q).
Proof.
move=> c0; split=> eigh X Q ok X0 pQ.
  have pcQ : pd (@ofR real_sf c *: Q) by apply: pdZ; rewrite ?ofR_gt0.
  by rewrite !(C40_formula N p).1 //; congr Ok; exact: (@tcost_scale real_sf).
have pcQ : pd (@ofR complex_sf c *: Q) by apply: pdZ; rewrite ?ofR_gt0.
rewrite ((C40_formula N p).2 _ _ _ ok pQ) ((C40_formula N p).2 _ _ _ ok pcQ); congr Ok; exact: (@tcost_scale complex_sf).
Qed.
(* |z|^2, over R and C *)
Definition abs2 (K : starField) (z : K) : R := @toR K (z * @cj K z).
Theorem C40_rescaled_samples N p :
  (forall eigh (X : 'M[real_sf]_(N, p)) c (Q : 'M_p) v, eigh_ok eigh -> (forall i, row i X != 0) -> (forall i, c i != 0) -> pd Q ->
     Tyler_cost_real eigh X Q = Ok v ->
     Tyler_cost_real eigh (scale_samples c X) Q = Ok (v + p%:R * (\sum_i ln (abs2 (c i))))) /\
  (forall eigh (X : 'M[complex_sf]_(N, p)) c (Q : 'M_p) v, eigh_ok eigh -> (forall i, row i X != 0) -> (forall i, c i != 0) -> pd Q ->
     Tyler_cost_complex eigh X Q = Ok v ->
     Tyler_cost_complex eigh (scale_samples c X) Q = Ok (v + p%:R * (\sum_i ln (abs2 (c i))))).
Proof.
split=> eigh X c Q v ok X0 c0 pQ.
  rewrite !(C40_formula N p).1 // => -[<-]; congr Ok; exact: (@tcost_scale_samples real_sf).
rewrite ((C40_formula N p).2 _ _ _ ok pQ) ((C40_formula N p).2 _ (scale_samples c X) _ ok pQ) => -[<-]; congr Ok; exact: (@tcost_scale_samples complex_sf).
Qed.
Theorem C40_affine N p :
  (forall eigh (X : 'M[real_sf]_(N, p)) (A Q : 'M_p) v, eigh_ok eigh -> A \in unitmx -> pd Q ->
     Tyler_cost_real eigh X Q = Ok v ->
     Tyler_cost_real eigh (X *m A^T) (A *m Q *m A^H) = Ok (v + N%:R * ln (abs2 (\det A : real_sf)))) /\
  (forall eigh (X : 'M[complex_sf]_(N, p)) (A Q : 'M_p) v, eigh_ok eigh -> A \in unitmx -> pd Q ->
     Tyler_cost_complex eigh X Q = Ok v ->
     Tyler_cost_complex eigh (X *m A^T) (A *m Q *m A^H) = Ok (v + N%:R * ln (abs2 (\det A : complex_sf)))).
Proof.
split=> eigh X A Q v ok uA pQ; have pQ' := pd_congr uA pQ.
  rewrite !(C40_formula N p).1 // => -[<-]; congr Ok; exact: (@tcost_affine real_sf).
rewrite ((C40_formula N p).2 _ _ _ ok pQ) ((C40_formula N p).2 _ (X *m A^T) _ ok pQ') => -[<-]; congr Ok; exact: (@tcost_affine complex_sf).
Qed.

(* ------------------------------------------------------------------ C35 *)
(* Tyler's equation *)
Definition tyler_eq (K : starField) N p (X : 'M[K]_(N, p)) (S : 'M[K]_p) :=
  S = wsum (fun i => p%:R / N%:R / maha S (samp X i)) X.

Lemma tyler_log_slope (p : nat) (q q' : R) : 0 < q -> 0 < q' -> p%:R * ln q + p%:R / q * q * (ln q' - ln q) <= p%:R * ln q'.
Proof. by move=> q0 _; rewrite divfK ?gt_eqF // -mulrDr addrC subrK. Qed.
Lemma tyler_concave (p : nat) (q q' : R) : 0 < q -> 0 < q' -> p%:R * ln q' <= p%:R * ln q + p%:R / q * (q' - q).
Proof.
move=> q0 q'0; rewrite -mulrA -mulrDr; apply: ler_wpmul2l; first exact: ler0n.
have e : q^-1 * (q' - q) = q' / q - 1 by rewrite mulrBr mulVf ?gt_eqF // mulrC.
by have := ln_le_sub1 (divr_gt0 q'0 q0); rewrite lnD // e ler_subl_addl.
Qed.
Section TylerMin.
Variable K : starField.
Variables (N p : nat).
Implicit Types (X : 'M[K]_(N, p)) (S T : 'M[K]_p).
Lemma wsumNZ a X : (0 < N)%N -> wsum a X = @ofR K N%:R *: wsum (fun i => a i / N%:R) X.
Proof.
move=> N0; rewrite /wsum scaler_sumr; apply: eq_bigr => i _; rewrite scalerA -rmorphM; congr (@ofR K _ *: _).
by rewrite mulrC divfK // gt_eqF // ltr0n.
Qed.
Lemma tyler_min X S T : (0 < N)%N -> (forall i, row i X != 0) -> pd S -> pd T -> tyler_eq X S -> tcost X S <= tcost X T.
Proof.
move=> N0 X0 pS pT e; rewrite !tcost_mcost; apply: (@fixed_point_min K N p _ (fun q => p%:R / q)) => //.
- exact: tyler_log_slope.
- by move=> q q0; rewrite divr_ge0 ?ler0n // ltW.
- rewrite wsumNZ //; congr (_ *: _); rewrite {2}e; apply: eq_wsum => i; by rewrite mulrAC.
Qed.
Lemma tyler_descent X S : (0 < N)%N -> (forall i, row i X != 0) -> pd S -> pd (mstep (fun q => p%:R / N%:R / q) X S) ->
  let T := mstep (fun q => p%:R / N%:R / q) X S in
  tcost X T <= tcost X S /\ (T <> S -> tcost X T < tcost X S).
Proof.
move=> N0 X0 pS pT T; rewrite !tcost_mcost; apply: (@update_descent K N p _ (fun q => p%:R / q)) => //.
- exact: tyler_concave.
- rewrite wsumNZ //; congr (_ *: _); apply: eq_wsum => i; by rewrite mulrAC.
Qed.
End TylerMin.

(* one update never increases the package's cost, and decreases it unless the point is fixed *)
Theorem C35_update_decreases_cost N p :
  (forall eigh (X : 'M[real_sf]_(N, p.+1)) S, eigh_ok eigh -> \rank X = p.+1 -> (forall i, row i X != 0) -> pd S ->
     exists v v', [/\ Tyler_cost_real eigh X S = Ok v, Tyler_cost_real eigh X (tyler_step eigh X S) = Ok v',
       v' <= v & tyler_step eigh X S <> S -> v' < v]) /\
  (forall eigh (X : 'M[complex_sf]_(N, p.+1)) S, eigh_ok eigh -> \rank X = p.+1 -> (forall i, row i X != 0) -> pd S ->
     exists v v', [/\ Tyler_cost_complex eigh X S = Ok v, Tyler_cost_complex eigh X (complex_tyler_step eigh X S) = Ok v',
       v' <= v & complex_tyler_step eigh X S <> S -> v' < v]).
Proof.
split=> eigh X S ok rX X0 pS; have N0 := rank_N rX.
  have pT := real_step_pd (ppf := fun _ _ => 0) (cdf := fun _ _ => 0) (a := TylerFP "") I ok rX X0 pS.
  have e : tyler_step eigh X S = mstep (fun q => p.+1%:R / N%:R / q) X S by rewrite tyler_stepE -(cstep_mstep _ _ ok pS).
  rewrite (cstep_mstep _ _ ok pS) /= in pT.
  have [D1 D2] := @tyler_descent real_sf _ _ X S N0 X0 pS pT.
  exists (tcost X S), (tcost X (mstep (fun q => p.+1%:R / N%:R / q) X S)); rewrite e.
  by split=> //; [apply: (C40_formula N p.+1).1 | apply: (C40_formula N p.+1).1].
have pT := complex_step_pd (ppf := fun _ _ => 0) (cdf := fun _ _ => 0) (a := TylerFP "") I ok rX X0 pS.
have e : complex_tyler_step eigh X S = mstep (fun q => p.+1%:R / N%:R / q) X S by rewrite complex_tyler_stepE -(cstep_mstep _ _ ok pS).
rewrite (cstep_mstep _ _ ok pS) /= in pT.
have [D1 D2] := @tyler_descent complex_sf _ _ X S N0 X0 pS pT.
exists (tcost X S), (tcost X (mstep (fun q => p.+1%:R / N%:R / q) X S)); rewrite e.
split; [exact: ((C40_formula N p.+1).2 _ _ _ ok pS) | exact: ((C40_formula N p.+1).2 _ _ _ ok pT) | exact: D1 | exact: D2].
Qed.

Lemma tyler_eq_scale (K : starField) N p (X : 'M[K]_(N, p)) S c : pd S -> 0 < c -> tyler_eq X S -> tyler_eq X (@ofR K c *: S).
Proof.
move=> pS c0 e; rewrite /tyler_eq {1}e /wsum scaler_sumr; apply: eq_bigr => i _.
by rewrite scalerA -rmorphM maha_scale // invfM invrK [in RHS]mulrA mulrC.
Qed.
Lemma rel_change_0 (K : starField) p (s' s : 'M[K]_p) : rel_change s' s = Fin 0 -> s' = s.
Proof.
rewrite /rel_change /divf; case: ifP => [_|b0]; first by case: ifP.
case=> /eqP; rewrite mulf_eq0 invr_eq0 b0 orbF => /eqP /fro_eq0 /eqP; by rewrite subr_eq0 => /eqP.
Qed.
Lemma normalised_pos (K : starField) p nrm (S : 'M[K]_p.+1) : pd S -> exists2 c, 0 < c & normalised nrm S = @ofR K c *: S.
Proof.
move=> pS; have n0 := norm_gt0 nrm pS; exists (@toR K (get_normalisation_function nrm S)^-1).
  by apply: toR_gt0; rewrite invr_gt0.
by rewrite ofR_toR_ge0 // ltW // invr_gt0.
Qed.
(* The estimate obtained when the run stops with error exactly 0 solves Tyler's equation, and
   no positive definite matrix has a lower cost. *)
Theorem C35_fixed_point_is_global_minimiser N p nrm tol m :
  (forall eigh (X : 'M[real_sf]_(N, p.+1)) init s k, eigh_ok eigh -> \rank X = p.+1 -> (forall i, row i X != 0) ->
     (forall s0, init = Some s0 -> pd s0) ->
     tyler_shape_matrix_fixedpoint eigh X init tol m nrm = Some (Ok (s, Fin 0, k)) ->
     [/\ pd s, s = wsum (fun i => p.+1%:R / N%:R / maha s (samp X i)) X &
         forall (T : 'M_p.+1) v w, pd T -> Tyler_cost_real eigh X s = Ok v -> Tyler_cost_real eigh X T = Ok w -> v <= w]) /\
  (forall eigh (X : 'M[complex_sf]_(N, p.+1)) init s k, eigh_ok eigh -> \rank X = p.+1 -> (forall i, row i X != 0) ->
     (forall s0, init = Some s0 -> pd s0) ->
     complex_tyler_shape_matrix_fixedpoint eigh X init tol m nrm = Some (Ok (s, Fin 0, k)) ->
     [/\ pd s, s = wsum (fun i => p.+1%:R / N%:R / maha s (samp X i)) X &
         forall (T : 'M_p.+1) v w, pd T -> Tyler_cost_complex eigh X s = Ok v -> Tyler_cost_complex eigh X T = Ok w -> v <= w]).
Proof.
split=> eigh X init s k ok rX X0 pi h; have N0 := rank_N rX.
  have ps : pd s by apply: ((C30_returned_pd (fun _ _ => 0) (fun _ _ => 0) N p (TylerFP nrm) tol m).1 eigh X init s (Fin 0) k I ok rX X0 pi h).
  have [s' [d' [k' [e [u rep _ _ _]]]]] := (C29_estimators_follow_contract (fun _ _ => 0) (fun _ _ => 0) N p (TylerFP nrm) tol m).1 eigh X init I.
  have [es ed ek] : [/\ s = normalised nrm s', Fin 0 = d' & k = k'] by move: e; rewrite [LHS]h => -[].
  have te : tyler_eq X s.
    rewrite -ed in rep; case: k' rep ek u {e} => // j [a [b [ea eb ec]]] _; rewrite eb => -[eb'].
    have pa : pd a.
      apply: ((C30_iterates_pd (fun _ _ => 0) (fun _ _ => 0) N p (TylerFP nrm)).1 eigh X _ _ _ I ok rX X0 _ ea).
      by case: init pi {h ea eb} => [s0 /(_ _ erefl)|_] //; rewrite /real_init real_init_none; exact: init_pd.
    have ab := rel_change_0 (esym ec).
    have fa : tyler_eq X a.
      have e2 : b = tyler_step eigh X a by move: eb; rewrite /= ea => -[].
      by rewrite /tyler_eq -{1}ab e2 tyler_stepE -/(cstep eigh (fun q => p.+1%:R / N%:R / q) X a) cstep_mstep.
    have [c c0 ec'] := normalised_pos nrm pa.
    by rewrite es -eb' ab ec'; apply: tyler_eq_scale.
  split=> // T v w pT; rewrite ((C40_formula N p.+1).1 _ _ _ ok ps) ((C40_formula N p.+1).1 _ _ _ ok pT) => -[<-] [<-].
  exact: (@tyler_min real_sf).
have ps : pd s by apply: ((C30_returned_pd (fun _ _ => 0) (fun _ _ => 0) N p (TylerFP nrm) tol m).2 eigh X init s (Fin 0) k I ok rX X0 pi h).
have [s' [d' [k' [e [u rep _ _ _]]]]] := (C29_estimators_follow_contract (fun _ _ => 0) (fun _ _ => 0) N p (TylerFP nrm) tol m).2 eigh X init I.
have [es ed ek] : [/\ s = normalised nrm s', Fin 0 = d' & k = k'] by move: e; rewrite [LHS]h => -[].
have te : tyler_eq X s.
  rewrite -ed in rep; case: k' rep ek u {e} => // j [a [b [ea eb ec]]] _; rewrite eb => -[eb'].
  have pa : pd a.
    apply: ((C30_iterates_pd (fun _ _ => 0) (fun _ _ => 0) N p (TylerFP nrm)).2 eigh X _ _ _ I ok rX X0 _ ea).
    by case: init pi {h ea eb} => [s0 /(_ _ erefl)|_] //; rewrite /complex_init complex_init_none; exact: init_pd.
  have ab := rel_change_0 (esym ec).
  have fa : tyler_eq X a.
    have e2 : b = complex_tyler_step eigh X a by move: eb; rewrite /= ea => -[].
    by rewrite /tyler_eq -{1}ab e2 complex_tyler_stepE -/(cstep eigh (fun q => p.+1%:R / N%:R / q) X a) cstep_mstep.
  have [c c0 ec'] := normalised_pos nrm pa.
  by rewrite es -eb' ab ec'; apply: tyler_eq_scale.
split=> // T v w pT; rewrite ((C40_formula N p.+1).2 _ _ _ ok ps) ((C40_formula N p.+1).2 _ _ _ ok pT) => -[<-] [<-].
exact: (@tyler_min complex_sf).
Qed.

(* ------------------------------------------------------------------ C13 *)
Section C13.
Local Notation K := complex_sf.
Variables (N p : nat).
Implicit Types X : 'M[K]_(N, p).
(* the point the samples are compared with: 0 or their mean *)
Definition centre (assume_centered : bool) X : 'cV[K]_p :=
  if assume_centered then 0 else (N%:R^-1 : K) *: \sum_i samp X i.
(* every sample shifted by c *)
Definition shift_samples (c : 'cV[K]_p) X : 'M[K]_(N, p) := \matrix_(i, j) (X i j + c j 0).
End C13.
Theorem C13_formula N p (X : 'M[complex_sf]_(N, p)) b :
  complex_empirical_covariance X b = (N%:R^-1 : complex_sf) *: \sum_i outer (samp X i - centre b X).
Proof.
case: b; rewrite /centre.
  rewrite complex_init_none /wsum scaler_sumr; apply: eq_bigr => i _; rewrite subr0.
  by rewrite fmorphV rmorph_nat.
rewrite /complex_empirical_covariance /np_cov_bias; congr (_ *: _); apply/matrixP => a c.
rewrite summxE !mxE; apply: eq_bigr => i _; rewrite outerE !mxE.
have h e : \sum_k X k e = (\sum_k samp X k) e 0 by rewrite summxE; apply: eq_bigr => k _; rewrite !mxE.
by rewrite !h.
Qed.
Theorem C13_positive_semidefinite N p (X : 'M[complex_sf]_(N, p)) b : psd (complex_empirical_covariance X b).
Proof.
rewrite C13_formula; apply: psdZ; first by rewrite invr_ge0 ler0n.
by apply: psd_sum => i _; apply: psd_outer.
Qed.
Theorem C13_translation_invariant N p (X : 'M[complex_sf]_(N, p)) c : (0 < N)%N ->
  complex_empirical_covariance (shift_samples c X) false = complex_empirical_covariance X false.
Proof.
move=> N0; rewrite !C13_formula; congr (_ *: _); apply: eq_bigr => i _; congr outer.
have s k : samp (shift_samples c X) k = samp X k + c by apply/matrixP => a b; rewrite !mxE (ord1 b).
rewrite s /centre; have -> : \sum_i samp (shift_samples c X) i = (\sum_i samp X i) + N%:R *: c.
  rewrite (eq_bigr (fun k => samp X k + c)) => [|k _]; last exact: s.
  by rewrite big_split sumr_const card_ord /= scaler_nat.
rewrite scalerDr scalerA mulVf ?scale1r ?pnatr_eq0 -?lt0n //.
by rewrite opprD addrACA subrr addr0.
Qed.
Theorem C13_linear_map N p q (A : 'M[complex_sf]_(q, p)) (X : 'M[complex_sf]_(N, p)) b :
  complex_empirical_covariance (X *m A^T) b = A *m complex_empirical_covariance X b *m A^H.
Proof.
have s k : samp (X *m A^T) k = A *m samp X k by rewrite /samp row_mul trmx_mul trmxK.
rewrite !C13_formula -scalemxAr -scalemxAl mulmx_sumr mulmx_suml; congr (_ *: _); apply: eq_bigr => i _.
have -> : centre b (X *m A^T) = A *m centre b X.
  rewrite /centre; case: b; rewrite ?mulmx0 // -scalemxAr mulmx_sumr; congr (_ *: _); apply: eq_bigr => k _; exact: s.
by rewrite s -mulmxBr /outer adjM !mulmxA.
Qed.

(* ------------------------------------------------------------------ examples *)
(* The hypotheses of the theorems on costs are met by full-rank data, see also
   C28_C34_hypotheses; the hypothesis 'stops with error 0' of
   C35_fixed_point_is_global_minimiser by the identity matrix as data and initial point. *)
Lemma wsum_id p : wsum (fun _ => 1) (1%:M : 'M[real_sf]_p) = 1%:M.
Proof.
apply/matrixP => a b; rewrite summxE (bigD1 a) //= big1 ?addr0 => [|i ia].
  by rewrite mxE outerE !mxE eqxx !mul1r.
by rewrite mxE outerE !mxE (negbTE ia) !(mul0r, mulr0).
Qed.
Example C35_hypotheses : exists (eigh : eigsolver real_sf) (X s0 s : 'M[real_sf]_2) k,
  [/\ eigh_ok eigh, \rank X = 2%N, (forall i, row i X != 0), pd s0 &
      tyler_shape_matrix_fixedpoint eigh X (Some s0) (Fin (1 / 10%:R)) 5 "trace" = Some (Ok (s, Fin 0, k))].
Proof.
have [eigh ok] := C61_eigensolver_exists real_sf.
have [r n0] := @unit_data real_sf _ (1%:M : 'M_2) (unitmx1 _ _).
have p1 : pd (1%:M : 'M[real_sf]_2) by exact: pd1.
exists eigh, 1%:M, 1%:M, (normalised "trace" 1%:M), 1%N; split=> //.
have e : tyler_step eigh 1%:M 1%:M = 1%:M :> 'M[real_sf]_2.
  rewrite tyler_stepE -/(cstep eigh (fun q => 2%:R / 2%:R / q) 1%:M 1%:M) cstep_mstep // /mstep -[RHS]wsum_id.
  apply: eq_wsum => i; rewrite maha1 divff ?pnatr_eq0 // mul1r; apply/eqP; rewrite invr_eq1; apply/eqP.
  rewrite (bigD1 i) //= big1 ?addr0 => [|j ji]; rewrite /sq !mxE ?eqxx ?mulr1 // eq_sym (negbTE ji) mul0r //.
rewrite /tyler_shape_matrix_fixedpoint /fp_loop /loop.
have rc : rel_change (1%:M : 'M[real_sf]_2) 1%:M = Fin 0.
  by move: p1 => /pd_fro /negbTE f0; rewrite /rel_change subrr /divf f0 fro0 mul0r.
have -> : while 6 (loop_cond gtf (Fin (1 / 10%:R)) 5) (loop_body (fun s : 'M_2 => Ok (tyler_step eigh 1%:M s)) (@rel_change real_sf 2))
    (1%:M, PInf, 0%N) = Some (Ok (1%:M, Fin 0, 1%N)).
  have lb : loop_body (fun s : 'M_2 => Ok (tyler_step eigh 1%:M s)) (@rel_change real_sf 2) (1%:M, PInf, 0%N) = Ok (1%:M, Fin 0, 1%N).
    by rewrite /loop_body /bindr e rc.
  have c1 : loop_cond gtf (Fin (1 / 10%:R)) 5 (1%:M : 'M[real_sf]_2, Fin 0, 1%N) = false.
    by rewrite /loop_cond /gtf ltNge divr_ge0 ?ler01 ?ler0n.
  rewrite /while -/while; rewrite [loop_cond _ _ _ _]/=.
  by rewrite lb c1.
by [].
Qed.
Print Assumptions C13_formula.
Print Assumptions C13_positive_semidefinite.
Print Assumptions C13_translation_invariant.
Print Assumptions C13_linear_map.
Print Assumptions C35_update_decreases_cost.
Print Assumptions C35_fixed_point_is_global_minimiser.
Print Assumptions C40_formula.
Print Assumptions C40_incompatible_shapes.
Print Assumptions C40_scale_of_Q.
Print Assumptions C40_rescaled_samples.
Print Assumptions C40_affine.
