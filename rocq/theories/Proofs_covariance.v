(* The update rules of covariance.py as weighted sums of x_i x_i^H. *)
From Coq Require Import Reals.
From mathcomp Require Import all_ssreflect all_fingroup all_algebra.
From Verif Require Import RealsMC Star StarInst FunCalc Model_featurearray Model_linalg Proofs_linalg.
From Verif Require Import Model_covariance Spec_covariance Proofs_mest Proofs_loop.
Set Implicit Arguments.
Unset Strict Implicit.
Unset Printing Implicit Defensive.
Local Open Scope ring_scope.
Import GRing.Theory Num.Theory Order.TTheory.

Section Generic.
Variable K : starField.
Variable eigh : eigsolver K.
Local Notation ofR := (@ofR K).
Local Notation toR := (@toR K).
Local Notation cj := (@cj K).

(* |invsqrtm(S) x_i|^2, whatever S and eigh *)
Definition ctau N p (X : 'M[K]_(N, p)) (S : 'M[K]_p) (i : 'I_N) : R :=
  toR (((invsqrtm eigh S *m samp X i)^H *m (invsqrtm eigh S *m samp X i)) 0 0).
(* the shape of all update rules *)
Definition gtau N p (X : 'M[K]_(N, p)) (S : 'M[K]_p) : 'rV[K]_N :=
  let temp := invsqrtm eigh S *m X^T in einsum_ij_ji_i (np_conj temp)^T temp.
Definition gupd N p (num : R) (X : 'M[K]_(N, p)) (t : 'rV[R]_N) : 'M[K]_p :=
  let temp := divcols X^T (np_sqrt t) in ofR num *: (temp *m (np_conj temp)^T).

Lemma np_conjT m n (A : 'M[K]_(m, n)) : (np_conj A)^T = A^H. Proof. by []. Qed.

Lemma ctau_ge0 N p (X : 'M[K]_(N, p)) S i : 0 <= ctau X S i.
Proof. exact/toR_ge0/normcol_ge0. Qed.
Lemma gtauE N p (X : 'M[K]_(N, p)) S i : gtau X S 0 i = ofR (ctau X S i).
Proof.
rewrite /ctau ofR_toR_ge0 ?normcol_ge0 // normcol mxE; apply: eq_bigr => j _.
rewrite np_conjT adjE mulrC; suff -> : (invsqrtm eigh S *m X^T) j i = (invsqrtm eigh S *m samp X i) j 0 by [].
by rewrite !mxE; apply: eq_bigr => k _; rewrite !mxE.
Qed.
Lemma real_gtau N p (X : 'M[K]_(N, p)) S : np_real (gtau X S) = \row_i ctau X S i.
Proof. by apply/rowP => i; rewrite mxE /np_real mxE gtauE toRK. Qed.

Lemma gupdE N p num (X : 'M[K]_(N, p)) (t : 'rV[R]_N) : (forall i, 0 <= t 0 i) ->
  gupd num X t = wsum (fun i => num / t 0 i) X.
Proof.
move=> t0; rewrite /gupd /wsum np_conjT.
have -> : divcols X^T (np_sqrt t) *m (divcols X^T (np_sqrt t))^H = \sum_i ofR (t 0 i)^-1 *: outer (samp X i).
  apply/matrixP => a b; rewrite mxE summxE; apply: eq_bigr => i _.
  rewrite adjE !mxE big_ord1 adjE !mxE rmorphM fmorphV cj_ofR.
  rewrite mulrACA -invfM -rmorphM sqrtR_sqr // -fmorphV mulrC //.
by rewrite scaler_sumr; apply: eq_bigr => i _; rewrite scalerA -rmorphM.
Qed.

Lemma ctau_pd N p (X : 'M[K]_(N, p)) S i : eigh_ok eigh -> pd S -> ctau X S i = maha S (samp X i).
Proof.
move=> ok pS; rewrite /ctau adjM.
have -> : (invsqrtm eigh S)^H = invsqrtm eigh S by apply/pd_herm/invsqrtm_pd.
by rewrite -!mulmxA [X in _ *m X]mulmxA invsqrtm_sqr // mulmxA.
Qed.
End Generic.

(* ---- the code's update rules, for every sigma and every eigensolver ---- *)
Lemma conj_real m n (A : 'M[real_sf]_(m, n)) : np_conj A = A.
Proof. by apply/matrixP => i j; rewrite mxE. Qed.
Lemma np_real_real m n (A : 'M[real_sf]_(m, n)) : np_real A = A.
Proof. by apply/matrixP => i j; rewrite mxE. Qed.

Section RealSteps.
Variable eigh : eigsolver real_sf.
Local Notation K := real_sf.
Lemma real_tauE N p (X : 'M[K]_(N, p)) S : real_tau eigh X S = gtau eigh X S.
Proof. by rewrite /gtau conj_real. Qed.
Lemma real_updE N p num (X : 'M[K]_(N, p)) t :
  (num : K) *: (divcols X^T (np_sqrt t) *m (divcols X^T (np_sqrt t))^T) = gupd num X t.
Proof. by rewrite /gupd conj_real. Qed.

Lemma tyler_stepE N p (X : 'M[K]_(N, p)) S :
  tyler_step eigh X S = wsum (fun i => p%:R / N%:R / ctau eigh X S i) X.
Proof.
rewrite /tyler_step [LHS]real_updE gupdE; last first.
  move=> i; rewrite mxE real_tauE -[gtau _ _ _]np_real_real real_gtau mxE.
  by apply: mulr_ge0; [rewrite mul1r invr_ge0 ler0n | apply: ctau_ge0].
apply: eq_wsum => i; rewrite mxE real_tauE -[gtau _ _ _]np_real_real real_gtau mxE.
by rewrite !mul1r invfM invrK mulrCA mulrA.
Qed.
Lemma student_stepE N p (X : 'M[K]_(N, p)) df S : 0 < df ->
  student_step eigh X df S = wsum (fun i => (df / 2%:R + p%:R) / N%:R / (df / 2%:R + ctau eigh X S i)) X.
Proof.
move=> d0; rewrite /student_step [LHS]real_updE gupdE; last first.
  move=> i; rewrite mxE real_tauE real_gtau mxE.
  by apply: addr_ge0; [rewrite divr_ge0 ?ler0n ?ltW | apply: ctau_ge0].
by apply: eq_wsum => i; rewrite mxE real_tauE real_gtau mxE.
Qed.
Lemma huber_stepE N p (X : 'M[K]_(N, p)) lbda beta S :
  huber_step eigh X lbda beta S = if (lbda <= 0) || (beta < 0) then Err AssertionErr else
    Ok (wsum (fun i => N%:R^-1 / huber_u lbda beta (ctau eigh X S i)) X).
Proof.
rewrite /huber_step /_huber_m_estimator_function; case: ifP => //= /negbT; rewrite negb_or -!ltNge -leNgt => /andP [l0 b0].
rewrite real_tauE real_gtau; congr Ok; rewrite [LHS]real_updE gupdE; last first.
  move=> i; rewrite !mxE /huber_u; apply: mulr_ge0; first by rewrite mul1r invr_ge0.
  case: eqP => _; first exact: ler01.
  by rewrite le_minr ler01 /= divr_ge0 ?ctau_ge0 ?ltW.
by apply: eq_wsum => i; rewrite !mxE mul1r.
Qed.
End RealSteps.

Section ComplexSteps.
Variable eigh : eigsolver complex_sf.
Local Notation K := complex_sf.
Lemma complex_tauE N p (X : 'M[K]_(N, p)) S : complex_tau eigh X S = gtau eigh X S.
Proof. by []. Qed.
Lemma complex_tyler_stepE N p (X : 'M[K]_(N, p)) S :
  complex_tyler_step eigh X S = wsum (fun i => p%:R / N%:R / ctau eigh X S i) X.
Proof.
rewrite /complex_tyler_step [LHS]gupdE; last first.
  move=> i; rewrite mxE complex_tauE real_gtau mxE.
  by apply: mulr_ge0; [rewrite mul1r invr_ge0 ler0n | apply: ctau_ge0].
apply: eq_wsum => i; rewrite mxE complex_tauE real_gtau mxE.
by rewrite !mul1r invfM invrK mulrCA mulrA.
Qed.
Lemma complex_student_stepE N p (X : 'M[K]_(N, p)) df S : 0 < df ->
  complex_student_step eigh X df S = wsum (fun i => (df + p%:R) / N%:R / (df + ctau eigh X S i)) X.
Proof.
move=> d0; rewrite /complex_student_step [LHS]gupdE; last first.
  move=> i; rewrite mxE complex_tauE real_gtau mxE.
  by apply: addr_ge0; [rewrite ltW | apply: ctau_ge0].
by apply: eq_wsum => i; rewrite mxE complex_tauE real_gtau mxE.
Qed.
Lemma complex_huber_stepE N p (X : 'M[K]_(N, p)) lbda beta S :
  complex_huber_step eigh X lbda beta S = if (lbda <= 0) || (beta < 0) then Err AssertionErr else
    Ok (wsum (fun i => N%:R^-1 / huber_u lbda beta (ctau eigh X S i)) X).
Proof.
rewrite /complex_huber_step /_huber_m_estimator_function; case: ifP => //= /negbT; rewrite negb_or -!ltNge -leNgt => /andP [l0 b0].
rewrite complex_tauE real_gtau; congr Ok; rewrite [LHS]gupdE; last first.
  move=> i; rewrite !mxE /huber_u; apply: mulr_ge0; first by rewrite mul1r invr_ge0.
  case: eqP => _; first exact: ler01.
  by rewrite le_minr ler01 /= divr_ge0 ?ctau_ge0 ?ltW.
by apply: (@eq_wsum complex_sf) => i; rewrite !mxE mul1r.
Qed.
End ComplexSteps.
