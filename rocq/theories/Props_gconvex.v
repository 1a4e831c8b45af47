(* Convexity of the costs along geodesics: C104. *)
From Coq Require Import Reals String FunctionalExtensionality.
From mathcomp Require Import all_ssreflect all_algebra.
From mathcomp Require Import complex mxtens.
From Verif Require Import RealsMC RealTac RealTac2 Star StarInst FunCalc RealRep Model_featurearray NpArray Proofs_numpy Model_linalg Proofs_linalg Props_linalg
  Model_mappings Props_mappings Model_covariance Spec_covariance Spec_fixedpoint Model_estimators Proofs_mest Proofs_cost Props_cost Model_manifolds Proofs_hpd Props_hpd Props_shpd Props_metric
  Model_scipy Model_probability Proofs_probability Props_probability Model_scores Props_robust Model_sklearn Model_objects Model_structured Props_structured Props_kstudent
  Proofs_kron Spec_convex GConvNum Proofs_gconvex.
Set Implicit Arguments.
Unset Strict Implicit.
Unset Printing Implicit Defensive.
Local Open Scope ring_scope.
Import GRing.Theory Num.Theory Order.TTheory.
Local Notation "A ^H" := (adj A) (at level 8, format "A ^H").

Section Costs.
Variables (K : starField) (eigh : eigsolver K).
Hypothesis eighP : eigh_ok eigh.
Variables (N p : nat).
Implicit Types (X : 'M[K]_(N, p)) (x u : 'M[K]_p).
Local Notation ofR := (@ofR K).
Local Notation toR := (@toR K).
Lemma tyler_ecurve X G w : (forall i, row i X != 0) -> G \in unitmx -> convexR (fun t => tyler_objective X (ecurve G w t)).
Proof.
move=> X0 uG; apply: convex_add; apply: convex_scale; rewrite ?ler0n //; last exact: ecurve_ln_det.
apply: convex_sum => i; apply: (@convex_ext (fun t => ln (0 + maha (ecurve G w t) (samp X i)))) => [t|]; first by rewrite add0r.
by apply: ecurve_ln_maha => //; right; apply: samp_neq0.
Qed.
Lemma student_ecurve (a : R) X G w : 0 < a -> G \in unitmx -> convexR (fun t => stu_cost a X (ecurve G w t)).
Proof.
move=> a0 uG; apply: convex_add; last by apply: convex_scale; [rewrite ler0n | exact: ecurve_ln_det].
apply: convex_sum => i; apply: convex_scale; first by rewrite addr_ge0 ?ler0n ?ltW.
by apply: ecurve_ln_maha => //; [exact: ltW | left].
Qed.
End Costs.

(* the point of the geodesic from x to y at time t *)
Section Between.
Variables (K : starField) (eigh : eigsolver K).
Hypothesis eighP : eigh_ok eigh.
Variable n : nat.
Local Notation ofR := (@ofR K).
Implicit Types x y u : 'M[K]_n.
Definition geo x y t := hexp1 eigh x (ofR t *: hlog1 eigh x y).
Lemma geo0 x y : pd x -> geo x y 0 = x.
Proof.
move=> px; have [G [w [uG ex _ e]]] := hexp_curve eighP px (hlog_herm eigh x y); rewrite /geo e [RHS]ex.
rewrite /ecurve; have -> : \row_j Rtrigo_def.exp (0 * w 0 j) = const_mx 1 by apply/rowP => j; rewrite !mxE mul0r Rtrigo_def.exp_0.
by rewrite dia_const rmorph1 mulmx1.
Qed.
Lemma geo1 x y : pd x -> pd y -> geo x y 1 = y.
Proof. by move=> px py; rewrite /geo rmorph1 scale1r hexp_log. Qed.
Lemma geo_pd x y t : pd x -> pd (geo x y t).
Proof. by move=> px; apply: hexp_pd => //; apply: hermZR; apply: hlog_herm. Qed.
Variable cholesky : forall n, 'M[K]_n -> 'M[K]_n.
Hypothesis cholP : chol_ok cholesky.
Lemma geo_dist x y t : pd x -> pd y -> 0 <= t -> hpd_dist eigh cholesky (fun _ : 'I_1 => x) (fun _ => geo x y t) =
  t * hpd_norm cholesky (fun _ : 'I_1 => x) (fun _ => hlog1 eigh x y).
Proof.
move=> px py t0; have h := @C87_geodesic K eigh cholesky eighP cholP n 1 (fun _ => x) (fun _ => hlog1 eigh x y) 0 t (fun _ => px) (fun _ => hlog_herm eigh x y).
rewrite subr0 ger0_norm // in h; rewrite -h; congr (hpd_dist _ _ _ _); apply: functional_extensionality_dep => i.
by rewrite /geodesic /hpd_exp -/(geo x y 0) geo0.
Qed.
Lemma geo_near_all x y (e : R) : pd x -> pd y -> 0 < e -> exists s : R, [/\ 0 < s, s <= 1 &
  forall t, 0 <= t -> t <= s -> hpd_dist eigh cholesky (fun _ : 'I_1 => x) (fun _ => geo x y t) < e].
Proof.
move=> px py e0; set d := hpd_norm cholesky (fun _ : 'I_1 => x) (fun _ => hlog1 eigh x y).
have d0 : 0 <= d by apply: sqrtR_ge0.
have q0 : 0 < e + d by rewrite ltr_paddr.
exists (e / (e + d)); split; [by rewrite divr_gt0 | by rewrite ler_pdivr_mulr // mul1r ler_addl|].
move=> t t0 ts; rewrite geo_dist // -/d; apply: (le_lt_trans (ler_wpmul2r d0 ts)).
by rewrite mulrAC ltr_pdivr_mulr // ltr_pmul2l // ltr_addr.
Qed.
Lemma geo_near x y (e : R) : pd x -> pd y -> 0 < e -> exists t : R, [/\ 0 < t, t <= 1 &
  hpd_dist eigh cholesky (fun _ : 'I_1 => x) (fun _ => geo x y t) < e].
Proof.
move=> px py e0; have [s [s0 s1 hs]] := geo_near_all px py e0; exists s; split=> //; apply: hs => //; exact: ltW.
Qed.
End Between.
Lemma convex_local f (t : R) : convexR f -> 0 < t -> t <= 1 -> f 0 <= f t -> f 0 <= f 1.
Proof.
move=> cf t0 t1 h; have := cf t 1 0; rewrite ltW // t1 mulr1 mulr0 addr0 => /(_ isT) h'.
have := le_trans h h'; rewrite -ler_subl_addr; have -> : f 0 - (1 - t) * f 0 = t * f 0 by rewrite mulrBl mul1r opprB addrC subrK.
by rewrite ler_pmul2l.
Qed.

(* ------------------------------------------------------------------ C104 *)
Section C104.
(* Tyler's costs are convex along t -> exp(x, t u) *)
Theorem C104_tyler_real (eigh eigh' : eigsolver real_sf) N p (X : 'M[real_sf]_(N, p)) (x u : 'M[real_sf]_p) : eigh_ok eigh -> eigh_ok eigh' ->
  (forall i, row i X != 0) -> pd x -> herm u ->
  exists2 f, convexR f & forall t : R, Tyler_cost_real eigh X (hexp1 eigh' x (t *: u)) = Ok (f t).
Proof.
move=> ok ok' X0 px hu; have [G [w [uG _ _ e]]] := hexp_curve ok' px hu.
exists (fun t => tyler_objective X (ecurve G w t)); first exact: tyler_ecurve.
by move=> t; rewrite [hexp1 _ _ _]e (C40_formula N p).1 //; apply: ecurve_pd.
Qed.
Theorem C104_tyler_complex (eigh eigh' : eigsolver complex_sf) N p (X : 'M[complex_sf]_(N, p)) (x u : 'M[complex_sf]_p) : eigh_ok eigh -> eigh_ok eigh' ->
  (forall i, row i X != 0) -> pd x -> herm u ->
  exists2 f, convexR f & forall t : R, Tyler_cost_complex eigh X (hexp1 eigh' x (@ofR complex_sf t *: u)) = Ok (f t).
Proof.
move=> ok ok' X0 px hu; have [G [w [uG _ _ e]]] := hexp_curve ok' px hu.
exists (fun t => tyler_objective X (ecurve G w t)); first exact: tyler_ecurve.
by move=> t; rewrite e (C40_formula N p).2 //; apply: ecurve_pd.
Qed.
(* hence below the chord between any two positive definite matrices *)
Theorem C104_chord (eigh eigh' : eigsolver complex_sf) N p (X : 'M[complex_sf]_(N, p)) (x y : 'M[complex_sf]_p) (t : R) vx vy : eigh_ok eigh -> eigh_ok eigh' ->
  (forall i, row i X != 0) -> pd x -> pd y -> 0 <= t <= 1 -> Tyler_cost_complex eigh X x = Ok vx -> Tyler_cost_complex eigh X y = Ok vy ->
  exists2 v, Tyler_cost_complex eigh X (hexp1 eigh' x (@ofR complex_sf t *: hlog1 eigh' x y)) = Ok v & v <= (1 - t) * vx + t * vy.
Proof.
move=> ok ok' X0 px py ht hx hy; have [f cf ef] := C104_tyler_complex ok ok' X0 px (hlog_herm eigh' x y).
have f0 : f 0 = vx by have := ef 0; rewrite -/(geo eigh' x y 0) geo0 // hx => -[].
have f1 : f 1 = vy by have := ef 1; rewrite -/(geo eigh' x y 1) geo1 // hy => -[].
exists (f t) => //; have := cf t 1 0 ht; rewrite mulr1 mulr0 addr0 f0 f1 addrC; exact.
Qed.
(* on the matrices of determinant 1 as well *)
Theorem C104_special (eigh eigh' : eigsolver complex_sf) N p (X : 'M[complex_sf]_(N, p)) (x u : stack complex_sf p 1) : eigh_ok eigh -> eigh_ok eigh' ->
  (forall i, row i X != 0) -> special x -> tangent x u ->
  exists2 f, convexR f & forall t : R, Tyler_cost_complex eigh X (shpd_exp eigh' x (fun i => @ofR complex_sf t *: u i) ord0) = Ok (f t).
Proof.
move=> ok ok' X0 sx tu; have [px _] := sx ord0; have [hu _] := tu ord0.
have [f cf ef] := C104_tyler_complex ok ok' X0 px hu; exists f => // t; rewrite -ef C52_exp_geodesic //.
by move=> i; have [h e] := tu i; split; [apply: hermZR | rewrite -scalemxAr mxtraceZ e mulr0].
Qed.
(* the scores of the Student estimators are concave functions of the matrix *)
Theorem C104_student_real eigh' psd_other lgamma clog N p df (X : 'M[R]_(N, p)) (S u : 'M[real_sf]_p) x k : eigh_ok eigh' -> 0 < df ->
  rows_of X x -> pd S -> herm u -> (0 < k)%N ->
  exists2 f, convexR f & forall (t : R) c, sh c = [:: p; p] ->
    (forall i j : 'I_p, complex.Re (at_ c [:: nat_of_ord i; nat_of_ord j]) = hexp1 eigh' S (t *: u) i j) ->
    student_score psd_other lgamma clog k c df x = Ok (Some (R2C (- f t))).
Proof.
move=> ok' df0 hx pS hu k0; have [G [w [uG _ _ e]]] := hexp_curve ok' pS hu.
have [c0 h] := rloglik_cost lgamma X df0.
exists (fun t => - c0 + 2%:R^-1 * @stu_cost real_sf df N p X (ecurve G w t)).
  apply: convex_add; first exact: convex_const.
  by apply: convex_scale; [rewrite invr_ge0 ler0n | exact: student_ecurve].
move=> t c sc hc; have pE : pd (ecurve G w t) by exact: ecurve_pd.
rewrite (@C36_score_real psd_other lgamma clog N p df X (ecurve G w t) x c k pE hx sc) => [|i j]; last by rewrite hc [hexp1 _ _ _]e.
by rewrite gtn_eqF // h // opprD opprK.
Qed.
Theorem C104_student_complex eigh' psd_other lgamma clog N p df (X : 'M[complex_sf]_(N, p)) (S u : 'M[complex_sf]_p) x k : eigh_ok eigh' -> 0 < df ->
  has_mx X x -> pd S -> herm u -> (0 < k)%N ->
  exists2 f, convexR f & forall (t : R) c, kd c = KCplx -> has_mx (hexp1 eigh' S (@ofR complex_sf t *: u)) c ->
    complex_student_score psd_other lgamma clog k c df x = Ok (Some (R2C (- f t))).
Proof.
move=> ok' df0 hx pS hu k0; have [G [w [uG _ _ e]]] := hexp_curve ok' pS hu.
have [c0 h] := cloglik_cost lgamma X df0; have a0 : 0 < df / 2%:R by rewrite divr_gt0 // ltr0n.
exists (fun t => - c0 + @stu_cost complex_sf (df / 2%:R) N p X (ecurve G w t)).
  by apply: convex_add; [exact: convex_const | exact: student_ecurve].
move=> t c kc hc; have pE : pd (ecurve G w t) by exact: ecurve_pd.
rewrite e in hc; rewrite (@C36_score_complex psd_other lgamma clog N p df X (ecurve G w t) x c k df0 pE hx kc hc).
by rewrite gtn_eqF // h // opprD opprK.
Qed.
(* The Kronecker products of geodesics are geodesics *)
Theorem C104_kronecker (K : starField) (eigh : eigsolver K) a b (A U : 'M[K]_a) (B V : 'M[K]_b) : eigh_ok eigh -> pd A -> pd B -> herm U -> herm V ->
  hexp1 eigh A U *t hexp1 eigh B V = hexp1 eigh (A *t B) (U *t B + A *t V).
Proof.
move=> ok pA pB hU hV; have [G [w [uG eA eU e]]] := hexp_curve ok pA hU; have [F [v [uF eB eV f]]] := hexp_curve ok pB hV.
have := ecurve_tens G F w v 1; rewrite -e -f !rmorph1 !scale1r => ->.
have uGF := tens_unit uG uF; rewrite -(hexp_ecurve ok _ 1 uGF) rmorph1 scale1r; congr (hexp1 eigh _ _).
  by rewrite eA eB tens_adj -tensmx_mul.
have -> : dia K (\row_k (w 0 (mxtens_unindex k).1 + v 0 (mxtens_unindex k).2)) = dia K w *t 1%:M + 1%:M *t dia K v.
  apply/matrixP => i j; case: (mxtens_indexP i) => i1 i2; case: (mxtens_indexP j) => j1 j2.
  rewrite [RHS]mxE !tensmxE !diaE !mxE !mxtens_indexK (can_eq (@mxtens_indexK _ _)) xpair_eqE rmorphD /=.
  by case: (i1 == j1); case: (i2 == j2); rewrite ?mulr1n ?mulr0n ?mulr1 ?mul1r ?mulr0 ?mul0r ?addr0.
rewrite mulmxDr mulmxDl -!tens_congr !mulmx1 -eA -eB -eU -eV //.
Qed.
(* hence Tyler's cost of a Kronecker product is convex along geodesics of the two factors at once *)
Theorem C104_kronecker_tyler (eigh eigh' : eigsolver complex_sf) N a b (X : 'M[complex_sf]_(N, a * b)) (A U : 'M[complex_sf]_a) (B V : 'M[complex_sf]_b) :
  eigh_ok eigh -> eigh_ok eigh' -> (forall i, row i X != 0) -> pd A -> pd B -> herm U -> herm V ->
  exists2 f, convexR f & forall t : R, Tyler_cost_complex eigh X (hexp1 eigh' A (@ofR complex_sf t *: U) *t hexp1 eigh' B (@ofR complex_sf t *: V)) = Ok (f t).
Proof.
move=> ok ok' X0 pA pB hU hV; have [G [w [uG _ _ e]]] := hexp_curve ok' pA hU; have [F [v [uF _ _ f]]] := hexp_curve ok' pB hV.
have uGF := tens_unit uG uF; set wv := \row_k (w 0 (mxtens_unindex k).1 + v 0 (mxtens_unindex k).2).
exists (fun t => tyler_objective X (ecurve (G *t F) wv t)); first exact: tyler_ecurve.
by move=> t; rewrite e f ecurve_tens (C40_formula N (a * b)).2 //; apply: ecurve_pd.
Qed.
(* ... and so is the cost that KroneckerStudent gives to pymanopt *)
Theorem C104_kronecker_student eigh' psd_other lgamma clog df N a b (X : 'M[complex_sf]_(N, a * b)) x (m : 'cV[complex_sf]_(a * b)) loc
  (A U : 'M[complex_sf]_a) (B V : 'M[complex_sf]_b) : eigh_ok eigh' -> 0 < df -> has_mx X x -> mean_is m loc -> pd A -> pd B -> herm U -> herm V ->
  exists2 f, convexR f & forall t : R,
    kst_cost psd_other lgamma clog x df loc (hexp1 eigh' A (@ofR complex_sf t *: U)) (hexp1 eigh' B (@ofR complex_sf t *: V)) = Ok (R2C (f t)).
Proof.
move=> ok' df0 hX hm pA pB hU hV; have [G [w [uG _ _ e]]] := hexp_curve ok' pA hU; have [F [v [uF _ _ f]]] := hexp_curve ok' pB hV.
have uGF := tens_unit uG uF; set wv := \row_k (w 0 (mxtens_unindex k).1 + v 0 (mxtens_unindex k).2).
exists (fun t => - \sum_i cstudent_spec lgamma df m (ecurve (G *t F) wv t) (samp X i)); last first.
  move=> t; rewrite e f (C58_cost psd_other lgamma clog df0 hX hm) ?ecurve_tens //; exact: ecurve_pd.
apply: (@convex_ext (fun t => \sum_i - cstudent_spec lgamma df m (ecurve (G *t F) wv t) (samp X i))) => [t|]; first by rewrite sumrN.
apply: convex_sum => i; rewrite /cstudent_spec; set k0 := (lgamma _ - lgamma _ - _ : R); set k1 := df / 2%:R + _.
have d2 : 0 < df / 2%:R by rewrite divr_gt0 // ltr0n.
have k10 : 0 <= k1 by rewrite /k1 addr_ge0 ?ler0n // ltW.
apply: (@convex_ext (fun t => (- k0 - k1 * ln (df / 2%:R)) + (ln (@toR complex_sf (\det (ecurve (G *t F) wv t))) +
   k1 * ln (df / 2%:R + maha (ecurve (G *t F) wv t) (samp X i - m))))) => [t|].
  have pE : pd (ecurve (G *t F) wv t) by exact: ecurve_pd.
  have m0 := maha_ge0 (samp X i - m) pE; have s0 : 0 < df / 2%:R + maha (ecurve (G *t F) wv t) (samp X i - m) by rewrite ltr_paddr.
  have -> : ln (1 + 2%:R * maha (ecurve (G *t F) wv t) (samp X i - m) / df) = ln (df / 2%:R + maha (ecurve (G *t F) wv t) (samp X i - m)) - ln (df / 2%:R).
    rewrite -lnD //; congr ln; rewrite [RHS]mulrDl [X in _ = X + _]divff ?gt_eqF //; congr (_ + _).
    by rewrite invf_div mulrA [maha _ _ * _]mulrC.
  rewrite -[complex.Re _]/(@toR complex_sf _); move: (ln _) (ln _) (ln _) => y z y'; rring.
apply: convex_add; first exact: convex_const.
apply: convex_add; first exact: ecurve_ln_det.
by apply: convex_scale => //; apply: ecurve_ln_maha => //; [exact: ltW | left].
Qed.
(* a local minimum of Tyler's cost is a global one; the same for the cost of KroneckerStudent *)
Theorem C104_local_global (eigh eigh' : eigsolver complex_sf) cholesky N p (X : 'M[complex_sf]_(N, p)) (x : 'M[complex_sf]_p) vx (e : R) :
  eigh_ok eigh -> eigh_ok eigh' -> chol_ok cholesky -> (forall i, row i X != 0) -> pd x -> Tyler_cost_complex eigh X x = Ok vx -> 0 < e ->
  (forall (y : 'M[complex_sf]_p) vy, pd y -> hpd_dist eigh' cholesky (fun _ : 'I_1 => x) (fun _ => y) < e -> Tyler_cost_complex eigh X y = Ok vy -> vx <= vy) ->
  forall (y : 'M[complex_sf]_p) vy, pd y -> Tyler_cost_complex eigh X y = Ok vy -> vx <= vy.
Proof.
move=> ok ok' okc X0 px hx e0 loc y vy py hy; have [t [t0 t1 ht]] := geo_near ok' okc px py e0.
have [f cf ef] := C104_tyler_complex ok ok' X0 px (hlog_herm eigh' x y).
have f0 : f 0 = vx by have := ef 0; rewrite -/(geo eigh' x y 0) geo0 // hx => -[].
have f1 : f 1 = vy by have := ef 1; rewrite -/(geo eigh' x y 1) geo1 // hy => -[].
rewrite -f0 -f1; apply: (convex_local cf t0 t1); rewrite f0; apply: (loc _ _ _ ht (ef t)); exact: geo_pd.
Qed.
Theorem C104_kronecker_local_global eigh' cholesky psd_other lgamma clog df N a b (X : 'M[complex_sf]_(N, a * b)) x (m : 'cV[complex_sf]_(a * b)) loc
  (A : 'M[complex_sf]_a) (B : 'M[complex_sf]_b) (v e : R) : eigh_ok eigh' -> chol_ok cholesky -> 0 < df -> has_mx X x -> mean_is m loc -> pd A -> pd B ->
  kst_cost psd_other lgamma clog x df loc A B = Ok (R2C v) -> 0 < e ->
  (forall (A' : 'M[complex_sf]_a) (B' : 'M[complex_sf]_b) v', pd A' -> pd B' -> hpd_dist eigh' cholesky (fun _ : 'I_1 => A) (fun _ => A') < e ->
    hpd_dist eigh' cholesky (fun _ : 'I_1 => B) (fun _ => B') < e -> kst_cost psd_other lgamma clog x df loc A' B' = Ok (R2C v') -> v <= v') ->
  forall (A' : 'M[complex_sf]_a) (B' : 'M[complex_sf]_b) v', pd A' -> pd B' -> kst_cost psd_other lgamma clog x df loc A' B' = Ok (R2C v') -> v <= v'.
Proof.
move=> ok' okc df0 hX hm pA pB hv e0 loc0 A' B' v' pA' pB' hv'.
have [s [s0 s1 hs]] := geo_near_all ok' okc pA pA' e0; have [r [r0 r1 hr]] := geo_near_all ok' okc pB pB' e0.
pose t := Num.min s r; have t0 : 0 < t by rewrite lt_minr s0.
have t1 : t <= 1 by rewrite le_minl s1.
have [f cf ef] := C104_kronecker_student psd_other lgamma clog ok' df0 hX hm pA pB (hlog_herm eigh' A A') (hlog_herm eigh' B B').
have f0 : f 0 = v.
  by have := ef 0; rewrite -/(geo eigh' A A' 0) -/(geo eigh' B B' 0) !geo0 // hv => -[].
have f1 : f 1 = v'.
  by have := ef 1; rewrite -/(geo eigh' A A' 1) -/(geo eigh' B B' 1) !geo1 // hv' => -[].
rewrite -f0 -f1; apply: (convex_local cf t0 t1); rewrite f0.
apply: (loc0 _ _ _ _ _ _ _ (ef t)); try exact: geo_pd.
  by apply: hs; [exact: ltW | rewrite le_minl lexx].
by apply: hr; [exact: ltW | rewrite le_minl lexx orbT].
Qed.
(* samples and matrices that meet the hypotheses, at which the cost of Tyler is not constant along the geodesic *)
Example C104_hypotheses : exists (X : 'M[complex_sf]_(1, 2)) (x u : 'M[complex_sf]_2), [/\ forall i, row i X != 0, pd x, herm u &
  forall eigh eigh', eigh_ok eigh -> eigh_ok eigh' -> exists v w : R, [/\ Tyler_cost_complex eigh X x = Ok v,
    Tyler_cost_complex eigh X (hexp1 eigh' x u) = Ok w & v <> w]].
Proof.
pose X : 'M[complex_sf]_(1, 2) := \row_j (j == 0)%:R; pose w : 'rV[R]_2 := \row_j (j == 0)%:R.
have p1 : pd (1%:M : 'M[complex_sf]_2) by exact: pd1.
have q1 : @sq complex_sf 1 = 1 by rewrite /sq rmorph1 mulr1 toR1.
have q0 : @sq complex_sf 0 = 0 by rewrite /sq mul0r raddf0.
exists X, 1%:M, (dia complex_sf w); split=> //; last 1 first.
- move=> eigh eigh' ok ok'.
  have u1 := pd_unit p1; have e := hexp_ecurve ok' w 1 u1; rewrite adj1 !mulmx1 mul1mx rmorph1 scale1r in e.
  exists 0, (- 1); split; last by apply/eqP; rewrite eq_sym oppr_eq0 oner_eq0.
    rewrite (C40_formula 1 2).2 // big_ord1 det1 toR1 ln1 mulr0 addr0 maha1 !big_ord_recl big_ord0 !mxE /=.
    by rewrite q1 q0 !addr0 ln1 mulr0.
  have pE := ecurve_pd w u1 1; rewrite e (C40_formula 1 2).2 // big_ord1 ecurve_maha //.
  rewrite invmx1 mul1mx /ecurve adj1 mulmx1 mul1mx.
  have -> : ln (@toR complex_sf (\det (dia complex_sf (\row_j Rtrigo_def.exp (1 * w 0 j))))) = 1.
    have := @det_simdiag complex_sf 2 1%:M (\row_j Rtrigo_def.exp (1 * w 0 j)) u1 (dexp_gt0 w 1).
    rewrite adj1 !mulmx1 mul1mx det1 toR1 ln1 add0r => ->.
    by rewrite !big_ord_recl big_ord0 !mxE /= !mul1r !ln_exp !addr0.
  rewrite !big_ord_recl big_ord0 !mxE /= q1 q0 !mul0r !mul1r !addr0 ln_exp; congr Ok; by rewrite mulr1n mulrN mulr1 mulr2n opprD subrK.
- by move=> i; apply/eqP => /rowP /(_ 0) /eqP; rewrite !mxE oner_eq0.
exact: adj_dia.
Qed.
End C104.

Print Assumptions C104_tyler_real.
Print Assumptions C104_tyler_complex.
Print Assumptions C104_chord.
Print Assumptions C104_special.
Print Assumptions C104_student_real.
Print Assumptions C104_student_complex.
Print Assumptions C104_kronecker.
Print Assumptions C104_kronecker_tyler.
Print Assumptions C104_kronecker_student.
Print Assumptions C104_local_global.
Print Assumptions C104_kronecker_local_global.
Print Assumptions C104_hypotheses.
