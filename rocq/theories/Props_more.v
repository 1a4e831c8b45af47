(* Theorems found missing when the others were tested against wrong programs: what the wrapper of FeaturesEstimation does with
   features that are not arrays (C27), the estimator objects (C13, C42), random points, dimensions and distances of the
   manifolds (C47, C48, C53, C54). *)
From Coq Require Import Reals String ZArith.
From mathcomp Require Import all_ssreflect all_algebra.
From mathcomp Require Import complex zify.
From Verif Require Import RealsMC RealTac RealTac2 Star StarInst FunCalc Model_featurearray Spec_featurearray Model_linalg Proofs_linalg NpArray
  Proofs_numpy Model_covariance Spec_covariance Proofs_cost Props_cost Model_manifolds Proofs_hpd Props_spv Props_hpd Props_shpd Props_product Props_dim
  Model_sklearn Model_objects Proofs_objects Props_objects Model_featest Props_featest.
Set Implicit Arguments.
Unset Strict Implicit.
Unset Printing Implicit Defensive.
Local Open Scope ring_scope.
Import GRing.Theory Num.Theory Order.TTheory.
Local Notation sqrt := R_sqrt.sqrt.

(* ------------------------------------------------------------------ C27 *)
Section C27.
Local Open Scope nat_scope.
Variables (V : Type) (zero : V) (dty : eqType) (S T : Type).
Variable fit_transform : S -> T -> S * res (fval V dty).
(* an estimator that returns one number per trial: items of shape (1,) *)
Theorem C27_scalar_features workers s h X (t : dty) (F : T -> V) : 0 < size X ->
  (forall s x, (fit_transform s x).2 = Ok (FScalar t (F x))) ->
  exists s' h' f, [/\ transform zero fit_transform workers s h X = (s', h', Ok f), fa_len f = size X &
    observe zero h' f = Some (expected [:: [:: 1]] [seq (1, [:: [:: F x]]) | x <- X])].
Proof.
move=> X0 ft; apply: (@C27_any_n_jobs V zero dty S T fit_transform workers s h X [:: [:: 1]] [:: t] (fun x => [:: Aval t [:: 1] [:: F x]])) => //.
  by move=> s1 x; exists (FScalar t (F x)).
by move=> x _; split=> // a /= [<-|//]; rewrite /aval_ok /= big_cons big_nil.
Qed.
(* if what is returned for one trial is neither a number nor arrays, transform raises *)
Theorem C27_other_features workers s h X : List.In (Ok (@FOther V dty)) (values fit_transform workers s X) ->
  exists e, (transform zero fit_transform workers s h X).2 = Err e.
Proof.
have H : List.In (Ok (@FOther V dty)) (values fit_transform workers s X) ->
  exists e, (estimates zero fit_transform workers s h X).2 = Err e.
  elim: X s h => [//|x X IH] s1 h1 /=; case: (fit_transform s1 x) => s2 [f|e] /=; last by eauto.
  move=> [[->]|/IH hX]; first by rewrite /wrap /=; eauto.
  case: (wrap zero h1 f) => h2 [g|e] /=; last by eauto.
  have [e] := hX h2; case: (estimates _ _ _ _ _ _) => -[s3 h3] [gs|e'] //= _; by eauto.
by move=> /H [e]; rewrite /transform; case: (estimates _ _ _ _ _ _) => -[s3 h3] [gs|e'] //= _; exists e'.
Qed.
(* an exception raised while estimating one trial is not swallowed either *)
Theorem C27_exceptions workers s h X e : List.In (Err e) (values fit_transform workers s X) ->
  exists e', (transform zero fit_transform workers s h X).2 = Err e'.
Proof.
have H : List.In (Err e) (values fit_transform workers s X) ->
  exists e, (estimates zero fit_transform workers s h X).2 = Err e.
  elim: X s h => [//|x X IH] s1 h1 /=; case: (fit_transform s1 x) => s2 [f|e1] /=; last by eauto.
  move=> [//|/IH hX]; case: (wrap zero h1 f) => h2 [g|e1] /=; last by eauto.
  have [e1] := hX h2; case: (estimates _ _ _ _ _ _) => -[s3 h3] [gs|e'] //= _; by eauto.
by move=> /H [e1]; rewrite /transform; case: (estimates _ _ _ _ _ _) => -[s3 h3] [gs|e'] //= _; exists e'.
Qed.
End C27.
Example C27_other_ex : let ft := fun (_ : unit) (x : nat) => (tt, Ok (if x == 1%N then FOther nat nat_eqType else FScalar (0%N : nat_eqType) x)) in
  List.In (Ok (FOther nat nat_eqType)) (values ft false tt [:: 0%N; 1%N; 2%N]).
Proof. by right; left. Qed.

(* ------------------------------------------------------------------ C42 *)
(* a method that is neither 'fixed-point' nor 'natural gradient' is refused, by the constructor and by set_method *)
Definition known_method (s : string) : Prop := s = "fixed-point"%string \/ s = "natural gradient"%string.
Theorem C42_unknown_method h c tol me m nrm : is_tyler c ->
  ((new h c tol me m nrm).2 = Ok tt <-> known_method me) /\
  (forall a, (set_method h a).2 = Ok tt <-> known_method (o_method (get h a))) /\
  (~ known_method me -> (new h c tol me m nrm).2 = Err NotImplementedErr) /\
  (forall a, ~ known_method (o_method (get h a)) -> set_method h a = (h, Err NotImplementedErr)).
Proof.
have M s : reflect (known_method s) ((s =? "fixed-point")%string || (s =? "natural gradient")%string).
  apply: (iffP orP); rewrite /known_method => -[/eqb_spec|/eqb_spec]; by [left|right|case: eqb_spec].
move=> ty; rewrite /new ty /set_method.
have -> : get (rcons h (blank c tol me m nrm)) (size h) = blank c tol me m nrm by rewrite /get nth_rcons ltnn eqxx.
rewrite /=; split; last split; last split.
- by case: M.
- by move=> a; case: M.
- by case: M.
- by move=> a; case: M.
Qed.

(* ------------------------------------------------------------------ C13 *)
(* ComplexEmpiricalCovariance on complex data of N samples: location_ is 0 or the mean, covariance_ the mean of the
   (x_i - location_)(x_i - location_)^H, and transform() returns it *)
Lemma checked_cov_mx b p (A : 'M[C]_p.+1) : exists c, checked_cov (CEmp b) (of_mx KCplx A) = Ok c /\ same c (of_mx KCplx A).
Proof. exact: (@C14_complex_matrix_stored (CEmp b) (of_mx KCplx A) p). Qed.
Theorem C13_fit eigR eigC ppf cdf pinvh natgrad other h a b X N p : (forall c, exists P, pinvh c = Ok P) ->
  o_cls (get h a) = CEmp b -> kd X = KCplx -> sh X = [:: N.+1; p.+1] ->
  let x i j : C := at_ X [:: i; j] in
  let h' := fit eigR eigC ppf cdf pinvh natgrad other h a X None in
  exists c l, [/\ h'.2 = Ok tt, o_location (get h'.1 a) = Some l, Model_objects.transform (get h'.1 a) = Ok c,
    sh l = [:: p.+1] /\ forall j, (j <= p)%N -> at_ l [:: j] = if b then 0 else N.+1%:R^-1 * \sum_(i < N.+1) x i j &
    sh c = [:: p.+1; p.+1] /\ forall j k, (j <= p)%N -> (k <= p)%N -> at_ c [:: j; k] =
      N.+1%:R^-1 * \sum_(i < N.+1) (x i j - at_ l [:: j]) * conjc (x i k - at_ l [:: k])].
Proof.
move=> hp ec k s x /=; have [Xv [n [ev sm]]] := @C15_complex_data (CEmp b) X N p isT k s.
have [_ sv hv] := sm; rewrite s in sv.
have vx i j : (i <= N)%N -> (j <= p)%N -> at_ Xv [:: i; j] = x i j.
  by move=> hi hj; apply: hv; rewrite sv !inb_cons inb_nil !ltnS hi hj.
rewrite /fit ec.
have ecn : o_cls (note_nfeat (get h a) X) = CEmp b by rewrite /note_nfeat; case: (validate_nfeat _ _).
rewrite ecn ev.
have cE : cemp_cov b Xv = of_mx KCplx (complex_empirical_covariance (to_mx N.+1 p.+1 Xv : 'M[complex_sf]_(N.+1, p.+1)) b).
  by rewrite /cemp_cov sv.
have [c [e1 [kc sc hc]]] := checked_cov_mx b (complex_empirical_covariance (to_mx N.+1 p.+1 Xv : 'M[complex_sf]_(N.+1, p.+1)) b).
have lE j : (j <= p)%N -> at_ (cemp_loc b Xv) [:: j] = if b then 0 else N.+1%:R^-1 * \sum_(i < N.+1) x i j.
  move=> jp; rewrite /cemp_loc sv [nth _ _ 0]/= [nth _ _ 1]/=; case: (b) => //.
  rewrite (at_of_cv KCplx _ (Ordinal (jp : (j < p.+1)%N))) mxE; congr (_ * _).
  by apply: eq_bigr => i _; rewrite /= vx // -ltnS.
have cenE j (jp : (j < p.+1)%N) : centre b (to_mx N.+1 p.+1 Xv : 'M[complex_sf]_(N.+1, p.+1)) (Ordinal jp) 0 = at_ (cemp_loc b Xv) [:: j].
  rewrite lE // /centre; case: (b); rewrite ?mxE // summxE; congr (_ * _); apply: eq_bigr => i _.
  by rewrite !mxE /= vx // -ltnS.
exists c, (cemp_loc b Xv).
set o := with_loc _ _; have sP : exists2 o', set_covariance pinvh o (cemp_cov b Xv) = (o', Ok tt) & o_covariance o' = Some c /\ o_location o' = o_location o.
  rewrite /set_covariance /o /= ecn cE e1; have [P ->] := hp c; case: ifP => _; by eexists; [reflexivity|].
have [o' -> [oc ol]] := sP; rewrite get_put_same; split=> //; first by rewrite /Model_objects.transform oc.
  by split; [rewrite /cemp_loc sv; case: (b)|exact: lE].
rewrite sc; split=> // j l jp lp; rewrite hc; last by rewrite sc !inb_cons inb_nil !ltnS jp lp.
rewrite (at_of_mx KCplx _ (Ordinal (jp : (j < p.+1)%N)) (Ordinal (lp : (l < p.+1)%N))) C13_formula.
have xE (i : 'I_N.+1) q (qp : (q < p.+1)%N) : (samp (to_mx N.+1 p.+1 Xv : 'M[complex_sf]_(N.+1, p.+1)) i -
    centre b (to_mx N.+1 p.+1 Xv : 'M[complex_sf]_(N.+1, p.+1))) (Ordinal qp) 0 = x i q - at_ (cemp_loc b Xv) [:: q].
  rewrite mxE [in X in _ + X]mxE cenE; congr (_ - _); rewrite !mxE; apply: vx => //; by rewrite -ltnS.
rewrite mxE summxE; congr (_ * _); apply: eq_bigr => i _.
by rewrite outerE (xE i j jp) (xE i l lp).
Qed.
Example C13_fit_ex b : o_cls (get (new [::] (CEmp b) PInf "" 0 "None").1 0) = CEmp b /\
  kd (np_zeros KCplx [:: 3%N; 2%N]) = KCplx /\ (forall c : arr, exists P, (fun c => Ok c) c = Ok P :> res arr).
Proof. by split=> //; split=> // c; exists c. Qed.

(* ------------------------------------------------------------------ C47, C48, C54: random points, dimension *)
(* the entries of a random point are in [10^-6, 1) *)
Theorem C47_rand n k (r : 'M[R]_(n, k)) : (forall i j, 0 <= r i j < 1) ->
  positive (spv_rand r) /\ forall i j, 10%:R ^- 6 <= spv_rand r i j < 1.
Proof.
have e0 : 0 < 10%:R ^- 6 :> R by rewrite invr_gt0 exprn_gt0 // ltr0n.
have e1 : 10%:R ^- 6 < 1 :> R by rewrite invf_lt1 ?exprn_gt0 ?ltr0n // exprn_egt1 // (ltr_nat _ 1 10).
move=> r01; have H i j : 10%:R ^- 6 <= spv_rand r i j < 1.
  rewrite mxE; have /andP [r0 r1] := r01 i j.
  rewrite ler_addl mulr_ge0 ?subr_ge0 ?(ltW e1) //=.
  rewrite -ltr_subr_addl -[X in _ < X]mulr1 ltr_pmul2l // subr_gt0 //.
by split=> // i j; have /andP [h _] := H i j; apply: lt_le_trans h.
Qed.
Theorem C48_rand (K : starField) n k (r : 'I_k -> 'rV[R]_n) (u : stack K n k) :
  (forall i j, 0 <= r i 0 j) -> (forall i, unitary (u i)) -> all_pd (hpd_rand r u).
Proof.
move=> r0 uu i; rewrite /hpd_rand /hrand1 mulmxA multihconjE diagfE.
apply: pd_congr; first exact: unitary_unit.
by apply: pd_dia => j; rewrite mxE; apply: ltr_paddr; [exact: r0|exact: ltr01].
Qed.
(* tangent vectors are all the (n, k) arrays *)
Theorem C54_positive_vectors_dimension n k : spv_dim n k = \dim (fullv : {vspace 'M[R]_(n, k)}).
Proof. by rewrite dimvf /Vector.dim /= mulnC. Qed.

(* ------------------------------------------------------------------ C53: the product distance *)
Section C53.
Variables (p : nat) (M : 'I_p -> manifold) (w : 'I_p -> R).
Hypothesis w0 : forall i, 0 < w i.
Implicit Types (X Y Z : ppt M) (G : ptv M).
Lemma wE X Y : wp_dist w X Y = sqrt (\sum_i (sqrt (w i) * m_dist (X i) (Y i)) ^+ 2).
Proof. by congr sqrt; apply: eq_bigr => i _; rewrite exprMn sqrtR_sqr' // ltW. Qed.
(* the distance of the weighted inner product: if G_i is a tangent vector of length the distance from X_i to Y_i (the
   logarithm), then the product distance is the length of G *)
Theorem C53_distance X Y G : (forall i, m_dist (X i) (Y i) ^+ 2 = m_inner (X i) (G i) (G i)) -> wp_dist w X Y = wp_norm w X G.
Proof. by move=> h; congr sqrt; apply: eq_bigr => i _; rewrite h. Qed.
(* a metric if the distances of the factors are *)
Theorem C53_metric (pt : forall i, m_pt (M i) -> Prop) :
  (forall i x y, pt i x -> pt i y -> 0 <= m_dist x y /\ m_dist x y = m_dist y x) ->
  (forall i x y, pt i x -> pt i y -> (m_dist x y = 0 <-> x = y)) ->
  (forall i x y z, pt i x -> pt i y -> pt i z -> m_dist x z <= m_dist x y + m_dist y z) ->
  forall X Y Z, (forall i, pt i (X i)) -> (forall i, pt i (Y i)) -> (forall i, pt i (Z i)) ->
  [/\ 0 <= wp_dist w X Y, wp_dist w X Y = wp_dist w Y X, wp_dist w X Y = 0 <-> (forall i, X i = Y i) &
      wp_dist w X Z <= wp_dist w X Y + wp_dist w Y Z].
Proof.
move=> h1 h2 h3 X Y Z pX pY pZ; have s0 i : 0 <= sqrt (w i) := sqrtR_ge0 _.
split; first exact: sqrtR_ge0.
- by congr sqrt; apply: eq_bigr => i _; have [_ ->] := h1 i _ _ (pX i) (pY i).
- rewrite wE; split=> [/eqP|e].
    rewrite sqrtR_eq0 ?sumsq_ge0 // => /eqP/sumsq_eq0 e i; apply/(h2 _ _ _ (pX i) (pY i)).
    by have /eqP := e i; rewrite mulf_eq0 sqrtR_eq0 ?(ltW (w0 i)) // gt_eqF //= => /eqP.
  apply/eqP; rewrite sqrtR_eq0 ?sumsq_ge0 //; apply/eqP; apply: big1 => i _.
  by have [_ ->] := h2 i _ _ (pX i) (pY i); rewrite ?mulr0 ?expr0n //.
rewrite !wE; apply: le_trans (norm_triangle _ _); apply: sqrtR_mono; apply: ler_sum => i _.
have [d0 _] := h1 i _ _ (pX i) (pZ i); have [d1 _] := h1 i _ _ (pX i) (pY i); have [d2 _] := h1 i _ _ (pY i) (pZ i).
rewrite -mulrDr ler_pexpn2r // ?nnegrE ?mulr_ge0 ?addr_ge0 //; apply: ler_wpmul2l => //; exact: h3.
Qed.
End C53.
(* the library's manifolds are such factors *)
Theorem C53_positive_vectors_distance n (x y : m_pt (spv_man n)) : positive (x : 'M[R]_(n, 1)) -> positive (y : 'M[R]_(n, 1)) ->
  m_dist x y ^+ 2 = m_inner x (spv_log x y : m_tv (spv_man n)) (spv_log x y).
Proof.
move=> px py; rewrite /= (C47_dist_is_norm_of_log px py) mxE sqrtR_sqr' //.
by have [_ _ + _] := C47_inner_product (spv_log x y) 0 0 0 0 px.
Qed.
Theorem C53_positive_vectors_metric n (x y z : m_pt (spv_man n)) : positive (x : 'M[R]_(n, 1)) -> positive (y : 'M[R]_(n, 1)) ->
  [/\ 0 <= m_dist x y, m_dist x y = m_dist y x, m_dist x y = 0 <-> x = y & m_dist x z <= m_dist x y + m_dist y z].
Proof.
move=> px py; split=> /=.
- exact: C47_dist_nonnegative.
- by rewrite C47_dist_symmetric.
- rewrite -(C47_dist_separates px py); split=> [e|->]; rewrite ?mxE //.
  by apply/matrixP => i j; rewrite (ord1 i) (ord1 j) e mxE.
- exact: C47_dist_triangle.
Qed.

Print Assumptions C27_scalar_features.
Print Assumptions C27_other_features.
Print Assumptions C27_exceptions.
Print Assumptions C42_unknown_method.
Print Assumptions C13_fit.
Print Assumptions C47_rand.
Print Assumptions C48_rand.
Print Assumptions C54_positive_vectors_dimension.
Print Assumptions C53_distance.
Print Assumptions C53_metric.
Print Assumptions C53_positive_vectors_distance.
Print Assumptions C53_positive_vectors_metric.
