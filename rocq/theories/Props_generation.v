(* C64, C75, C76: synthetic covariance generators, frames, textures and samplers. *)
From Coq Require Import Reals.
From mathcomp Require Import all_ssreflect all_algebra.
From mathcomp Require Import complex.
From Verif Require Import RealsMC Star StarInst FunCalc Model_featurearray Model_linalg Model_covariance Proofs_linalg Props_linalg Model_generation Spec_generation Proofs_generation.
Set Implicit Arguments.
Unset Strict Implicit.
Unset Printing Implicit Defensive.
Local Open Scope ring_scope.
Import GRing.Theory Num.Theory Order.TTheory.

(* ---- C75: frames and sizes ---- *)
(* the frames have orthonormal columns, whatever k *)
Theorem C75_stiefel_orthonormal (K : starField) p k (Q : 'M[K]_p) X : unitary Q ->
  generate_stiefel k Q = Ok X -> X^H *m X = 1%:M /\ forall i j, exists j', X i j = Q i j' /\ j' = j :> nat.
Proof.
rewrite /generate_stiefel /group_rvs; case: ifP => // _ uQ [] <-; split; first exact: cols_orth.
by move=> i j; exists (widen_ord (geq_minr k p) j); rewrite mxE.
Qed.
(* a frame with k > p columns is never returned: the width is min(k, p), without an error *)
Theorem C75_stiefel_total (K : starField) p k (Q : 'M[K]_p) : (1 < p)%N -> exists X, generate_stiefel k Q = Ok X.
Proof. by move=> h; rewrite /generate_stiefel /group_rvs leqNgt h /=; eexists. Qed.
(* one-dimensional data cannot be generated *)
Theorem C75_size_one_raises p (Q : 'M[real_sf]_p) (P : 'M[complex_sf]_p) u b k : (p <= 1)%N ->
  [/\ generate_stiefel k Q = Err ValueErr, generate_stiefel k P = Err ValueErr,
      generate_covariance u Q b = Err ValueErr & generate_complex_covariance u P b = Err ValueErr].
Proof.
by move=> h; rewrite /generate_covariance /generate_complex_covariance /generate_stiefel /group_rvs h.
Qed.

(* ---- C64: covariances ---- *)
Lemma gen_realE p (u : 'rV[R]_p) (Q : 'M[real_sf]_p) b : (1 < p)%N ->
  generate_covariance u Q b = Ok (normalise (assemble (map_mx (fun x => x ^+ 2) u) Q) b).
Proof.
by move=> h; rewrite /generate_covariance /generate_stiefel /group_rvs leqNgt h /= cast_cols.
Qed.
Lemma gen_complexE p (u : 'rV[R]_p) (Q : 'M[complex_sf]_p) b : (1 < p)%N ->
  generate_complex_covariance u Q b = Ok (normalise (assemble (map_mx (fun x => 1 + x) u) Q) b).
Proof.
by move=> h; rewrite /generate_complex_covariance /generate_stiefel /group_rvs leqNgt h /= cast_cols.
Qed.

(* generate_covariance: symmetric positive semi-definite with eigenvalues the squared draws, all in
   [0, 1); positive definite exactly when no draw is 0 *)
Theorem C64_generate_covariance_partial p (u : 'rV[R]_p) (Q : 'M[real_sf]_p) : (1 < p)%N -> unitary Q ->
  (forall j, 0 <= u 0 j < 1) ->
  exists S, [/\ generate_covariance u Q false = Ok (Some S), psd S,
    forall r, eigval S r <-> exists j, r = u 0 j ^+ 2,
    forall r, eigval S r -> 0 <= r < 1 &
    pd S <-> forall j, u 0 j != 0].
Proof.
move=> p1 uQ u01; rewrite gen_realE //; eexists; split; [by [] | | | |].
- by apply: psd_assemble => j; rewrite mxE sqr_ge0.
- by move=> r; rewrite eigval_assemble //; split=> -[j ->]; exists j; rewrite mxE.
- move=> r /eigval_assemble [] // j ->; rewrite mxE sqr_ge0 /=.
  by have /andP [h0 h1] := u01 j; rewrite expr_lt1.
split=> h.
  move=> j; have e : eigval (assemble (map_mx (fun x => x ^+ 2) u) Q) (u 0 j ^+ 2).
    by rewrite eigval_assemble //; exists j; rewrite mxE.
  by have := eigval_gt0 h e; rewrite lt_neqAle => /andP [] /eqP h' _; apply/eqP => hu; apply: h'; rewrite hu expr0n.
by apply: pd_assemble => // j; rewrite mxE lt_neqAle sqr_ge0 eq_sym expf_eq0 h.
Qed.

(* with unit_det, when no draw is 0: a positive definite matrix of determinant 1, a positive multiple of
   the matrix returned without unit_det.  When some draw is 0, an array of nan/inf *)
Theorem C64_generate_covariance_unit_det_partial p (u : 'rV[R]_p) (Q : 'M[real_sf]_p) : (1 < p)%N -> unitary Q ->
  (forall j, u 0 j != 0) ->
  exists S T : 'M[real_sf]_p, exists2 c : R, 0 < c & [/\ generate_covariance u Q true = Ok (Some S),
    generate_covariance u Q false = Ok (Some T), pd S, \det S = 1 & S = c *: T].
Proof.
move=> p1 uQ u0; rewrite !gen_realE //.
have d0 j : 0 < (map_mx (fun x : R => x ^+ 2) u) 0 j.
  by rewrite mxE lt_neqAle sqr_ge0 eq_sym expf_eq0 u0.
have [c c0 [-> dt]] := normalise_pd (ltnW p1) uQ d0.
eexists; eexists; exists c => //; split=> //.
by apply: pdZ; [exact: c0 | exact: pd_assemble].
Qed.
Theorem C64_generate_covariance_zero_draw p (u : 'rV[R]_p) (Q : 'M[real_sf]_p) j : (1 < p)%N -> unitary Q ->
  u 0 j = 0 -> generate_covariance u Q true = Ok None /\
  exists2 S, generate_covariance u Q false = Ok (Some S) & \det S = 0.
Proof.
move=> p1 uQ uj; rewrite !gen_realE //.
have e : \det (assemble (map_mx (fun x : R => x ^+ 2) u) Q) = 0.
  by rewrite det_assemble // (bigD1 j) //= mxE uj expr0n mul0r.
split; last by eexists.
by rewrite /normalise e raddf0 /fpow eqxx /fdivmx eqxx.
Qed.
(* hence "the generated covariance is non-singular, of determinant one when asked" fails on an outcome
   random.rand can produce (it draws from [0, 1)) *)
Definition u_bad : 'rV[R]_2 := \row_j (if j == 0 then 0 else 1 / 2%:R).
Theorem C64_generate_covariance_nonsingular_refuted :
  ~ (forall p (u : 'rV[R]_p) (Q : 'M[real_sf]_p), (1 < p)%N -> unitary Q -> (forall j, 0 <= u 0 j < 1) ->
     exists2 S, generate_covariance u Q false = Ok (Some S) & \det S != 0) /\
  ~ (forall p (u : 'rV[R]_p) (Q : 'M[real_sf]_p), (1 < p)%N -> unitary Q -> (forall j, 0 <= u 0 j < 1) ->
     exists2 S, generate_covariance u Q true = Ok (Some S) & \det S = 1).
Proof.
have u1 : unitary (1%:M : 'M[real_sf]_2) by rewrite /unitary adj1 mulmx1.
have ub j : 0 <= u_bad 0 j < 1.
  rewrite mxE; case: ifP => _; first by rewrite lexx ltr01.
  by rewrite divr_ge0 ?ler01 ?ler0n //= ltr_pdivr_mulr ?ltr0n // mul1r ltr1n.
have uj : u_bad 0 0 = 0 by rewrite mxE.
have [e1 [T e2 dT]] := C64_generate_covariance_zero_draw (isT : (1 < 2)%N) u1 uj.
split=> h; have [S] := h 2%N u_bad 1%:M isT u1 ub.
  by rewrite e2 => -[] <-; rewrite dT eqxx.
by rewrite e1.
Qed.

(* generate_complex_covariance: always Hermitian positive definite, with eigenvalues 1 + draws in [1, 2) *)
Theorem C64_generate_complex_covariance p (u : 'rV[R]_p) (Q : 'M[complex_sf]_p) : (1 < p)%N -> unitary Q ->
  (forall j, 0 <= u 0 j < 1) ->
  exists S, [/\ generate_complex_covariance u Q false = Ok (Some S), pd S,
    forall r, eigval S r <-> exists j, r = 1 + u 0 j &
    forall r, eigval S r -> 1 <= r < 2%:R].
Proof.
move=> p1 uQ u01; rewrite gen_complexE //; eexists; split; [by [] | | |].
- apply: pd_assemble => // j; rewrite mxE; apply: lt_le_trans; first exact: ltr01.
  by have /andP [h _] := u01 j; rewrite ler_addl.
- by move=> r; rewrite eigval_assemble //; split=> -[j ->]; exists j; rewrite mxE.
move=> r /eigval_assemble [] // j ->; rewrite mxE; have /andP [h0 h1] := u01 j.
by rewrite ler_addl h0 -[2%:R]/(1 + 1) ltr_add2l.
Qed.
Theorem C64_generate_complex_covariance_unit_det p (u : 'rV[R]_p) (Q : 'M[complex_sf]_p) : (1 < p)%N -> unitary Q ->
  (forall j, 0 <= u 0 j < 1) ->
  exists S T : 'M[complex_sf]_p, exists2 c : R, 0 < c &
    [/\ generate_complex_covariance u Q true = Ok (Some S),
        generate_complex_covariance u Q false = Ok (Some T), pd S, \det S = 1 &
        S = @ofR complex_sf c *: T].
Proof.
move=> p1 uQ u01; rewrite !gen_complexE //.
have d0 j : 0 < (map_mx (fun x : R => 1 + x) u) 0 j.
  rewrite mxE; apply: lt_le_trans; first exact: ltr01.
  by have /andP [h _] := u01 j; rewrite ler_addl.
have [c c0 [-> dt]] := normalise_pd (ltnW p1) uQ d0.
eexists; eexists; exists c => //; split=> //.
apply: pdZ; last exact: pd_assemble.
by rewrite lt_neqAle ofR_ge0 (ltW c0) andbT eq_sym fmorph_eq0 (gt_eqF c0).
Qed.

(* ---- C64: samplers ---- *)
Section Samplers.
Variables (eighR : eigsolver real_sf) (eighC : eigsolver complex_sf).
Hypotheses (okR : eigh_ok eighR) (okC : eigh_ok eighC).

Lemma sqrt_cols (K : starField) (eigh : eigsolver K) Om (L : law K Om) p N (Sg : 'M[K]_p) (Z : Om -> 'M[K]_(p, N)) :
  eigh_ok eigh -> psd Sg -> columns_are L Z (fun=> 1%:M) ->
  columns_are L (fun o => sqrtm eigh Sg *m Z o) (fun=> Sg).
Proof.
move=> ok pS hZ; apply: columns_eq (columns_mul (sqrtm eigh Sg) hZ) => j.
rewrite mulmx1; have [hs _] := sqrtm_psd ok pS; rewrite hs; exact: sqrtm_sqr.
Qed.

(* A dtype other than the expected one is an AssertionError *)
Theorem C64_wrong_dtype p N (cov : array2 p p) (tau : 'cV[R]_N) (Z A B : 'M[real_sf]_(p, N)) :
  [/\ ((exists S, cov = Float64 S) \/ sample_normal_distribution eighR cov Z = Err AssertionErr),
      ((exists S, cov = Float64 S) \/ sample_compound_distribution eighR tau cov Z = Err AssertionErr),
      ((exists S, cov = Complex128 S) \/ sample_complex_normal_distribution eighC cov A B = Err AssertionErr) &
      ((exists S, cov = Complex128 S) \/ sample_complex_compound_distribution eighC tau cov A B = Err AssertionErr)].
Proof. by case: cov => [S|S|]; split; try (by right); left; exists S. Qed.

(* float samples: whatever law the draws have, if they are white then the samples are centred,
   uncorrelated, with covariance tau_j cov *)
Theorem C64_normal_samples Om (L : law real_sf Om) p N (cov : 'M[real_sf]_p) (Z : Om -> 'M[real_sf]_(p, N)) :
  psd cov -> columns_are L Z (fun=> 1%:M) ->
  exists2 X, (forall o, sample_normal_distribution eighR (Float64 cov) (Z o) = Ok (X o)) &
    columns_are L X (fun=> cov).
Proof. by move=> pS hZ; eexists=> [o|]; [by [] | exact: sqrt_cols]. Qed.
Theorem C64_compound_samples Om (L : law real_sf Om) p N (tau : 'cV[R]_N) (cov : 'M[real_sf]_p)
    (Z : Om -> 'M[real_sf]_(p, N)) :
  psd cov -> (forall j, 0 <= tau j 0) -> columns_are L Z (fun=> 1%:M) ->
  exists2 X, (forall o, sample_compound_distribution eighR tau (Float64 cov) (Z o) = Ok (X o)) &
    columns_are L X (fun j => tau j 0 *: cov).
Proof.
move=> pS t0 hZ; eexists=> [o|]; first by [].
exact: (columns_texture t0 (sqrt_cols okR pS hZ)).
Qed.
Lemma sqrtm1 (K : starField) (eigh : eigsolver K) n : eigh_ok eigh -> sqrtm eigh (1%:M : 'M[K]_n) = 1%:M.
Proof.
move=> ok; have p1 := pd_psd (@pd1 K n); have [_ h] := C61_square_roots (1%:M : 'M[K]_n) ok.
have [h1 _] := C61_square_roots (1%:M : 'M[K]_n) ok; have [_ _ uq] := h1 p1.
by rewrite -(uq _ p1) // mulmx1.
Qed.
Theorem C64_tau_UUH_samples Om (L : law real_sf Om) p k N (tau : 'cV[R]_N) (U : 'M[real_sf]_(p, k))
    (Zk : Om -> 'M[real_sf]_(k, N)) (Zp : Om -> 'M[real_sf]_(p, N)) :
  (forall j, 0 <= tau j 0) -> columns_are L Zk (fun=> 1%:M) -> columns_are L Zp (fun=> 1%:M) ->
  uncorrelated L Zk Zp ->
  exists2 X, (forall o, sample_tau_UUH_distribution eighR tau (Float64 U) (Zk o) (Zp o) = Ok (X o)) &
    columns_are L X (fun j => tau j 0 *: (U *m U^T) + 1%:M).
Proof.
move=> t0 hk hp u; exists (fun o => texture tau (U *m Zk o) + Zp o).
  by move=> o; rewrite /sample_tau_UUH_distribution /= !sqrtm1 // !mul1mx.
have h1 := columns_texture t0 (columns_mul U hk).
have u1 : uncorrelated L (fun o => texture tau (U *m Zk o)) Zp.
  apply: uncorrelated_texture; have := uncorrelated_mul U 1%:M u.
  by apply: uncorrelated_ext => o; rewrite ?mul1mx.
apply: columns_eq (columns_add h1 hp u1) => j /=; congr (_ *: _ + _).
rewrite mulmx1; congr (_ *m _); by apply/matrixP => i l; rewrite !mxE.
Qed.

(* complex samples *)
Definition cplx m n (A : 'M[real_sf]_(m, n)) : 'M[complex_sf]_(m, n) := map_mx (@ofR complex_sf) A.

Lemma cplx_real m n (A : 'M[real_sf]_(m, n)) : map_mx (@cj complex_sf) (cplx A) = cplx A.
Proof. by apply/matrixP => i j; rewrite !mxE cj_ofR. Qed.

Definition imI : complex_sf := ('i%C : C).
Lemma imI_cj : @cj complex_sf imI = - imI.
Proof. by apply: (congr1 (fun t : C => t)); rewrite /imI; congr Complex; rewrite /= oppr0. Qed.
Lemma imI_sq : imI * imI = -1 :> complex_sf. Proof. by have := sqr_i R_rcfType; rewrite expr2. Qed.

Lemma std_complexE p N (A B : 'M[real_sf]_(p, N)) : sample_complex_standard_normal A B =
  @ofR complex_sf (1 / R_sqrt.sqrt 2%:R) *: (cplx A + imI *: cplx B).
Proof. by rewrite /sample_complex_standard_normal; congr (_ *: _); apply/matrixP => i j; rewrite !mxE. Qed.

Lemma half_sq (K : starField) : @ofR K (1 / R_sqrt.sqrt 2%:R) * @ofR K (1 / R_sqrt.sqrt 2%:R) = 2%:R^-1.
Proof.
rewrite -rmorphM -(ofR_nat K 2) -fmorphV; congr (ofR _ _).
rewrite mul1r -invfM; congr (_^-1).
by apply: (R_sqrt.sqrt_sqrt 2%:R); apply/RleP; rewrite ler0n.
Qed.

(* standard complex samples are white and circular: E[z z^T] = 0 *)
Theorem C64_complex_standard Om (L : law complex_sf Om) p N (A B : Om -> 'M[real_sf]_(p, N)) :
  columns_are L (fun o => cplx (A o)) (fun=> 1%:M) -> columns_are L (fun o => cplx (B o)) (fun=> 1%:M) ->
  uncorrelated L (fun o => cplx (A o)) (fun o => cplx (B o)) ->
  let Z := fun o => sample_complex_standard_normal (A o) (B o) in
  columns_are L Z (fun=> 1%:M) /\ uncorrelated L Z (fun o => map_mx (@cj complex_sf) (Z o)).
Proof.
move=> hA hB u Z.
pose c : complex_sf := @ofR complex_sf (1 / R_sqrt.sqrt 2%:R).
have c2 : c * c = 2%:R^-1.
  apply: (@half_sq complex_sf).
have [h1 h2] := columns_circ imI_cj imI_sq (cj_ofR complex_sf _ : @cj complex_sf c = c) c2
  (fun o => cplx_real (A o)) (fun o => cplx_real (B o)) hA hB u.
split.
  by apply: columns_ext h1 => o; rewrite /Z std_complexE.
by apply: uncorrelated_ext h2 => o; rewrite /Z std_complexE.
Qed.

Theorem C64_complex_compound_samples Om (L : law complex_sf Om) p N (tau : 'cV[R]_N) (cov : 'M[complex_sf]_p)
    (A B : Om -> 'M[real_sf]_(p, N)) :
  psd cov -> (forall j, 0 <= tau j 0) ->
  columns_are L (fun o => cplx (A o)) (fun=> 1%:M) -> columns_are L (fun o => cplx (B o)) (fun=> 1%:M) ->
  uncorrelated L (fun o => cplx (A o)) (fun o => cplx (B o)) ->
  (exists2 X, (forall o, sample_complex_normal_distribution eighC (Complex128 cov) (A o) (B o) = Ok (X o)) &
    columns_are L X (fun j => cov)) /\
  (exists2 X, (forall o, sample_complex_compound_distribution eighC tau (Complex128 cov) (A o) (B o) = Ok (X o)) &
    columns_are L X (fun j => @ofR complex_sf (tau j 0) *: cov)).
Proof.
move=> pS t0 hA hB u; have [hZ _] := C64_complex_standard hA hB u.
split; eexists=> [o|]; [by [] | exact: (sqrt_cols okC pS hZ) | by [] |].
exact: (columns_texture t0 (sqrt_cols okC pS hZ)).
Qed.
Theorem C64_complex_tau_UUH_samples Om (L : law complex_sf Om) p k N (tau : 'cV[R]_N) (U : 'M[complex_sf]_(p, k))
    (Ak Bk : Om -> 'M[real_sf]_(k, N)) (Ap Bp : Om -> 'M[real_sf]_(p, N)) :
  (forall j, 0 <= tau j 0) ->
  columns_are L (fun o => cplx (Ak o)) (fun=> 1%:M) -> columns_are L (fun o => cplx (Bk o)) (fun=> 1%:M) ->
  columns_are L (fun o => cplx (Ap o)) (fun=> 1%:M) -> columns_are L (fun o => cplx (Bp o)) (fun=> 1%:M) ->
  uncorrelated L (fun o => cplx (Ak o)) (fun o => cplx (Bk o)) ->
  uncorrelated L (fun o => cplx (Ap o)) (fun o => cplx (Bp o)) ->
  uncorrelated L (fun o => cplx (Ak o)) (fun o => cplx (Ap o)) ->
  uncorrelated L (fun o => cplx (Ak o)) (fun o => cplx (Bp o)) ->
  uncorrelated L (fun o => cplx (Bk o)) (fun o => cplx (Ap o)) ->
  uncorrelated L (fun o => cplx (Bk o)) (fun o => cplx (Bp o)) ->
  exists2 X, (forall o, sample_complex_tau_UUH_distribution eighC tau (Complex128 U) (Ak o) (Bk o) (Ap o) (Bp o)
                        = Ok (X o)) &
    columns_are L X (fun j => @ofR complex_sf (tau j 0) *: (U *m U^H) + 1%:M).
Proof.
move=> t0 hAk hBk hAp hBp uk up u1 u2 u3 u4.
have [hk _] := C64_complex_standard hAk hBk uk; have [hp _] := C64_complex_standard hAp hBp up.
exists (fun o => texture tau (U *m sample_complex_standard_normal (Ak o) (Bk o))
                 + sample_complex_standard_normal (Ap o) (Bp o)).
  by move=> o; rewrite /sample_complex_tau_UUH_distribution /sample_complex_normal_distribution /bindr !sqrtm1 // !mul1mx.
have h1 := columns_texture t0 (columns_mul U hk).
have u : uncorrelated L (fun o => sample_complex_standard_normal (Ak o) (Bk o))
                        (fun o => sample_complex_standard_normal (Ap o) (Bp o)).
  apply: uncorrelated_ext => [o|o|]; [exact/esym/std_complexE | exact/esym/std_complexE |].
  apply: uncorrelated_scale; apply: uncorrelated_sym; apply: uncorrelated_scale.
  apply: uncorrelated_add; last apply: uncorrelated_scale; apply: uncorrelated_sym; apply: uncorrelated_add => //;
    exact: uncorrelated_scale.
have u' : uncorrelated L (fun o => texture tau (U *m sample_complex_standard_normal (Ak o) (Bk o)))
            (fun o => sample_complex_standard_normal (Ap o) (Bp o)).
  apply: uncorrelated_texture; have := uncorrelated_mul U 1%:M u.
  by apply: uncorrelated_ext => o; rewrite ?mul1mx.
apply: columns_eq (columns_add h1 hp u') => j /=; congr (_ *: _ + _).
by rewrite mulmx1.
Qed.
End Samplers.

(* ---- the hypotheses on the draws can be met: a finite law with white draws indexed by any T ---- *)
Section White.
Variables (K : starField) (T : finType).
Hypothesis T0 : (0 < #|T|)%N.
Let Om := (T * bool)%type.

Definition avg (f : Om -> K) : K := (2 * #|T|)%:R^-1 * \sum_(o : Om) f o.
Lemma avg_ext f g : f =1 g -> avg f = avg g. Proof. by move=> e; congr (_ * _); apply: eq_bigr. Qed.
Lemma avg0 : avg (fun=> 0) = 0. Proof. by rewrite /avg big1 // mulr0. Qed.
Lemma avg_lin a f g : avg (fun o => a * f o + g o) = a * avg f + avg g.
Proof. by rewrite /avg big_split /= -mulr_sumr mulrDr mulrCA. Qed.
Lemma avg_cj f : True /\ avg (fun o => cj K (f o)) = cj K (avg f).
Proof. by split=> //; rewrite /avg rmorphM fmorphV rmorph_nat rmorph_sum. Qed.
Definition white : law K Om :=
  @Law K Om (fun=> True) avg (fun _ _ _ h => h) avg_ext I (fun _ _ _ _ _ => I) avg0
    (fun a f g _ _ => avg_lin a f g) (fun f _ => avg_cj f).
Definition draw (t : T) (o : Om) : R :=
  if o.1 == t then (if o.2 then 1 else -1) * R_sqrt.sqrt (#|T|%:R) else 0.

Lemma draw_mean t : E_is white (fun o => @ofR K (draw t o)) 0.
Proof.
split=> //=; rewrite /avg.
rewrite -(pair_bigA _ (fun a b => @ofR K (draw t (a, b)))) /= big1 ?mulr0 // => a _.
rewrite (bigD1 true) //= (bigD1 false) //= big1 => [|[]] //.
by rewrite /draw /=; case: eqP => _; rewrite ?rmorph0 ?addr0 // mulN1r mul1r rmorphN /= addrN.
Qed.
Lemma draw_cross t t' : E_is white (fun o => @ofR K (draw t o) * cj K (@ofR K (draw t' o))) (t == t')%:R.
Proof.
split=> //=; rewrite /avg.
have n0 : (#|T|%:R : R) != 0 by rewrite pnatr_eq0 -lt0n.
rewrite -(pair_bigA _ (fun a b => @ofR K (draw t (a, b)) * cj K (@ofR K (draw t' (a, b))))) /=.
have e a : \sum_b @ofR K (draw t (a, b)) * cj K (@ofR K (draw t' (a, b))) =
    ((a == t) && (a == t'))%:R * (2 * #|T|)%:R.
  rewrite (bigD1 true) //= (bigD1 false) //= big1 => [|[]] //; rewrite !cj_ofR -!rmorphM /= addr0 -rmorphD.
  rewrite /draw /=; case: (a =P t) => _; case: (a =P t') => _; rewrite ?mulr0 ?mul0r ?addr0 ?rmorph0 //=.
  have sq : R_sqrt.sqrt (#|T|%:R) * R_sqrt.sqrt (#|T|%:R) = #|T|%:R :> R.
    by apply: R_sqrt.sqrt_sqrt; apply/RleP; rewrite ler0n.
  rewrite !mul1r !mulN1r mulrNN sq -mulr2n -mulrnA mulnC rmorph_nat; by [].
rewrite (eq_bigr _ (fun a _ => e a)) -mulr_suml (bigD1 t) //= eqxx /= big1 => [|a /negPf ->] //; last first.
rewrite addr0 mulrCA mulVf ?mulr1 // pnatr_eq0 muln_eq0 negb_or /=.
by rewrite -lt0n.
Qed.

Lemma white_columns p N (ix : 'I_p -> 'I_N -> T) : (forall i j k l, (ix i j == ix k l) = (i == k) && (j == l)) ->
  columns_are white (fun o => map_mx (@ofR K) (\matrix_(i, j) draw (ix i j) o)) (fun=> 1%:M).
Proof.
move=> inj; split=> [j i|j l i k].
  by rewrite mxE; apply: E_ext (draw_mean (ix i j)) => o; rewrite !mxE.
have -> : (if j == l then 1%:M else 0 : 'M[K]_p) i k = (ix i j == ix k l)%:R.
  by rewrite inj; case: (j == l); rewrite ?andbT ?andbF mxE.
by apply: E_ext (draw_cross (ix i j) (ix k l)) => o; rewrite !mxE.
Qed.
Lemma white_uncorrelated p q N (ix : 'I_p -> 'I_N -> T) (ix' : 'I_q -> 'I_N -> T) :
  (forall i j k l, ix i j != ix' k l) ->
  uncorrelated white (fun o => map_mx (@ofR K) (\matrix_(i, j) draw (ix i j) o))
                     (fun o => map_mx (@ofR K) (\matrix_(i, j) draw (ix' i j) o)).
Proof.
move=> ne j l i k; rewrite mxE.
have := draw_cross (ix i j) (ix' k l); rewrite (negPf (ne _ _ _ _)).
by apply: E_ext => o; rewrite !mxE.
Qed.
End White.

(* an instance of the hypotheses of the four sampler theorems, for every size *)
Example C64_white_draws_exist p k N : (0 < p)%N -> (0 < N)%N ->
  (exists Om (L : law real_sf Om) (Zk : Om -> 'M[real_sf]_(k, N)) (Zp : Om -> 'M[real_sf]_(p, N)),
    [/\ columns_are L Zk (fun=> 1%:M), columns_are L Zp (fun=> 1%:M) & uncorrelated L Zk Zp]) /\
  (exists Om (L : law complex_sf Om) (Ak Bk : Om -> 'M[real_sf]_(k, N)) (Ap Bp : Om -> 'M[real_sf]_(p, N)),
    [/\ [/\ columns_are L (fun o => cplx (Ak o)) (fun=> 1%:M), columns_are L (fun o => cplx (Bk o)) (fun=> 1%:M),
           columns_are L (fun o => cplx (Ap o)) (fun=> 1%:M) & columns_are L (fun o => cplx (Bp o)) (fun=> 1%:M)],
        uncorrelated L (fun o => cplx (Ak o)) (fun o => cplx (Bk o)),
        uncorrelated L (fun o => cplx (Ap o)) (fun o => cplx (Bp o)),
        (uncorrelated L (fun o => cplx (Ak o)) (fun o => cplx (Ap o)) /\
         uncorrelated L (fun o => cplx (Ak o)) (fun o => cplx (Bp o))) &
        (uncorrelated L (fun o => cplx (Bk o)) (fun o => cplx (Ap o)) /\
         uncorrelated L (fun o => cplx (Bk o)) (fun o => cplx (Bp o)))]).
Proof.
move=> p0 N0; pose T := (('I_k * 'I_N * bool) + ('I_p * 'I_N * bool))%type.
have T0 : (0 < #|[finType of T]|)%N by apply/card_gt0P; exists (inr (Ordinal p0, Ordinal N0, true)).
pose ik b (i : 'I_k) (j : 'I_N) : T := inl (i, j, b).
pose ip b (i : 'I_p) (j : 'I_N) : T := inr (i, j, b).
have eR m n (A : 'M[R]_(m, n)) : map_mx (@ofR real_sf) A = A by apply/matrixP => i j; rewrite mxE.
have jk b i j i' j' : (ik b i j == ik b i' j') = (i == i') && (j == j').
  by rewrite -[LHS]/((i, j, b) == (i', j', b)) !xpair_eqE eqxx andbT.
have jp b i j i' j' : (ip b i j == ip b i' j') = (i == i') && (j == j').
  by rewrite -[LHS]/((i, j, b) == (i', j', b)) !xpair_eqE eqxx andbT.
have nk i j i' j' : ik true i j != ik false i' j' by rewrite -[_ == _]/((i, j, true) == (i', j', false)) !xpair_eqE andbF.
have np i j i' j' : ip true i j != ip false i' j' by rewrite -[_ == _]/((i, j, true) == (i', j', false)) !xpair_eqE andbF.
have nkp b b' i j i' j' : ik b i j != ip b' i' j' by [].
pose dk b (o : [finType of T] * bool) : 'M[R]_(k, N) := \matrix_(i, j) draw (ik b i j : [finType of T]) o.
pose dp b (o : [finType of T] * bool) : 'M[R]_(p, N) := \matrix_(i, j) draw (ip b i j : [finType of T]) o.
split.
  exists ([finType of T] * bool)%type, (white real_sf [finType of T]), (dk true), (dp true); split.
  - by apply: columns_ext (white_columns real_sf T0 (jk true)) => o; rewrite eR.
  - by apply: columns_ext (white_columns real_sf T0 (jp true)) => o; rewrite eR.
  by apply: uncorrelated_ext (white_uncorrelated real_sf T0 (nkp true true)) => o; rewrite eR.
exists ([finType of T] * bool)%type, (white complex_sf [finType of T]), (dk true), (dk false), (dp true), (dp false).
have ck b := white_columns complex_sf T0 (jk b); have cp b := white_columns complex_sf T0 (jp b).
have u1 := white_uncorrelated complex_sf T0 nk; have u2 := white_uncorrelated complex_sf T0 np.
have u3 b b' := white_uncorrelated complex_sf T0 (nkp b b').
split; [split; [exact: ck | exact: ck | exact: cp | exact: cp] | exact: u1 | exact: u2 | |];
  split; exact: u3.
Qed.
(* and of the generator theorems: a rotation of the plane, draws 1/2 *)
Example C64_draws_exist : exists (u : 'rV[R]_2) (Q : 'M[real_sf]_2) (P : 'M[complex_sf]_2),
  [/\ unitary Q, unitary P, forall j, 0 <= u 0 j < 1, forall j, u 0 j != 0 & Q != 1%:M].
Proof.
have un (K : starField) : unitary (\matrix_(i, j) (i != j)%:R : 'M[K]_2).
  apply/matrixP => i j; rewrite !mxE !big_ord_recl big_ord0 !mxE !rmorph_nat addr0.
  by case: i j => [[|[|//]] ?] [[|[|//]] ?]; rewrite /= ?mulr0 ?mul0r ?mulr1 ?addr0 ?add0r.
exists (const_mx 2%:R^-1), (\matrix_(i, j) (i != j)%:R), (\matrix_(i, j) (i != j)%:R).
split; [exact: un | exact: un | | |].
- by move=> j; rewrite mxE invr_ge0 ler0n /= invf_lt1 ?ltr0n // ltr1n.
- by move=> j; rewrite mxE invr_eq0 pnatr_eq0.
by apply/eqP => /matrixP /(_ 0 0); rewrite !mxE /= => /eqP; rewrite eq_sym oner_eq0.
Qed.

(* ---- C76: textures ---- *)
(* mean and variance of a Gamma(shape k, scale t) law and of a log-normal law exp(N(ln scale, s^2)):
   the textbook formulas *)
Definition gamma_mean (k t : R) := k * t.
Definition gamma_var (k t : R) := k * t ^+ 2.
Definition lognormal_mean (scale s : R) := scale * Rtrigo_def.exp (s ^+ 2 / 2%:R).
Definition lognormal_var (scale s : R) := (Rtrigo_def.exp (s ^+ 2) - 1) * scale ^+ 2 * Rtrigo_def.exp (s ^+ 2).

Theorem C76_gamma_textures (nu : R) : 0 < nu ->
  let (k, t) := gamma_texture_params nu in gamma_mean k t = 1 /\ gamma_var k t = nu^-1.
Proof.
move=> h; have n0 : nu != 0 by rewrite gt_eqF.
rewrite /= /gamma_mean /gamma_var mul1r divff //; split=> //.
by rewrite expr2 mulrA divff // mul1r.
Qed.
Lemma expM0 (x : R) : Rtrigo_def.exp (- x) * Rtrigo_def.exp x = 1.
Proof. by rewrite -[_ * _]/(Rmult _ _) -exp_plus -[Rplus _ _]/(- x + x) addNr exp_0. Qed.
Theorem C76_lognormal_textures_partial (v : R) : 0 <= v ->
  let (scale, s) := lognormal_texture_params v in
  lognormal_mean scale s = 1 /\ lognormal_var scale s = Rtrigo_def.exp v - 1.
Proof.
move=> h; rewrite /lognormal_texture_params /lognormal_mean /lognormal_var.
have -> : R_sqrt.sqrt v ^+ 2 = v by rewrite expr2; apply: R_sqrt.sqrt_sqrt; apply/RleP.
rewrite mulNr expM0; split=> //.
rewrite -mulrA; set a := v / 2%:R.
have -> : Rtrigo_def.exp v = Rtrigo_def.exp a ^+ 2.
  rewrite expr2 -[_ * _]/(Rmult _ _) -exp_plus; congr (Rtrigo_def.exp _).
  by rewrite -[Rplus _ _]/(a + a) -mulr2n -mulr_natr /a mulfVK ?pnatr_eq0.
by rewrite -exprMn expM0 expr1n mulr1.
Qed.
(* so the parameter called variance is not the variance of the textures, except for 0 *)
Theorem C76_lognormal_variance_refuted (v : R) : 0 < v ->
  let (scale, s) := lognormal_texture_params v in lognormal_var scale s != v.
Proof.
move=> h; have := C76_lognormal_textures_partial (ltW h); rewrite /lognormal_texture_params => -[_ ->].
apply/eqP => e; have v0 : v <> 0 :> R by apply/eqP; rewrite gt_eqF.
have /RltP := exp_ineq1 v v0; rewrite -[X in _ < X](subrK 1) e.
by rewrite -[Rplus _ _]/(1 + v) addrC ltxx.
Qed.

Print Assumptions C75_stiefel_orthonormal.
Print Assumptions C75_stiefel_total.
Print Assumptions C75_size_one_raises.
Print Assumptions C64_generate_covariance_partial.
Print Assumptions C64_generate_covariance_unit_det_partial.
Print Assumptions C64_generate_covariance_zero_draw.
Print Assumptions C64_generate_covariance_nonsingular_refuted.
Print Assumptions C64_generate_complex_covariance.
Print Assumptions C64_generate_complex_covariance_unit_det.
Print Assumptions C64_wrong_dtype.
Print Assumptions C64_normal_samples.
Print Assumptions C64_compound_samples.
Print Assumptions C64_tau_UUH_samples.
Print Assumptions C64_complex_standard.
Print Assumptions C64_complex_compound_samples.
Print Assumptions C64_complex_tau_UUH_samples.
Print Assumptions C76_gamma_textures.
Print Assumptions C76_lognormal_textures_partial.
Print Assumptions C76_lognormal_variance_refuted.
