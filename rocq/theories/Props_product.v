(* Theorems about the weighted product manifold (C53), the Kronecker elliptical manifold (C54) and the random
   tangent vectors (C69). *)
From Coq Require Import Reals Lra.
From mathcomp Require Import all_ssreflect all_algebra.
From Verif Require Import RealsMC RealTac RealTac2 Star StarInst FunCalc Model_linalg Proofs_linalg Props_linalg Proofs_cost Model_manifolds Proofs_hpd
  Props_spv Props_hpd Props_shpd.
Set Implicit Arguments.
Unset Strict Implicit.
Unset Printing Implicit Defensive.
Local Open Scope ring_scope.
Import GRing.Theory Num.Theory Order.TTheory.

(* ------------------------------------------------------------------ C53 *)
(* What a factor must be: inner commutes with scaling, and egrad2rgrad represents the Euclidean pairing, at the points pt
   and for the tangent vectors tan. *)
Record factor_ok (M : manifold) (pt : m_pt M -> Prop) (tan : m_pt M -> m_tv M -> Prop) (pair : m_tv M -> m_tv M -> R) := {
  inner_scalel : forall (x : m_pt M) (c : R) u v, m_inner x (m_scale c u) v = c * m_inner x u v;
  inner_scaler : forall (x : m_pt M) (c : R) u v, m_inner x u (m_scale c v) = c * m_inner x u v;
  gradient : forall (x : m_pt M) g v, pt x -> tan x v -> m_inner x (m_egrad2rgrad x g) v = pair g v }.

Section Product.
Variables (p : nat) (M : 'I_p -> manifold) (w : 'I_p -> R).
Variable pt : forall i, m_pt (M i) -> Prop.
Variable tan : forall i, m_pt (M i) -> m_tv (M i) -> Prop.
Variable pair : forall i, m_tv (M i) -> m_tv (M i) -> R.
Hypothesis ok : forall i, factor_ok (@pt i) (@tan i) (@pair i).
Hypothesis w0 : forall i, 0 < w i.
Implicit Types (X : ppt M) (G H : ptv M).
Theorem C53_inner X G H : wp_inner w X G H = \sum_i w i * m_inner (X i) (G i) (H i).
Proof. by []. Qed.
Theorem C53_gradient X G H : (forall i, pt (X i)) -> (forall i, tan (X i) (H i)) ->
  wp_inner w X (wp_egrad2rgrad w X G) H = \sum_i pair (G i) (H i).
Proof.
move=> pX tH; apply: eq_bigr => i _; rewrite /wp_egrad2rgrad (inner_scalel (ok i)) (gradient (ok i)) // mulrA div1r.
by rewrite divff ?mul1r // gt_eqF.
Qed.
Lemma halfpow (t : R) : 0 < t -> Rpower.Rpower t (- 2%:R^-1) ^+ 2 = t^-1 /\ 0 < Rpower.Rpower t (- 2%:R^-1).
Proof.
move=> t0; split; last by apply/RltP; apply: exp_pos.
rewrite expr2 -RmultE -Rpower_plus.
have -> : Rplus (- 2%:R^-1) (- 2%:R^-1) = Ropp (IZR 1).
  by rfield.
by rewrite Rpower_Ropp Rpower_1 ?Rinv_E //; apply/RltP.
Qed.
(* the squared norm of randvec is the mean of the squared weights, not 1 *)
Theorem C53_randvec_norm_partial X G : (0 < p)%N -> (forall i, m_inner (X i) (G i) (G i) = 1) ->
  wp_inner w X (wp_randvec w G) (wp_randvec w G) = p%:R^-1 * \sum_i w i ^+ 2.
Proof.
move=> p0 u1; rewrite /wp_inner mulr_sumr; apply: eq_bigr => i _.
rewrite /wp_randvec (inner_scalel (ok i)) (inner_scaler (ok i)) u1 mulr1 -expr2 exprMn.
have p0' : 0 < p%:R :> R by rewrite ltr0n.
have [-> _] := halfpow p0'; have [e _] := halfpow (w0 i).
by rewrite expr_div_n expr1n e div1r invrK mulrCA -expr2.
Qed.
Theorem C53_randvec_unit_partial X G : (0 < p)%N -> (forall i, w i = 1) -> (forall i, m_inner (X i) (G i) (G i) = 1) ->
  wp_norm w X (wp_randvec w G) = 1.
Proof.
move=> p0 w1 u1; rewrite /wp_norm C53_randvec_norm_partial //.
have -> : \sum_i w i ^+ 2 = p%:R :> R.
  by rewrite (eq_bigr (fun=> 1)) => [|i _]; rewrite ?sumr_const ?card_ord // w1 expr1n.
by rewrite mulVf ?pnatr_eq0 -?lt0n //; apply: sqrtR_of; rewrite ?ler01 ?expr1n.
Qed.
End Product.

(* the library's own manifolds as factors *)
Definition spv_man n : manifold := {| m_pt := 'M[R]_(n, 1); m_tv := 'M[R]_(n, 1);
  m_inner := fun x u v => spv_inner x u v 0 0; m_dist := fun x y => spv_dist x y 0 0;
  m_egrad2rgrad := @spv_egrad2rgrad n 1; m_ehess2rhess := @spv_ehess2rhess n 1; m_scale := fun c u => c *: u |}.
Definition hpd_man (K : starField) eigh cholesky n k : manifold := {| m_pt := stack K n k; m_tv := stack K n k;
  m_inner := @hpd_inner K n k; m_dist := @hpd_dist K eigh cholesky n k;
  m_egrad2rgrad := @hpd_egrad2rgrad K n k; m_ehess2rhess := @hpd_ehess2rhess K n k;
  m_scale := fun c u i => @ofR K c *: u i |}.
(* SpecialHermitianPositiveDefinite overrides no ehess2rhess: pymanopt's base class raises; it is not used here *)
Definition shpd_man (K : starField) eigh cholesky n k : manifold := {| m_pt := stack K n k; m_tv := stack K n k;
  m_inner := @shpd_inner K n k; m_dist := @shpd_dist K eigh cholesky n k;
  m_egrad2rgrad := @shpd_egrad2rgrad K n k; m_ehess2rhess := fun _ _ _ u => u;
  m_scale := fun c u i => @ofR K c *: u i |}.
Theorem C53_positive_vectors_factor n : @factor_ok (spv_man n) (@positive n 1) (fun _ _ => True) (fun g v => \sum_i g i 0 * v i 0).
Proof.
split=> [x c u v|x c u v|x g v px _] /=; last exact: C47_gradient.
  by rewrite !mxE mulr_sumr; apply: eq_bigr => i _; rewrite mxE mulrCA !mulrA.
by rewrite !mxE mulr_sumr; apply: eq_bigr => i _; rewrite mxE mulrCA.
Qed.
Lemma hpd_scalel (K : starField) n k (x u v : stack K n k) (c : R) : hpd_inner x (fun i => @ofR K c *: u i) v = c * hpd_inner x u v.
Proof.
rewrite /hpd_inner -toRZ mulr_sumr; congr (@Star.toR K _); apply: eq_bigr => i _.
by rewrite !inner1E -scalemxAr -scalemxAl mxtraceZ.
Qed.
Theorem C53_hpd_factor (K : starField) eigh cholesky n k : @factor_ok (@hpd_man K eigh cholesky n k) (@all_pd K n k)
  (fun _ => @all_herm K n k) (fun g v => \sum_i @toR K (\tr ((g i)^H *m v i))).
Proof.
split=> [x c u v|x c u v|x g v px hv] /=; last exact: C50_gradient.
  exact: hpd_scalel.
by rewrite !(C50_inner_symmetric _ u) hpd_scalel.
Qed.
Theorem C53_shpd_factor (K : starField) eigh cholesky n k :
  @factor_ok (@shpd_man K eigh cholesky n k) (@all_pd K n k) (@tangent K n k) (fun g v => \sum_i @toR K (\tr ((g i)^H *m v i))).
Proof.
split=> [x c u v|x c u v|x g v px hv] /=; last exact: C52_gradient.
  exact: hpd_scalel.
by rewrite /shpd_inner !(C50_inner_symmetric _ u) hpd_scalel.
Qed.
(* one factor, StrictlyPositiveVectors(1), weight 4: a random vector of norm 4 *)
Theorem C53_randvec_refuted :
  ~ (forall p (M : 'I_p -> manifold) (w : 'I_p -> R) pt tan pair, (forall i, @factor_ok (M i) (pt i) (tan i) (pair i)) ->
     (forall i, 0 < w i) -> forall (X : ppt M) (G : ptv M), (0 < p)%N -> (forall i, pt i (X i)) -> (forall i, tan i (X i) (G i)) ->
     (forall i, m_inner (X i) (G i) (G i) = 1) -> wp_norm w X (wp_randvec w G) = 1).
Proof.
move=> h; have := h 1%N (fun _ => spv_man 1) (fun _ => 4%:R) _ _ _ (fun _ => C53_positive_vectors_factor 1).
have p4 : 0 < 4%:R :> R by rewrite ltr0n.
move=> /(_ (fun _ => p4) (fun _ => const_mx 1) (fun _ => const_mx 1) isT).
have u1 : spv_inner (const_mx 1) (const_mx 1) (const_mx 1 : 'M[R]_(1, 1)) 0 0 = 1.
  by rewrite mxE big_ord1 !mxE invr1 !mulr1.
have pp : positive (const_mx 1 : 'M[R]_(1, 1)) by move=> i j; rewrite mxE ltr01.
move=> /(_ (fun _ => pp) (fun _ => I) (fun _ => u1)).
rewrite /wp_norm (C53_randvec_norm_partial (fun _ => C53_positive_vectors_factor 1)) //.
rewrite big_ord1 invr1 mul1r => e; have : R_sqrt.sqrt (4%:R ^+ 2) = 4%:R by apply: sqrtR_of => //; apply: ltW.
by rewrite e => /eqP; rewrite eq_sym (@eqr_nat _ 4 1).
Qed.

(* ------------------------------------------------------------------ C54 *)
Section Kron.
Variables (K : starField) (eigh : eigsolver K).
Hypothesis eighP : eigh_ok eigh.
Local Notation ofR := (@ofR K).
Local Notation toR := (@toR K).
Variables a b : nat.
Hypotheses (a0 : (0 < a)%N) (b0 : (0 < b)%N).
Implicit Types theta xi eta g : kpt K a b.
(* structured.py:381-382: the coefficient given for the Student model *)
Definition kalpha (df : R) : R := (df + (a * b)%:R) / (df + (a * b)%:R + 1).
Lemma kron_innerE al theta xi eta : kron_inner al theta xi eta =
  al * b%:R * toR (inner1 theta.1 xi.1 eta.1) + (al * a%:R * toR (inner1 theta.2 xi.2 eta.2)
   + (al - 1) * a%:R ^+ 2 * toR (\tr (invmx theta.2 *m xi.2) * \tr (invmx theta.2 *m eta.2))).
Proof. by []. Qed.
(* (tr W)^2 <= b tr(W^2) *)
Lemma tr_sq_le m (W : 'M[K]_m) : herm W -> toR (\tr W) ^+ 2 <= m%:R * fro2 W.
Proof.
move=> hW; have dec := specdecP hW; rewrite (eigdec_tr dec) toRK.
have -> : fro2 W = \sum_j (specdec W).1 0 j ^+ 2.
  apply: (@ofR_inj K); rewrite fro2_tr; have -> : W^H = W by [].
  have -> : W *m W = fmx (fun t => t ^+ 2) W.
    rewrite -{1 2}(fmx_id hW) -fmxM //; by apply: eq_in_fmx => // r _; rewrite expr2.
  rewrite (eigdec_tr (eigdec_fmx _ dec)); congr (@Star.ofR K _); apply: eq_bigr => j _; by rewrite mxE.
have := @cauchy_schwarz _ (fun _ : 'I_m => 1) (fun j => (specdec W).1 0 j).
by rewrite sumr_const card_ord expr1n; under eq_bigr do rewrite mul1r.
Qed.
Lemma kalpha_alg (df F1 F2 t : R) : 0 < df -> 0 <= F1 -> 0 <= F2 -> t ^+ 2 <= b%:R * F2 ->
  kalpha df * b%:R * F1 + a%:R * df / (df + (a * b)%:R + 1) * F2 <=
  kalpha df * b%:R * F1 + (kalpha df * a%:R * F2 + (kalpha df - 1) * a%:R ^+ 2 * t ^+ 2).
Proof.
move=> d0 f1 f2 h; rewrite ler_add2l /kalpha natrM.
have : 0 < a%:R :> R by rewrite ltr0n.
have : 0 < b%:R :> R by rewrite ltr0n.
move: (a%:R : R) (b%:R : R) h => x y h y0 x0.
have D0 : 0 < df + x * y + 1 by rewrite addr_gt0 ?ltr01 // addr_gt0 // mulr_gt0.
rewrite -subr_ge0.
have -> : (df + x * y) / (df + x * y + 1) * x * F2 + ((df + x * y) / (df + x * y + 1) - 1) * x ^+ 2 * t ^+ 2
   - x * df / (df + x * y + 1) * F2 = (df + x * y + 1)^-1 * (x ^+ 2 * (y * F2 - t ^+ 2)).
  move: D0 => /RltP D0; rfield; move: D0; r2R => D0 e; rewrite e in D0; exact: Rlt_irrefl D0.
by rewrite mulr_ge0 ?invr_ge0 ?(ltW D0) // mulr_ge0 ?sqr_ge0 // subr_ge0.
Qed.
Definition kpd theta := pd theta.1 /\ pd theta.2.
Definition kherm xi := herm xi.1 /\ herm xi.2.
(* positive definite, with the constant *)
Theorem C54_inner_lower_bound df theta xi : 0 < df -> kpd theta -> kherm xi ->
  kalpha df * b%:R * toR (inner1 theta.1 xi.1 xi.1) + a%:R * df / (df + (a * b)%:R + 1) * toR (inner1 theta.2 xi.2 xi.2)
  <= kron_inner (kalpha df) theta xi xi.
Proof.
move=> d0 [pA pB] [hA hB]; rewrite kron_innerE.
have fA := factor_sqrt eighP pA; have fB := factor_sqrt eighP pB.
rewrite !(inner_self fA hA) !(inner_self fB hB) !toRK -(tr_wh _ fB).
have hW := wh_herm (fmx R_sqrt.sqrt theta.2) hB; have := tr_sq_le hW.
move: (wh (fmx R_sqrt.sqrt theta.2) xi.2) hW => W hW h.
have -> : toR (\tr W * \tr W) = toR (\tr W) ^+ 2.
  by rewrite (eigdec_tr (specdecP hW)) -rmorphM !toRK expr2.
by apply: kalpha_alg => //; apply: fro2_ge0.
Qed.
Theorem C54_inner_positive df theta xi : 0 < df -> kpd theta -> kherm xi -> xi <> (0, 0) ->
  0 < kron_inner (kalpha df) theta xi xi.
Proof.
move=> d0 pt hx nz; apply: lt_le_trans (C54_inner_lower_bound d0 pt hx).
have [pA pB] := pt; have [hA hB] := hx.
have fA := factor_sqrt eighP pA; have fB := factor_sqrt eighP pB.
rewrite !(inner_self fA hA) !(inner_self fB hB) !toRK.
have D0 : 0 < df + (a * b)%:R + 1 by rewrite addr_gt0 ?ltr01 // addr_gt0 // ltr0n muln_gt0 a0.
have k0 : 0 < kalpha df by rewrite divr_gt0 // addr_gt0 // ltr0n muln_gt0 a0.
have c1 : 0 < kalpha df * b%:R by rewrite mulr_gt0 // ltr0n.
have c2 : 0 < a%:R * df / (df + (a * b)%:R + 1) by rewrite divr_gt0 // mulr_gt0 // ltr0n.
have g1 := fro2_ge0 (wh (fmx R_sqrt.sqrt theta.1) xi.1); have g2 := fro2_ge0 (wh (fmx R_sqrt.sqrt theta.2) xi.2).
move: (kalpha df * b%:R) (a%:R * df / (df + (a * b)%:R + 1)) c1 c2 => s1 s2 c1 c2.
have h1 := mulr_ge0 (ltW c1) g1; have h2 := mulr_ge0 (ltW c2) g2; have h3 := addr_ge0 h1 h2.
rewrite lt_neqAle h3 andbT eq_sym; apply/negP.
rewrite paddr_eq0 // !mulf_eq0 (gt_eqF c1) (gt_eqF c2) /= => /andP [/eqP/fro2_eq0 e1 /eqP/fro2_eq0 e2].
apply: nz; case: xi {hx hA hB g1 g2 h1 h2 h3} e1 e2 => u v /= e1 e2.
have [uA _] := fA; have [uB _] := fB.
by rewrite -(whK u uA) -(whK v uB) e1 e2 !mulmx0 !mul0mx.
Qed.
Theorem C54_inner_symmetric al theta xi eta : kron_inner al theta xi eta = kron_inner al theta eta xi.
Proof. by rewrite !kron_innerE innerC [inner1 theta.2 _ _]innerC [\tr _ * _]mulrC. Qed.
Theorem C54_inner_linear al theta xi xi' eta (c : R) :
  kron_inner al theta (xi.1 + ofR c *: xi'.1, xi.2 + ofR c *: xi'.2) eta = kron_inner al theta xi eta + c * kron_inner al theta xi' eta.
Proof.
rewrite !kron_innerE /= !inner1E !mulmxDr -!scalemxAr !mulmxDl -!scalemxAl !mxtraceD !mxtraceZ !mulrDl -!mulrA.
rewrite !raddfD !toRZ; do 6 (move: (toR _) => ?); move: (a%:R : R) (b%:R : R) => x y.
by rring.
Qed.
(* the vector field egrad2rgrad misses the gradient by the trace term *)
Theorem C54_gradient_partial al theta g eta : 0 < al -> kpd theta -> kherm eta -> \tr (invmx theta.1 *m eta.1) = 0 ->
  kron_inner al theta (kron_egrad2rgrad al theta g) eta =
    toR (\tr (g.1^H *m eta.1)) + toR (\tr (g.2^H *m eta.2))
    + (al - 1) / al * a%:R * toR (\tr (multiherm g.2 *m theta.2) * \tr (invmx theta.2 *m eta.2)).
Proof.
move=> al0 [pA pB] [hA hB] tA; rewrite kron_innerE /kron_egrad2rgrad /=.
have s1 m (x u v : 'M[K]_m) c : inner1 x (c *: u) v = c * inner1 x u v by rewrite !inner1E -scalemxAr -scalemxAl mxtraceZ.
have s2 m (x u : 'M[K]_m) c : \tr (x *m (c *: u)) = c * \tr (x *m u) by rewrite -scalemxAr mxtraceZ.
rewrite !s1 !s2 !toRZ (gradient1 _ pB hB).
have -> : toR (inner1 theta.1 (@shpd_egrad2rgrad K a 1 (fun=> theta.1) (fun=> g.1) ord0) eta.1) = toR (\tr (g.1^H *m eta.1)).
  have := @C52_gradient K a 1 (fun _ => theta.1) (fun _ => g.1) (fun _ => eta.1) (fun _ => pA) (fun _ => conj hA tA).
  by rewrite big_ord1 /hpd_inner big_ord1.
have -> : \tr (invmx theta.2 *m hegrad1 theta.2 g.2) = \tr (multiherm g.2 *m theta.2).
  by rewrite /hegrad1 !mulmxA mulVmx ?mul1mx ?pd_unit.
rewrite -[ofR _ * _ * _]mulrA toRZ /kron_wA /kron_wB.
have an : a%:R != 0 :> R by rewrite pnatr_eq0 -lt0n.
have bn : b%:R != 0 :> R by rewrite pnatr_eq0 -lt0n.
have aln : al != 0 by rewrite gt_eqF.
move: (toR _) (toR _) (toR _) (a%:R : R) (b%:R : R) an bn => p q r x y /eqP an /eqP bn; move/eqP: aln => aln.
by rfield.
Qed.
(* so it is the gradient when alpha = 1 (the Gaussian case), or along directions with tr(B^-1 eta_B) = 0 *)
Corollary C54_gradient_gaussian_partial theta g eta : kpd theta -> kherm eta -> \tr (invmx theta.1 *m eta.1) = 0 ->
  kron_inner 1 theta (kron_egrad2rgrad 1 theta g) eta = toR (\tr (g.1^H *m eta.1)) + toR (\tr (g.2^H *m eta.2)).
Proof. by move=> pt he tA; rewrite C54_gradient_partial ?ltr01 // subrr !mul0r addr0. Qed.
End Kron.

(* two 1 x 1 factors, df = 1, at the identity *)
Theorem C54_gradient_refuted (K : starField) :
  ~ (forall a b df (theta g eta : kpt K a b), (0 < a)%N -> (0 < b)%N -> 0 < df -> kpd theta -> kherm eta ->
       \tr (invmx theta.1 *m eta.1) = 0 ->
       kron_inner (kalpha a b df) theta (kron_egrad2rgrad (kalpha a b df) theta g) eta =
       @toR K (\tr (g.1^H *m eta.1)) + @toR K (\tr (g.2^H *m eta.2))).
Proof.
move=> h; have pt : @kpd K 1 1 (1%:M, 1%:M) by split; apply: pd1.
have he : @kherm K 1 1 (0, 1%:M) by split; rewrite /herm /= ?adj0 ?adj1.
have t0 : \tr (invmx ((1%:M, 1%:M) : kpt K 1 1).1 *m ((0, 1%:M) : kpt K 1 1).1) = 0 by rewrite mulmx0 mxtrace0.
have d1 : 0 < 1 :> R by apply: ltr01.
have := h 1%N 1%N 1 (1%:M, 1%:M) (0, 1%:M) (0, 1%:M) isT isT d1 pt he t0.
have k0 : 0 < kalpha 1 1 1 by rewrite /kalpha divr_gt0 // ?addr_gt0.
rewrite (@C54_gradient_partial K 1 1 isT isT _ _ _ _ k0 pt he t0) -[RHS]addr0 => /addrI /=.
rewrite invmx1 multiherm_id ?mul1mx ?mxtrace1 ?mulr1 ?toR1; last by rewrite /herm adj1.
rewrite ?toR1 ?mulr1 => /eqP; rewrite mulf_eq0 invr_eq0 (gt_eqF k0) orbF subr_eq0 /kalpha => /eqP.
move=> /(congr1 (fun t => t * (1 + 1%:R + 1))); rewrite divfK ?mul1r; last by rewrite gt_eqF // !addr_gt0.
by move/eqP; rewrite -subr_eq0 opprD addrA subrr sub0r oppr_eq0 oner_eq0.
Qed.

(* ------------------------------------------------------------------ C69 *)
Section Randvec.
Variables (K : starField) (eigh : eigsolver K) (cholesky : forall n, 'M[K]_n -> 'M[K]_n).
Hypotheses (eighP : eigh_ok eigh) (cholP : chol_ok cholesky).
Variables n k : nat.
Local Notation ofR := (@ofR K).
Implicit Types x u r : stack K n k.
Local Notation norm := (hpd_norm cholesky).
Lemma norm_gt0 x u i : all_pd x -> all_herm u -> u i <> 0 -> 0 < norm x u.
Proof.
move=> px hu nz; have [e g] := C50_norm eighP cholP px hu.
rewrite lt_neqAle g andbT eq_sym; apply/eqP => z; apply: nz.
by apply: (C50_inner_definite eighP px hu); rewrite -e z expr0n.
Qed.
Lemma unit_scale x u i : all_pd x -> all_herm u -> u i <> 0 -> norm x (fun i => ofR (norm x u)^-1 *: u i) = 1.
Proof.
move=> px hu nz; have g := norm_gt0 px hu nz; have [e _] := C50_norm eighP cholP px hu.
have hs : all_herm (fun i => ofR (norm x u)^-1 *: u i) by move=> j; apply: hermZR.
have [e1 g1] := C50_norm eighP cholP px hs; apply/eqP; rewrite -(@eqr_expn2 _ 2 _ 1) ?ler01 // e1 expr1n.
rewrite hpd_scalel C50_inner_symmetric hpd_scalel -e; apply/eqP; rewrite expr2.
by rewrite mulKf ?mulVf // gt_eqF.
Qed.
Theorem C69_hpd_randvec x r i : all_pd x -> multiherm (r i) <> 0 ->
  all_herm (hpd_randvec cholesky x r) /\ norm x (hpd_randvec cholesky x r) = 1.
Proof.
move=> px nz; have h : @all_herm K n k (fun i => multiherm (r i)) by move=> j; apply: herm_multiherm.
by split; [move=> j; apply: hermZR; apply: h | apply: (@unit_scale x (fun i => multiherm (r i)) i)].
Qed.
Theorem C69_shpd_randvec x r i : (0 < n)%N -> all_pd x -> shpd_proj x r i <> 0 ->
  tangent x (shpd_randvec cholesky x r) /\ shpd_norm cholesky x (shpd_randvec cholesky x r) = 1.
Proof.
move=> n0 px nz; have t := C52_proj_tangent n0 r px; have h : all_herm (shpd_proj x r) by move=> j; case: (t j).
split; last exact: (@unit_scale x (shpd_proj x r) i).
by move=> j; have [hj tj] := t j; split; [apply: hermZR | rewrite -scalemxAr mxtraceZ tj mulr0].
Qed.
End Randvec.
Theorem C69_spv_randvec n k (x u : 'M[R]_(n, k)) i j : positive x -> u i j <> 0 -> spv_norm x (spv_randvec x u) 0 j = 1.
Proof.
move=> px nz; have [S eS] : exists S, S = spv_inner x u u 0 j by exists (spv_inner x u u 0 j).
have sq l : (x l j)^-1 * u l j * (x l j)^-1 * u l j = ((x l j)^-1 * u l j) ^+ 2 by rewrite expr2 mulrA.
have S0 : 0 < S.
  rewrite eS mxE (bigD1 i) //= sq ltr_paddr //; first by apply: sumr_ge0 => l _; rewrite sq sqr_ge0.
  rewrite lt_neqAle sqr_ge0 andbT eq_sym expf_eq0 /= mulf_eq0 invr_eq0 gt_eqF //=; exact/eqP.
have N : spv_norm x u 0 j = R_sqrt.sqrt S by rewrite mxE eS.
have N0 : R_sqrt.sqrt S != 0 by rewrite sqrtR_eq0 ?(ltW S0) // gt_eqF.
rewrite mxE; apply: sqrtR_of; rewrite ?ler01 // expr1n mxE.
rewrite (eq_bigr (fun l => (x l j)^-1 * u l j * (x l j)^-1 * u l j / R_sqrt.sqrt S ^+ 2)); last first.
  move=> l _; rewrite [spv_randvec _ _ _ _]mxE N expr2 invfM; move: (R_sqrt.sqrt S)^-1 => c.
  by r2R; rring.
rewrite -mulr_suml sqrtR_sqr' ?(ltW S0) //.
have -> : \sum_l (x l j)^-1 * u l j * (x l j)^-1 * u l j = S by rewrite eS mxE.
by rewrite divff // gt_eqF.
Qed.
(* at the identity, a = b = 1, df = 1: the inner product of (0, 1) with itself is 1/3 *)
Example C54_ex (K : starField) : kron_inner (kalpha 1 1 1) ((1%:M, 1%:M) : kpt K 1 1) (0, 1%:M) (0, 1%:M) = 1 / 3%:R.
Proof.
rewrite kron_innerE !inner1E /= invmx1 !mul1mx mulmx0 !mxtrace1 mxtrace0 mulr1 toR1 toR0 mulr0 add0r !mulr1 /kalpha. 
by rewrite toR1 muln1; rfield; split=> e; lra.
Qed.

Print Assumptions C53_inner.
Print Assumptions C53_gradient.
Print Assumptions C53_randvec_norm_partial.
Print Assumptions C53_randvec_unit_partial.
Print Assumptions C53_positive_vectors_factor.
Print Assumptions C53_hpd_factor.
Print Assumptions C53_shpd_factor.
Print Assumptions C53_randvec_refuted.
Print Assumptions C54_inner_lower_bound.
Print Assumptions C54_inner_positive.
Print Assumptions C54_inner_symmetric.
Print Assumptions C54_inner_linear.
Print Assumptions C54_gradient_partial.
Print Assumptions C54_gradient_gaussian_partial.
Print Assumptions C54_gradient_refuted.
Print Assumptions C69_hpd_randvec.
Print Assumptions C69_shpd_randvec.
Print Assumptions C69_spv_randvec.
