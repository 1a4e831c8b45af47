(* Theorems about the unit-determinant manifold and weighted products: C52, C53. *)
From Coq Require Import Reals.
From mathcomp Require Import all_ssreflect all_algebra.
From Verif Require Import RealsMC RealTac RealTac2 Star StarInst FunCalc Model_linalg Proofs_linalg Props_linalg Proofs_cost Model_manifolds Proofs_hpd
  Props_spv Props_hpd.
Set Implicit Arguments.
Unset Strict Implicit.
Unset Printing Implicit Defensive.
Local Open Scope ring_scope.
Import GRing.Theory Num.Theory Order.TTheory.

(* ------------------------------------------------------------------ C52 *)
Lemma Rpower_root (D : R) n : 0 < D -> (0 < n)%N -> Rpower.Rpower D n%:R^-1 ^+ n = D /\ 0 < Rpower.Rpower D n%:R^-1.
Proof.
move=> D0 n0; have p : 0 < Rpower.Rpower D n%:R^-1 by apply/RltP; apply: exp_pos.
split=> //; rewrite /Rpower.Rpower -[RHS](lnRK D0).
have -> (x : R) : Rtrigo_def.exp x ^+ n = Rtrigo_def.exp (n%:R * x).
  elim: n {n0 p} => [|n IH]; first by rewrite expr0 mul0r; apply/esym; exact: Rtrigo_def.exp_0.
  by rewrite exprS IH -addn1 natrD mulrDl mul1r addrC -RplusE exp_plus RmultE.
by rewrite -RmultE !RmultE mulrA divff ?mul1r // pnatr_eq0 -lt0n.
Qed.

Section Props.
Variables (K : starField) (eigh : eigsolver K) (cholesky ssqrtm : forall n, 'M[K]_n -> 'M[K]_n).
Hypotheses (eighP : eigh_ok eigh) (cholP : chol_ok cholesky) (sqrtmP : sqrtm_ok ssqrtm).
Local Notation ofR := (@ofR K).
Local Notation toR := (@toR K).
Variables n k : nat.
Hypothesis n0 : (0 < n)%N.
Implicit Types x y u v w g : stack K n k.

(* points of the manifold: positive definite, determinant one *)
Definition special x := forall i, pd (x i) /\ \det (x i) = 1.
(* tangent vectors: Hermitian, tr(x^-1 u) = 0 *)
Definition tangent x u := forall i, herm (u i) /\ \tr (invmx (x i) *m u i) = 0.

Lemma normalize_special x : all_pd x -> special (normalize x).
Proof.
move=> px i; have d0 := det_pd (px i); have t0 := toR_gt0 d0.
have [e p] := Rpower_root t0 n0; rewrite /normalize; move: (Rpower.Rpower _ _) e p => c e p; split.
  by apply: pdZ => //; rewrite ofR_gt0 invr_gt0.
by rewrite detZ -rmorphX exprVn e -{2}(ofR_toR_ge0 (ltW d0)) -rmorphM mulVf ?rmorph1 // gt_eqF.
Qed.
Theorem C52_rand (r : 'I_k -> 'rV[R]_n) u : (forall i j, 0 <= r i 0 j) -> (forall i, unitary (u i)) ->
  special (shpd_rand r u).
Proof.
move=> r0 uu; apply: normalize_special => i; rewrite /hpd_rand /hrand1 mulmxA multihconjE diagfE.
apply: pd_congr; first exact: unitary_unit.
by apply: pd_dia => j; rewrite mxE; apply: ltr_paddr; [exact: r0|exact: ltr01].
Qed.
Theorem C52_exp x u : all_pd x -> all_herm u -> special (shpd_exp eigh x u).
Proof. by move=> px hu; apply: normalize_special; apply: C49_exp_positive_definite. Qed.
Theorem C52_retr x u : all_pd x -> all_herm u -> special (shpd_retr x u).
Proof. by move=> px hu; apply: normalize_special; apply: C48_retr_positive_definite. Qed.

Lemma tr_real m (x u : 'M[K]_m) : pd x -> herm u -> ofR (toR (\tr (invmx x *m u))) = \tr (invmx x *m u).
Proof. by move=> px hu; apply: ofRK; rewrite -mxtrace_adj adjM hu (pd_herm (pd_inv px)) mxtrace_mulC. Qed.
Lemma projE x u i : all_pd x -> shpd_proj x u i = multiherm (u i) - (n%:R^-1 * \tr (invmx (x i) *m multiherm (u i))) *: x i.
Proof. by move=> px; rewrite /shpd_proj /solve rmorphM fmorphV ofR_nat tr_real //; apply: herm_multiherm. Qed.
Theorem C52_proj_tangent x u : all_pd x -> tangent x (shpd_proj x u).
Proof.
move=> px i; split.
  by rewrite /shpd_proj; apply: hermB; [apply: herm_multiherm | apply/hermZR/pd_herm].
rewrite projE // mulmxBr -(scalemxAr _ (invmx (x i)) (x i)) mulVmx ?pd_unit // linearB /= mxtraceZ mxtrace1.
by rewrite mulrAC mulVf ?mul1r ?subrr // pnatr_eq0 -lt0n.
Qed.
Theorem C52_proj_identity x u i : all_pd x -> tangent x u -> shpd_proj x u i = u i.
Proof.
by move=> px /(_ i) [hu t]; rewrite projE // multiherm_id // t mulr0 scale0r subr0.
Qed.
Theorem C52_proj_idempotent x u i : all_pd x -> shpd_proj x (shpd_proj x u) i = shpd_proj x u i.
Proof. by move=> px; apply: C52_proj_identity => //; apply: C52_proj_tangent. Qed.
(* what is removed is orthogonal to the tangent vectors *)
Theorem C52_proj_orthogonal x u v : all_pd x -> tangent x v ->
  hpd_inner x (fun i => multiherm (u i) - shpd_proj x u i) v = 0.
Proof.
move=> px tv; rewrite /hpd_inner big1 ?toR0 // => i _; rewrite projE // opprB addrC subrK inner1E -(scalemxAr _ (invmx (x i)) (x i)) mulVmx ?pd_unit //.
by rewrite scalemx1 mul_scalar_mx mxtraceZ; have [_ ->] := tv i; rewrite mulr0.
Qed.
Lemma tr_fln m (P : 'M[K]_m) : pd P -> \tr (fmx Rpower.ln P) = ofR (Rpower.ln (toR (\det P))).
Proof.
move=> pP; have dec := specdecP (pd_herm pP); rewrite (eigdec_tr (eigdec_fmx _ dec)) (eigdec_det dec) toRK ln_prod.
  by congr (@Star.ofR K _); apply: eq_bigr => j _; rewrite mxE.
by move=> j; apply: (eigval_gt0 pP); apply: eigdec_eigval dec.
Qed.
Lemma tr_sandwich m (x S L : 'M[K]_m) : factor S x -> S^H = S -> \tr (invmx x *m (S *m L *m S)) = \tr L.
Proof.
move=> f hS; have [uS _] := f; rewrite (factor_inv f) !mulmxA -(mulmxA _ (invmx S)) mulVmx // mulmx1.
by rewrite mxtrace_mulC mulmxA adjV hS mulmxV // mul1mx.
Qed.
Lemma det_wh m (x S y : 'M[K]_m) : factor S x -> \det (wh S y) = \det y / \det x.
Proof.
by move=> [uS <-]; rewrite /wh !det_mulmx !det_adj det_inv fmorphV invfM mulrCA mulrA.
Qed.
Theorem C52_log_tangent x y : special x -> special y -> tangent x (shpd_log eigh x y).
Proof.
move=> sx sy i; have [px dx] := sx i; have [py dy] := sy i; split; first exact: hlog_herm.
have f := factor_sqrt eighP px; have hS : (fmx R_sqrt.sqrt (x i))^H = fmx R_sqrt.sqrt (x i) by exact: fmx_herm.
rewrite /shpd_log /hpd_log (hlogE eighP px (pd_herm py)) tr_sandwich // tr_fln; last by apply: wh_pd => //; case: f.
by rewrite (det_wh _ f) dx dy divr1 toR1 ln1 rmorph0.
Qed.
Lemma det_fexp m (u : 'M[K]_m) : herm u -> \det (fmx Rtrigo_def.exp u) = ofR (Rtrigo_def.exp (toR (\tr u))).
Proof.
move=> hu; have dec := specdecP hu; rewrite (eigdec_det (eigdec_fmx _ dec)) (eigdec_tr dec) toRK; congr (@Star.ofR K _).
have -> : \prod_j (map_mx Rtrigo_def.exp (specdec u).1) 0 j = \prod_j Rtrigo_def.exp ((specdec u).1 0 j).
  by apply: eq_bigr => j _; rewrite mxE.
apply: (big_ind2 (fun a b => a = Rtrigo_def.exp b)) => [|a b c d -> ->|j _] //.
  by apply/esym; exact: Rtrigo_def.exp_0.
by rewrite -RplusE exp_plus RmultE.
Qed.
Lemma tr_wh m (x S y : 'M[K]_m) : factor S x -> \tr (wh S y) = \tr (invmx x *m y).
Proof. by move=> f; rewrite (factor_inv f) /wh mxtrace_mulC mulmxA. Qed.
(* det exp_x(u) = det x * exp tr(x^-1 u) *)
Lemma det_hexp m (x u : 'M[K]_m) : pd x -> herm u ->
  \det (hexp1 eigh x u) = \det x * ofR (Rtrigo_def.exp (toR (\tr (invmx x *m u)))).
Proof.
move=> px hu; have f := factor_sqrt eighP px; rewrite (hexpE eighP px hu).
have d3 (A B : 'M[K]_m) : \det (A *m B *m A) = \det (A *m A) * \det B by rewrite !det_mulmx mulrAC.
rewrite d3 {d3}; have [_ e] := f; have hS : (fmx R_sqrt.sqrt x)^H = fmx R_sqrt.sqrt x by exact: fmx_herm.
by rewrite hS in e; rewrite e det_fexp ?(tr_wh _ f) //; apply: wh_herm.
Qed.
(* the exponential of a tangent vector needs no normalisation *)
Theorem C52_exp_geodesic x u i : special x -> tangent x u -> shpd_exp eigh x u i = hpd_exp eigh x u i.
Proof.
move=> sx tu; have [px dx] := sx i; have [hu t] := tu i.
have d1 : \det (hpd_exp eigh x u i) = 1 by rewrite /hpd_exp det_hexp // dx t toR0 Rtrigo_def.exp_0 mul1r rmorph1.
rewrite /shpd_exp /normalize d1 toR1 /Rpower.Rpower ln_1 Rmult_0_r Rtrigo_def.exp_0.
by rewrite -[IZR 1]/(1 : R) invr1 rmorph1 scale1r.
Qed.
(* exp and log are inverse to each other on the manifold and its tangent spaces *)
Theorem C52_exp_log x y i : special x -> special y -> shpd_exp eigh x (shpd_log eigh x y) i = y i.
Proof.
move=> sx sy; rewrite C52_exp_geodesic //; last exact: C52_log_tangent.
by apply: hexp_log => //; [case: (sx i)|case: (sy i)].
Qed.
Theorem C52_log_exp x u i : special x -> tangent x u -> shpd_log eigh x (shpd_exp eigh x u) i = u i.
Proof.
move=> sx tu; have [px _] := sx i; have [hu _] := tu i.
by rewrite /shpd_log /hpd_log C52_exp_geodesic //; apply: hlog_exp.
Qed.
(* egrad2rgrad is the gradient along the manifold *)
Theorem C52_gradient x g v : all_pd x -> tangent x v ->
  hpd_inner x (shpd_egrad2rgrad x g) v = \sum_i toR (\tr ((g i)^H *m v i)).
Proof.
move=> px tv; rewrite /hpd_inner raddf_sum; apply: eq_bigr => i _.
have [hv t] := tv i; have u := pd_unit (px i); rewrite -(gradient1 (g i) (px i) hv); congr (@Star.toR K _).
rewrite /shpd_egrad2rgrad projE // !inner1E mulmxBr mulmxBl.
rewrite -(scalemxAr _ (invmx (x i)) (x i)) mulVmx // linearB /= -scalemxAl mul1mx mxtraceZ t mulr0 subr0.
have -> // : multiherm (x i *m g i *m x i) = x i *m multiherm (g i) *m x i.
rewrite !multihermE -scalemxAr -scalemxAl mulmxDr mulmxDl !adjM.
have -> : (x i)^H = x i by exact: pd_herm.
by rewrite !mulmxA.
Qed.
Theorem C52_gradient_tangent x g : all_pd x -> tangent x (shpd_egrad2rgrad x g).
Proof. exact: C52_proj_tangent. Qed.
(* the transport between tangent spaces is an isometry, and the projection in it does nothing *)
Theorem C52_transp x1 x2 u v : all_pd x1 -> all_pd x2 -> tangent x1 u -> tangent x1 v ->
  [/\ tangent x2 (shpd_transp ssqrtm x1 x2 u),
      forall i, shpd_transp ssqrtm x1 x2 u i = hpd_transp ssqrtm x1 x2 u i &
      hpd_inner x2 (shpd_transp ssqrtm x1 x2 u) (shpd_transp ssqrtm x1 x2 v) = hpd_inner x1 u v].
Proof.
move=> p1 p2.
have tt w : tangent x1 w -> tangent x2 (hpd_transp ssqrtm x1 x2 w).
  move=> tw i; have [hw t] := tw i; rewrite /hpd_transp; have [E [uE e] ->] := transp_root sqrtmP (p1 i) (p2 i).
  split; first exact: herm_congr.
  have uH : E^H \in unitmx by rewrite unitmx_adj.
  have u1 := pd_unit (p1 i).
  rewrite e !invmxM' ?unitmx_mul ?uE // mxtrace_mulC !mulmxA.
  by rewrite mulmxK // mxtrace_mulC !mulmxA mulVmx // mul1mx mxtrace_mulC.
have ee w i : tangent x1 w -> shpd_transp ssqrtm x1 x2 w i = hpd_transp ssqrtm x1 x2 w i.
  by move=> tw; apply: C52_proj_identity => //; apply: tt.
move=> tu tv; split; first exact: C52_proj_tangent.
  by move=> i; apply: ee.
rewrite -(C51_transp_isometry eighP sqrtmP u v p1 p2) /hpd_inner; congr (@Star.toR K _); apply: eq_bigr => i _.
by rewrite !ee.
Qed.
End Props.

(* a point of determinant one other than the identity, and a tangent vector there *)
Definition two (a b : R) : 'rV[R]_2 := \row_j (if j == 0 then a else b).
Example C52_ex (K : starField) (c t : R) : 0 < c ->
  @special K 2 1 (fun _ => dia K (two c c^-1)) /\
  @tangent K 2 1 (fun _ => dia K (two c c^-1)) (fun _ => dia K (two (t * c) (- t * c^-1))).
Proof.
move=> c0; have cn : c != 0 by rewrite gt_eqF.
have p : pd (dia K (two c c^-1)) by apply: pd_dia => j; rewrite mxE; case: eqP => _; rewrite ?invr_gt0.
split=> i; split=> //.
- by rewrite det_diag big_ord_recl big_ord1 !mxE /= -rmorphM divff // rmorph1.
- exact: adj_dia.
have -> : invmx (dia K (two c c^-1)) = dia K (two c^-1 c).
  rewrite dia_inv => [|j]; last by rewrite mxE; case: eqP => _; rewrite ?invr_gt0.
  by congr (dia K _); apply/matrixP => a b; rewrite !mxE; case: ifP => _ //; rewrite invrK.
rewrite diaM mxtrace_diag big_ord_recl big_ord1 !mxE /= -rmorphD mulrCA mulVf // mulr1 mulNr mulrN mulrCA divff // mulr1.
by rewrite subrr rmorph0.
Qed.

Print Assumptions C52_rand.
Print Assumptions C52_exp.
Print Assumptions C52_retr.
Print Assumptions C52_proj_tangent.
Print Assumptions C52_proj_identity.
Print Assumptions C52_proj_idempotent.
Print Assumptions C52_proj_orthogonal.
Print Assumptions C52_log_tangent.
Print Assumptions C52_exp_geodesic.
Print Assumptions C52_exp_log.
Print Assumptions C52_log_exp.
Print Assumptions C52_gradient.
Print Assumptions C52_gradient_tangent.
Print Assumptions C52_transp.
