(* Theorems about the Hermitian positive definite manifold: C48-C51, C55. *)
From Coq Require Import Reals Epsilon.
From mathcomp Require Import all_ssreflect all_algebra.
From Verif Require Import RealsMC RealTac Star StarInst FunCalc Model_linalg Proofs_linalg Props_linalg Proofs_cost Model_manifolds Proofs_hpd.
Set Implicit Arguments.
Unset Strict Implicit.
Unset Printing Implicit Defensive.
Local Open Scope ring_scope.
Import GRing.Theory Num.Theory Order.TTheory.

(* What np.linalg.cholesky promises (the triangular shape is not needed). *)
Definition chol_ok (K : starField) (cholesky : forall n, 'M[K]_n -> 'M[K]_n) :=
  forall n (x : 'M[K]_n), pd x -> cholesky n x *m (cholesky n x)^H = x.
(* What scipy.linalg.sqrtm promises, on matrices similar to a positive diagonal matrix: a square
   root whose eigenvalues have positive real parts. *)
Definition principal_root (K : starField) n (A E : 'M[K]_n) :=
  E *m E = A /\ forall (r : K) (u : 'cV[K]_n), u != 0 -> E *m u = r *: u -> 0 < @toR K r.
Definition sqrtm_ok (K : starField) (ssqrtm : forall n, 'M[K]_n -> 'M[K]_n) :=
  forall n (B : 'M[K]_n) (d : 'rV[R]_n), B \in unitmx -> (forall j, 0 < d 0 j) ->
    principal_root (B *m dia K d *m invmx B) (ssqrtm n (B *m dia K d *m invmx B)).

Section Points.
Variables (K : starField) (n k : nat).
Implicit Types x u g : stack K n k.
(* every matrix of the stack is positive definite, Hermitian, invertible *)
Definition all_pd x := forall i, pd (x i).
Definition all_herm u := forall i, herm (u i).
Definition all_unit g := forall i, g i \in unitmx.
(* g x g^H, the inverse, the zero tangent vector, linear combinations *)
Definition scongr g x : stack K n k := fun i => g i *m x i *m (g i)^H.
Definition sinv x : stack K n k := fun i => invmx (x i).
Definition szero : stack K n k := fun _ => 0.
Definition slin u (c : R) (v : stack K n k) : stack K n k := fun i => u i + @ofR K c *: v i.
End Points.

Section Props.
Variables (K : starField) (eigh : eigsolver K) (cholesky ssqrtm : forall n, 'M[K]_n -> 'M[K]_n).
Hypotheses (eighP : eigh_ok eigh) (cholP : chol_ok cholesky) (sqrtmP : sqrtm_ok ssqrtm).
Local Notation ofR := (@ofR K).
Local Notation toR := (@toR K).
Variables n k : nat.
Implicit Types x y u v w g : stack K n k.
Local Notation inner := (@hpd_inner K n k).
Local Notation norm := (@hpd_norm K cholesky n k).
Local Notation exp := (@hpd_exp K eigh n k).
Local Notation log := (@hpd_log K eigh n k).
Local Notation dist := (@hpd_dist K eigh cholesky n k).
Local Notation retr := (@hpd_retr K n k).

(* ------------------------------------------------------------------ C48 *)
Lemma half_alg m (x u w : 'M[K]_m) : x + u + 2%:R^-1 *: w = 2%:R^-1 *: (x + (x + u + (u + w))).
Proof.
have -> : x + (x + u + (u + w)) = (2%:R : K) *: (x + u) + w.
  by rewrite !addrA -[(2%:R : K)]/(1 + 1) scalerDl scale1r !addrA; congr (_ + _); rewrite -!addrA; congr (_ + _); rewrite addrCA.
by rewrite scalerDr scalerA mulVf ?scale1r // pnatr_eq0.
Qed.
Lemma retr_eq m (x u : 'M[K]_m) : pd x -> herm u ->
  hretr1 x u = ofR 2%:R^-1 *: (x + (x + u) *m invmx x *m (x + u)^H).
Proof.
move=> px hu; have ux := pd_unit px; have -> : (x + u)^H = x + u by rewrite adjD hu (pd_herm px).
rewrite /hretr1 /solve !mulmxDl mulmxV // mul1mx !mulmxDr -(mulmxA u) mulVmx // mulmx1 -scalemxAl !mulmxA.
by rewrite -halfR; exact: half_alg.
Qed.
Theorem C48_retr_positive_definite x u : all_pd x -> all_herm u -> all_pd (retr x u).
Proof.
move=> px hu i; rewrite /hpd_retr retr_eq //; apply: pdZ; first by rewrite ofR_gt0 invr_gt0 ltr0n.
by apply: pdD => //; apply: psd_congr; apply/pd_psd/pd_inv.
Qed.
Theorem C48_retr_zero x i : retr x (@szero K n k) i = x i.
Proof. by rewrite /hpd_retr /hretr1 /szero scaler0 mul0mx !addr0. Qed.
Theorem C48_retr_first_order x u : exists w : stack K n k, forall (t : R) i,
  retr x (fun i => ofR t *: u i) i = x i + ofR t *: u i + ofR (t ^+ 2) *: w i.
Proof.
exists (fun i => 2%:R^-1 *: u i *m solve (x i) (u i)) => t i; rewrite /hpd_retr /hretr1; congr (_ + _).
rewrite /solve -!scalemxAr -!scalemxAl -?scalemxAr !scalerA rmorphX expr2; congr (_ *: _).
exact: mulrAC.
Qed.

(* ------------------------------------------------------------------ C49 *)
Theorem C49_exp_positive_definite x u : all_pd x -> all_herm u -> all_pd (exp x u).
Proof. by move=> px hu i; apply: hexp_pd. Qed.
Theorem C49_exp_log x y i : all_pd x -> all_pd y -> exp x (log x y) i = y i.
Proof. by move=> px py; apply: hexp_log. Qed.
Theorem C49_log_exp x u i : all_pd x -> all_herm u -> log x (exp x u) i = u i.
Proof. by move=> px hu; apply: hlog_exp. Qed.
Theorem C49_log_hermitian x y : all_herm (log x y).
Proof. by move=> i; apply: hlog_herm. Qed.
(* ------------------------------------------------------------------ C50 *)
Lemma inner_ofR x u v : all_pd x -> all_herm u -> all_herm v ->
  ofR (inner x u v) = \sum_i inner1 (x i) (u i) (v i).
Proof.
move=> px hu hv; apply: ofRK; rewrite rmorph_sum; apply: eq_bigr => i _.
exact: (inner_real (factor_sqrt eighP (px i))).
Qed.
Theorem C50_inner_real x u v : all_pd x -> all_herm u -> all_herm v ->
  ofR (inner x u v) = \sum_i \tr (invmx (x i) *m u i *m invmx (x i) *m v i).
Proof. by move=> px hu hv; rewrite inner_ofR //; apply: eq_bigr => i _; rewrite inner1E !mulmxA. Qed.
Theorem C50_inner_symmetric x u v : inner x u v = inner x v u.
Proof. by rewrite /hpd_inner; congr (toR _); apply: eq_bigr => i _; apply: innerC. Qed.
Theorem C50_inner_bilinear x u v w (c : R) : inner x (slin u c v) w = inner x u w + c * inner x v w.
Proof.
rewrite /hpd_inner -toRZ -raddfD mulr_sumr -big_split /=; congr (toR _); apply: eq_bigr => i _.
by rewrite !inner1E /slin mulmxDr mulmxDl mxtraceD -scalemxAr -scalemxAl mxtraceZ.
Qed.
Lemma inner_selfE x u : all_pd x -> all_herm u -> inner x u u = \sum_i fro2 (wh (fmx R_sqrt.sqrt (x i)) (u i)).
Proof.
move=> px hu; rewrite /hpd_inner raddf_sum; apply: eq_bigr => i _.
by rewrite (inner_self (factor_sqrt eighP (px i))) // toRK.
Qed.
Theorem C50_inner_positive x u : all_pd x -> all_herm u -> 0 <= inner x u u.
Proof. by move=> px hu; rewrite inner_selfE //; apply: sumr_ge0 => i _; apply: fro2_ge0. Qed.
Theorem C50_inner_definite x u : all_pd x -> all_herm u -> inner x u u = 0 -> forall i, u i = 0.
Proof.
move=> px hu; rewrite inner_selfE // => /eqP; rewrite psumr_eq0; last by move=> i _; apply: fro2_ge0.
move=> /allP h i; have /eqP/fro2_eq0 e := h i (mem_index_enum _).
have [uS _] := factor_sqrt eighP (px i); by rewrite -(whK (u i) uS) e mulmx0 mul0mx.
Qed.
Lemma factor_congr m (g A x : 'M[K]_m) : g \in unitmx -> factor A x -> factor (g *m A) (g *m x *m g^H).
Proof. by move=> ug [uA <-]; split; rewrite ?unitmx_mul ?ug // adjM !mulmxA. Qed.
Lemma wh_congr m (g A u : 'M[K]_m) : g \in unitmx -> A \in unitmx -> wh (g *m A) (g *m u *m g^H) = wh A u.
Proof.
move=> ug uA; rewrite /wh invmxM' // adjM !mulmxA mulmxKV //.
by rewrite -[X in X *m _](mulmxA _ g^H) adjI // mulmx1.
Qed.
Theorem C50_inner_invariant x u v g : all_pd x -> all_unit g ->
  inner (scongr g x) (scongr g u) (scongr g v) = inner x u v.
Proof.
move=> px ug; congr (toR _); apply: eq_bigr => i _; have f := factor_sqrt eighP (px i).
have uS : fmx R_sqrt.sqrt (x i) \in unitmx by case: f.
by rewrite (inner_wh _ _ (factor_congr (ug i) f)) !wh_congr // -(inner_wh _ _ f).
Qed.
Lemma normE x u : all_pd x -> norm x u = R_sqrt.sqrt (\sum_i fro2 (wh (fmx R_sqrt.sqrt (x i)) (u i))).
Proof.
move=> px; rewrite /hpd_norm raddf_sum; congr (R_sqrt.sqrt _); apply: eq_bigr => i _.
by rewrite white1E sumsq1E toRK; apply: fro2_wh (factor_chol cholP (px i)) (factor_sqrt eighP (px i)).
Qed.
Theorem C50_norm x u : all_pd x -> all_herm u -> norm x u ^+ 2 = inner x u u /\ 0 <= norm x u.
Proof.
move=> px hu; rewrite normE // inner_selfE //; split; last exact: sqrtR_ge0.
by rewrite expr2 sqrtR_sqr //; apply: sumr_ge0 => i _; apply: fro2_ge0.
Qed.
(* inner(x, rgrad, v) = <g, v>, the Euclidean product Re tr(g^H v) *)
Lemma gradient1 m (x g v : 'M[K]_m) : pd x -> herm v ->
  toR (inner1 x (hegrad1 x g) v) = toR (\tr (g^H *m v)).
Proof.
move=> px hv; have ux := pd_unit px; rewrite inner1E /hegrad1 !mulmxA mulVmx // mul1mx.
rewrite -(mulmxA (multiherm g)) mulmxV // mulmx1 multihermE -scalemxAl mxtraceZ toRZ mulmxDl mxtraceD raddfD.
have -> : toR (\tr (g *m v)) = toR (\tr (g^H *m v)).
  by rewrite -[LHS]toR_cj -mxtrace_adj adjM hv mxtrace_mulC.
by rewrite -mulr2n -[toR _ *+ 2]mulr_natl mulrA mulVf ?mul1r // pnatr_eq0.
Qed.
Theorem C50_gradient x g v : all_pd x -> all_herm v ->
  inner x (hpd_egrad2rgrad x g) v = \sum_i toR (\tr ((g i)^H *m v i)).
Proof. by move=> px hv; rewrite /hpd_inner raddf_sum; apply: eq_bigr => i _; apply: gradient1. Qed.
Theorem C50_gradient_tangent x g : all_pd x -> all_herm (hpd_egrad2rgrad x g).
Proof.
move=> px i; rewrite /hpd_egrad2rgrad /hegrad1 -{2}(pd_herm (px i)); apply: herm_congr; exact: herm_multiherm.
Qed.
Theorem C50_projection x u v (c : R) i :
  [/\ herm (hpd_proj x u i), herm (u i) -> hpd_proj x u i = u i,
      hpd_proj x (hpd_proj x u) i = hpd_proj x u i &
      hpd_proj x (slin u c v) i = slin (hpd_proj x u) c (hpd_proj x v) i].
Proof.
split; rewrite /hpd_proj /hproj1.
- exact: herm_multiherm.
- exact: multiherm_id.
- exact/multiherm_id/herm_multiherm.
- rewrite /slin !multihermE adjD adjZR scalerA mulrC -scalerA -scalerDr; congr (_ *: _).
  by rewrite scalerDr addrACA.
Qed.

(* ------------------------------------------------------------------ C51 *)
Lemma root_uniq m (B E : 'M[K]_m) (d : 'rV[R]_m) : B \in unitmx -> (forall j, 0 < d 0 j) ->
  principal_root (B *m dia K d *m invmx B) E -> E = B *m dia K (map_mx R_sqrt.sqrt d) *m invmx B.
Proof.
move=> uB d0 [EE pos]; have [s es] : exists s, s = map_mx R_sqrt.sqrt d by exists (map_mx R_sqrt.sqrt d).
have [G hG] : exists G, G = invmx B *m E *m B by exists (invmx B *m E *m B).
rewrite -es.
have eG : E = B *m G *m invmx B by rewrite hG !mulmxA mulmxV // mul1mx mulmxK.
have GG : G *m G = dia K d.
  by rewrite hG !mulmxA mulmxK // -(mulmxA (invmx B)) EE !mulmxA mulVmx // mul1mx mulmxKV.
have s0 j : 0 < s 0 j by rewrite es mxE sqrtR_gt0.
have Gs i j : G i j * ofR (s 0 j) = ofR (s 0 i) * G i j.
  have : (G *m dia K d) i j = (dia K d *m G) i j by rewrite -GG mulmxA.
  rewrite mul_mx_dia mul_dia_mx mulrC => /eqP; rewrite -subr_eq0 -mulrBl mulf_eq0 => /orP [|/eqP ->]; last by rewrite mul0r mulr0.
  by rewrite subr_eq0 => /eqP/ofR_inj e; rewrite es !mxE e mulrC.
have com : G *m dia K s = dia K s *m G by apply/matrixP => i j; rewrite mul_mx_dia mul_dia_mx.
have ss : dia K s *m dia K s = dia K d.
  by rewrite diaM; congr (dia K _); apply/matrixP => i j; rewrite es !mxE (ord1 i) sqrtR_sqr // ltW.
have z : (G - dia K s) *m (G + dia K s) = 0.
  by rewrite mulmxDr !mulmxBl GG ss com addrA subrK subrr.
have u : G + dia K s \in unitmx.
  rewrite unitmxE unitfE; apply/negP => /eqP dt.
  have : \det (G + dia K s)^T = 0 by rewrite det_tr.
  move=> /eqP/det0P [w' w0 hw]; pose w := w'^T.
  have w0' : w != 0 by rewrite trmx_eq0.
  have hw' : (G + dia K s) *m w = 0 by apply: trmx_inj; rewrite trmx_mul trmxK hw trmx0.
  have [i wi] : exists i, w i 0 != 0.
    apply/existsP; apply: contraNT w0'; rewrite negb_exists => /forallP h; apply/eqP/matrixP => a b.
    by rewrite (ord1 b) [RHS]mxE; apply/eqP; have := h a; rewrite negbK.
  pose q : 'cV[K]_m := \col_j (if s 0 j == s 0 i then w j 0 else 0).
  have q0 : q != 0 by apply: contraNneq wi => /matrixP/(_ i 0); rewrite !mxE eqxx => ->.
  have Gq : G *m q = ofR (- s 0 i) *: q.
    apply/matrixP => a b; rewrite (ord1 b) !mxE; have /matrixP/(_ a 0) := hw'.
    rewrite mulmxDl mxE mul_dia_mx !mxE => /eqP; rewrite addr_eq0 => /eqP hs.
    case: (eqVneq (s 0 a) (s 0 i)) => [e|e]; last first.
      rewrite mulr0; apply: big1 => j _; rewrite mxE; case: (eqVneq (s 0 j) (s 0 i)) => [ej|]; last by rewrite mulr0.
      have /eqP := Gs a j; rewrite mulrC -subr_eq0 -mulrBl mulf_eq0 => /orP [|/eqP ->]; last by rewrite mul0r.
      by rewrite subr_eq0 => /eqP/ofR_inj; rewrite ej => h; case/eqP: e.
    rewrite rmorphN mulNr -e -hs; apply: eq_bigr => j _; rewrite mxE; case: (eqVneq (s 0 j) (s 0 i)) => [ej|ej] //.
    have /eqP := Gs a j; rewrite mulrC -subr_eq0 -mulrBl mulf_eq0 => /orP [|/eqP ->]; last by rewrite !mul0r.
    by rewrite subr_eq0 => /eqP/ofR_inj; rewrite e => h; case/eqP: ej.
  have := pos (ofR (- s 0 i)) (B *m q); rewrite toRK oppr_gt0 => h.
  have : s 0 i < 0.
    apply: h; last by rewrite eG -mulmxA mulKmx // -mulmxA Gq -scalemxAr.
    by apply: contraNneq q0 => e; rewrite -(mulKmx uB q) e mulmx0.
  by rewrite ltNge ltW.
have : G = dia K s by apply/eqP; rewrite -subr_eq0 -(mulmxK u (G - dia K s)) z mul0mx.
by move=> e; rewrite eG e.
Qed.
Lemma transp_root m (x1 x2 : 'M[K]_m) : pd x1 -> pd x2 -> exists2 E, E \in unitmx /\ x2 = E *m x1 *m E^H &
  forall d, htransp1 ssqrtm x1 x2 d = E *m d *m E^H.
Proof.
move=> p1 p2; have [B [d [uB e1 e2 d0]]] := simdiag p1 p2.
exists (ssqrtm (B *m dia K d *m invmx B)); last first.
  move=> e; rewrite /htransp1 !multihconjE /solve adjM adjV !adjK.
  have -> : x2 *m invmx x1 = B *m dia K d *m invmx B.
    have uH : B^H \in unitmx by rewrite unitmx_adj.
    by rewrite e1 e2 invmxM' // !mulmxA mulmxK.
  by [].
have := sqrtmP uB d0; move: (ssqrtm _) => E /(root_uniq uB d0) eE.
have ud : dia K (map_mx R_sqrt.sqrt d) \in unitmx.
  by apply: pd_unit; apply: pd_dia => j; rewrite mxE sqrtR_gt0.
split; first by rewrite eE !unitmx_mul uB ud unitmx_inv.
rewrite e1 e2 eE !adjM adj_dia !mulmxA mulmxKV // -!(mulmxA B) -!mulmxA (mulmxA B^H) adjI // mul1mx.
rewrite (mulmxA (dia K _)) diaM; congr (_ *m (dia K _ *m _)); apply/matrixP => i j.
by rewrite !mxE (ord1 i) sqrtR_sqr // ltW.
Qed.
Theorem C51_transp_hermitian x1 x2 u : all_pd x1 -> all_pd x2 -> all_herm u -> all_herm (hpd_transp ssqrtm x1 x2 u).
Proof.
move=> p1 p2 hu i; rewrite /hpd_transp; have [E _ ->] := transp_root (p1 i) (p2 i); exact: herm_congr.
Qed.
Theorem C51_transp_isometry x1 x2 u v : all_pd x1 -> all_pd x2 ->
  inner x2 (hpd_transp ssqrtm x1 x2 u) (hpd_transp ssqrtm x1 x2 v) = inner x1 u v.
Proof.
move=> p1 p2; congr (toR _); apply: eq_bigr => i _; rewrite /hpd_transp.
have [E [uE e] h] := transp_root (p1 i) (p2 i); rewrite !h e; have f := factor_sqrt eighP (p1 i).
have uS : fmx R_sqrt.sqrt (x1 i) \in unitmx by case: f.
by rewrite (inner_wh _ _ (factor_congr uE f)) !wh_congr // -(inner_wh _ _ f).
Qed.
(* it carries the point to the point *)
Theorem C51_transp_point x1 x2 i : all_pd x1 -> all_pd x2 -> hpd_transp ssqrtm x1 x2 x1 i = x2 i.
Proof. by move=> p1 p2; rewrite /hpd_transp; have [E [_ e] ->] := transp_root (p1 i) (p2 i). Qed.

(* ------------------------------------------------------------------ C55 *)
Lemma distE x y (A : forall i, 'M[K]_n) : all_herm y -> (forall i, factor (A i) (x i)) ->
  dist x y = R_sqrt.sqrt (\sum_i fro2 (fmx Rpower.ln (wh (A i) (y i)))).
Proof.
move=> hy fA; rewrite /hpd_dist raddf_sum; congr (R_sqrt.sqrt _); apply: eq_bigr => i _.
have px := factor_pd (fA i); rewrite (hdistlog1E eighP) // sumsq1E toRK.
exact: fro2_fln_wh (hy i) (factor_chol cholP px) (fA i).
Qed.
Theorem C55_nonnegative x y : 0 <= dist x y.
Proof. exact: sqrtR_ge0. Qed.
Theorem C55_norm_of_log x y : all_pd x -> all_pd y -> dist x y = norm x (log x y).
Proof.
move=> px py; rewrite (distE (fun i => pd_herm (py i)) (fun i => factor_sqrt eighP (px i))) normE //.
congr (R_sqrt.sqrt _); apply: eq_bigr => i _; rewrite /hpd_log wh_hlog //; exact: pd_herm.
Qed.
Theorem C55_separates x y : all_pd x -> all_pd y -> (dist x y = 0 <-> forall i, x i = y i).
Proof.
move=> px py; have fx i := factor_sqrt eighP (px i).
rewrite (distE (fun i => pd_herm (py i)) fx); split=> [h|h].
  move: h => /R_sqrt.sqrt_eq_0 h i.
  have {}h : \sum_i fro2 (fmx Rpower.ln (wh (fmx R_sqrt.sqrt (x i)) (y i))) = 0.
    by apply: h; apply/RleP; apply: sumr_ge0 => j _; apply: fro2_ge0.
  move/eqP: h; rewrite psumr_eq0; last by move=> j _; apply: fro2_ge0.
  move=> /allP/(_ i (mem_index_enum _))/eqP/fro2_eq0 e; have [uS eS] := fx i.
  have := fexp_fln eighP (wh_pd uS (py i)); rewrite e => e1.
  have e2 : fmx Rtrigo_def.exp (0 : 'M[K]_n) = 1%:M.
    rewrite -(rmorph1 (@Star.ofR K)) -(fmx_const 1 (herm0 _ _)); apply: eq_in_fmx; first exact: herm0.
    by move=> r [v v0]; rewrite mul0mx => /esym/eqP; rewrite scaler_eq0 (negbTE v0) orbF fmorph_eq0 => /eqP ->; exact: Rtrigo_def.exp_0.
  by rewrite -(whK (y i) uS) -e1 e2 mulmx1.
rewrite big1 ?R_sqrt.sqrt_0 // => i _; rewrite -h wh_self //.
have -> : fmx Rpower.ln (1%:M : 'M[K]_n) = 0; last exact: fro2_0.
rewrite -[RHS](scale0r 1%:M) scalemx1 -(rmorph0 (@Star.ofR K)) -(fmx_const 0 (herm1 _ _)); apply: eq_in_fmx; first exact: herm1.
move=> r [v v0]; rewrite mul1mx -[v in LHS]scale1r => /eqP; rewrite -subr_eq0 -scalerBl scaler_eq0 (negbTE v0) orbF subr_eq0.
by rewrite -(rmorph1 (@Star.ofR K)) => /eqP/ofR_inj <-; exact: Rpower.ln_1.
Qed.
Lemma fln_inv m (P : 'M[K]_m) : pd P -> fro2 (fmx Rpower.ln (invmx P)) = fro2 (fmx Rpower.ln P).
Proof.
move=> pP; have hP := pd_herm pP; rewrite -fmx_inv // fmx_comp //.
have -> : fmx (Rpower.ln \o (fun x : R => x^-1)) P = ofR (-1) *: fmx Rpower.ln P.
  rewrite fmxZ; apply: eq_in_fmx => // r /(eigval_gt0 pP) r0 /=; by rewrite lnV // mulN1r.
by rewrite fro2Z sqrrN expr1n mul1r.
Qed.
Theorem C55_symmetric x y : all_pd x -> all_pd y -> dist x y = dist y x.
Proof.
move=> px py; have h i : exists A B : 'M[K]_n, [/\ factor A (x i), factor B (y i) & wh A (y i) = invmx (wh B (x i))].
  have [B [d [uB e1 e2 d0]]] := simdiag (px i) (py i).
  have pS : pd (dia K (map_mx R_sqrt.sqrt d)) by apply: pd_dia => j; rewrite mxE sqrtR_gt0.
  have sq : dia K (map_mx R_sqrt.sqrt d) *m dia K (map_mx R_sqrt.sqrt d) = dia K d.
    by rewrite diaM; congr (dia K _); apply/matrixP => a b; rewrite !mxE (ord1 a) sqrtR_sqr // ltW.
  set s := dia K (map_mx R_sqrt.sqrt d) in pS sq; have us := pd_unit pS; have hs : s^H = s by exact: pd_herm.
  exists B, (B *m s); split.
  - by split.
  - by split; [rewrite unitmx_mul uB | rewrite adjM hs -!mulmxA (mulmxA s) sq mulmxA].
  have -> : wh B (y i) = dia K d by rewrite e2 unwhK.
  have -> : wh (B *m s) (x i) = invmx s *m invmx s.
    by rewrite e1 /wh invmxM' // adjM [(invmx s)^H]adjV hs !mulmxA mulmxKV // -[X in X *m _]mulmxA adjI // mulmx1.
  by rewrite -invmxM' // invmxK sq.
have hA i : exists AB : 'M[K]_n * 'M[K]_n, [/\ factor AB.1 (x i), factor AB.2 (y i) & wh AB.1 (y i) = invmx (wh AB.2 (x i))].
  by have [A [B hh]] := h i; exists (A, B).
pose AB i := epsilon (inhabits (0, 0)) (fun AB : 'M[K]_n * 'M[K]_n => [/\ factor AB.1 (x i), factor AB.2 (y i) & wh AB.1 (y i) = invmx (wh AB.2 (x i))]).
have {}h i : [/\ factor (AB i).1 (x i), factor (AB i).2 (y i) & wh (AB i).1 (y i) = invmx (wh (AB i).2 (x i))].
  exact: (epsilon_spec _ _ (hA i)).
rewrite (@distE x y (fun i => (AB i).1)); [|by move=> i; apply: pd_herm|by move=> i; case: (h i)].
rewrite (@distE y x (fun i => (AB i).2)); [|by move=> i; apply: pd_herm|by move=> i; case: (h i)].
congr (R_sqrt.sqrt _); apply: eq_bigr => i _; have [fA fB e] := h i.
by rewrite e fln_inv //; apply: wh_pd => //; case: fB.
Qed.
Theorem C55_congruence x y g : all_pd x -> all_pd y -> all_unit g -> dist (scongr g x) (scongr g y) = dist x y.
Proof.
move=> px py ug; have fx i := factor_sqrt eighP (px i).
rewrite (@distE (scongr g x) _ (fun i => g i *m fmx R_sqrt.sqrt (x i))); last 2 first.
- by move=> i; apply: herm_congr; apply: pd_herm.
- by move=> i; apply: factor_congr.
rewrite (distE (fun i => pd_herm (py i)) fx); congr (R_sqrt.sqrt _); apply: eq_bigr => i _.
by rewrite wh_congr //; case: (fx i).
Qed.
Theorem C55_inversion x y : all_pd x -> all_pd y -> dist (sinv x) (sinv y) = dist x y.
Proof.
move=> px py; have fx i := factor_sqrt eighP (px i).
rewrite (@distE (sinv x) (sinv y) (fun i => (invmx (fmx R_sqrt.sqrt (x i)))^H)); last 2 first.
- by move=> i; apply/herm_inv/pd_herm.
- by move=> i; have [uS e] := fx i; split; [rewrite unitmx_adj unitmx_inv | rewrite adjK -(factor_inv (fx i))].
rewrite (distE (fun i => pd_herm (py i)) fx); congr (R_sqrt.sqrt _); apply: eq_bigr => i _; have [uS _] := fx i.
have -> : wh (invmx (fmx R_sqrt.sqrt (x i)))^H (sinv y i) = invmx (wh (fmx R_sqrt.sqrt (x i)) (y i)).
  have uH : (invmx (fmx R_sqrt.sqrt (x i)))^H \in unitmx by rewrite unitmx_adj unitmx_inv.
  have uV : invmx (fmx R_sqrt.sqrt (x i)) \in unitmx by rewrite unitmx_inv.
  have uy := pd_unit (py i).
  have eS : invmx (invmx (fmx R_sqrt.sqrt (x i)))^H = (fmx R_sqrt.sqrt (x i))^H by rewrite adjV invmxK.
  by rewrite /wh (invmxM' _ uH) ?(invmxM' uV) ?unitmx_mul ?uV // eS adjK invmxK mulmxA.
by rewrite fln_inv //; apply: wh_pd.
Qed.
End Props.
(* independence of the eigensolver *)
Theorem C49_eigensolver_irrelevant (K : starField) (e1 e2 : eigsolver K) n k (x y u : stack K n k) i :
  eigh_ok e1 -> eigh_ok e2 -> all_pd x -> all_pd y -> all_herm u ->
  hpd_exp e1 x u i = hpd_exp e2 x u i /\ hpd_log e1 x y i = hpd_log e2 x y i.
Proof.
move=> h1 h2 px py hu; rewrite /hpd_exp /hpd_log (hexpE h1) // (hexpE h2) // (hlogE h1) // ?(hlogE h2) //; exact: pd_herm.
Qed.
(* The hypotheses on the oracles can be met. *)
Theorem C50_cholesky_exists (K : starField) : exists cholesky : forall n, 'M[K]_n -> 'M[K]_n, chol_ok cholesky.
Proof.
have [e he] := C61_eigensolver_exists K; exists (fun n x => fmx R_sqrt.sqrt x) => n x px.
by have [] := factor_sqrt he px.
Qed.
Lemma root_eig (K : starField) m (B : 'M[K]_m) (s : 'rV[R]_m) (r : K) (u : 'cV[K]_m) : B \in unitmx -> (forall j, 0 < s 0 j) ->
  u != 0 -> (B *m dia K s *m invmx B) *m u = r *: u -> 0 < @toR K r.
Proof.
move=> uB s0 u0 h; pose w := invmx B *m u.
have w0 : w != 0 by apply: contraNneq u0 => e; rewrite -(mulKVmx uB u) -/w e mulmx0.
have hw : dia K s *m w = r *: w.
  by rewrite /w scalemxAr -h !mulmxA mulVmx // mul1mx.
have := (pd_dia K s0).2 w w0; rewrite /qf /sesq -mulmxA hw -scalemxAr mxE pmulr_lgt0 ?normcol_gt0 //.
exact: toR_gt0.
Qed.
Theorem C51_sqrtm_exists (K : starField) : exists ssqrtm : forall n, 'M[K]_n -> 'M[K]_n, sqrtm_ok ssqrtm.
Proof.
exists (fun n A => epsilon (inhabits 0) (principal_root A)) => n B d uB d0; apply: epsilon_spec.
exists (B *m dia K (map_mx R_sqrt.sqrt d) *m invmx B); split.
  rewrite !mulmxA mulmxKV // -(mulmxA B) diaM; congr (_ *m dia K _ *m _); apply/matrixP => i j.
  by rewrite !mxE (ord1 i) sqrtR_sqr // ltW.
by move=> r u; apply: root_eig => // j; rewrite mxE sqrtR_gt0.
Qed.
(* A case where everything can be computed: scalar matrices.  The distance from I to c I is
   |ln c| sqrt(n k), and exp(I, t I) = e^t I. *)
Lemma fmx_scalar (K : starField) m (f : R -> R) (c : R) : fmx f (@ofR K c *: 1%:M : 'M[K]_m) = @ofR K (f c) *: 1%:M.
Proof.
rewrite fmx_scale; last exact: herm1.
rewrite scalemx1 -(fmx_const (f c) (herm1 K m)); apply: eq_in_fmx; first exact: herm1.
move=> r [v v0]; rewrite mul1mx -[v in LHS]scale1r => /eqP; rewrite -subr_eq0 -scalerBl scaler_eq0 (negbTE v0) orbF subr_eq0.
by rewrite -(rmorph1 (@ofR K)) => /eqP/ofR_inj <-; rewrite mulr1.
Qed.
Example C55_ex (K : starField) eigh cholesky (c : R) : eigh_ok eigh -> chol_ok cholesky -> 0 < c ->
  @all_pd K 1 1 (fun _ => 1%:M) /\ @all_pd K 1 1 (fun _ => @ofR K c *: 1%:M) /\
  @hpd_dist K eigh cholesky 1 1 (fun _ => 1%:M) (fun _ => @ofR K c *: 1%:M) = `|Rpower.ln c|.
Proof.
move=> he hc c0; split; first by move=> i; exact: pd1.
have p : pd (@ofR K c *: 1%:M : 'M[K]_1) by apply: pdZ; [rewrite ofR_gt0|exact: pd1].
split=> //; rewrite (@distE K eigh cholesky he hc 1 1 _ _ (fun _ => 1%:M)).
- rewrite big_ord1 /wh invmx1 adj1 mul1mx mulmx1 fmx_scalar -[X in Rpower.ln X]/c.
  rewrite fro2Z; have -> : fro2 (1%:M : 'M[K]_1) = 1.
    by apply: (@ofR_inj K); rewrite fro2_tr adj1 mulmx1 mxtrace1 rmorph1.
  rewrite mulr1 -real_normK ?num_real // sqrtR_sq //.
- by move=> i; apply: pd_herm.
- by move=> i; split; [exact: unitmx1 | rewrite adj1 mulmx1].
Qed.

Print Assumptions C48_retr_positive_definite.
Print Assumptions C48_retr_zero.
Print Assumptions C48_retr_first_order.
Print Assumptions C49_exp_positive_definite.
Print Assumptions C49_exp_log.
Print Assumptions C49_log_exp.
Print Assumptions C49_log_hermitian.
Print Assumptions C50_inner_real.
Print Assumptions C50_inner_symmetric.
Print Assumptions C50_inner_bilinear.
Print Assumptions C50_inner_positive.
Print Assumptions C50_inner_definite.
Print Assumptions C50_inner_invariant.
Print Assumptions C50_norm.
Print Assumptions C50_gradient.
Print Assumptions C50_gradient_tangent.
Print Assumptions C50_projection.
Print Assumptions C51_transp_hermitian.
Print Assumptions C51_transp_isometry.
Print Assumptions C51_transp_point.
Print Assumptions C55_nonnegative.
Print Assumptions C55_norm_of_log.
Print Assumptions C55_separates.
Print Assumptions C55_symmetric.
Print Assumptions C55_congruence.
Print Assumptions C55_inversion.
Print Assumptions C49_eigensolver_irrelevant.
Print Assumptions C50_cholesky_exists.
Print Assumptions C51_sqrtm_exists.
