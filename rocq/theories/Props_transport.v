(* Vector transport along geodesics: C106. *)
From Coq Require Import Reals.
From Coquelicot Require Import Coquelicot.
From mathcomp Require Import all_ssreflect all_algebra.
From Verif Require Import RealsMC RealTac RealTac2 Star StarInst FunCalc Model_linalg Proofs_linalg Props_linalg Proofs_cost Model_manifolds Proofs_hpd
  Props_spv Props_hpd GeoNum Props_geodesic Proofs_gconvex Props_shpd TranspNum.
Set Implicit Arguments.
Unset Strict Implicit.
Unset Printing Implicit Defensive.
Local Open Scope ring_scope.
Import GRing.Theory Num.Theory Order.TTheory.
Local Notation "A ^H" := (adj A) (at level 8, format "A ^H").

Lemma half_alg (r : R) : 2%:R^-1 * r + 2%:R^-1 * r = r.
Proof. rfield. Qed.
Section Curves.
Variables (K : starField) (n : nat).
Implicit Types x u v G Z A : 'M[K]_n.
Local Notation ofR := (@ofR K).
Local Notation toR := (@toR K).
(* G (f o Z) G^H, o the entrywise product *)
Definition hd G (f : 'I_n -> 'I_n -> R) Z := G *m (\matrix_(j, k) (ofR (f j k) * Z j k)) *m G^H.
Lemma tr_hd A G f Z : toR (\tr (A *m hd G f Z)) = \sum_j \sum_k f j k * toR (Z j k * (G^H *m A *m G) k j).
Proof.
rewrite /hd !mulmxA mxtrace_mulC !mulmxA mxtrace_mulC /mxtrace raddf_sum; apply: eq_bigr => j _.
rewrite mxE raddf_sum; apply: eq_bigr => k _; rewrite mxE -mulrA toRZ; exact: erefl.
Qed.
Lemma mderive_hd G (f f' : 'I_n -> 'I_n -> R -> R) Z : (forall j k (t c : R), is_derive (fun s => f j k s * c) t (f' j k t * c)) ->
  mderive (fun t => hd G (fun j k => f j k t) Z) (fun t => hd G (fun j k => f' j k t) Z).
Proof.
move=> h A t; rewrite tr_hd.
apply: (@is_derive_ext R_AbsRing R_NormedModule (fun s => \sum_j \sum_k f j k s * toR (Z j k * (G^H *m A *m G) k j))) => [s|].
  by rewrite tr_hd.
by apply: d_sum => j; apply: d_sum => k; apply: h.
Qed.
Lemma eq_hd G f g Z : (forall j k, f j k = g j k) -> hd G f Z = hd G g Z.
Proof. by move=> e; congr (_ *m _ *m _); apply/matrixP => j k; rewrite !mxE e. Qed.
Lemma hd_dia G (d e : 'rV[R]_n) Z : G *m (dia K d *m Z *m dia K e) *m G^H = hd G (fun j k => d 0 j * e 0 k) Z.
Proof.
congr (_ *m _ *m _); apply/matrixP => j k; rewrite mul_mx_dia mul_dia_mx mxE rmorphM mulrC mulrA [X in X * _]mulrC; congr (_ * _).
Qed.
End Curves.

(* a field V along the curve c, of velocity c', has a zero covariant derivative *)
Definition parallel (K : starField) n (c c' V : R -> 'M[K]_n) := exists2 V', mderive V V' &
  forall t, V' t = @ofR K (2%:R^-1) *: (c' t *m invmx (c t) *m V t + V t *m invmx (c t) *m c' t).

Section One.
Variables (K : starField) (eigh : eigsolver K) (ssqrtm : forall n, 'M[K]_n -> 'M[K]_n).
Hypotheses (eighP : eigh_ok eigh) (sqrtmP : sqrtm_ok ssqrtm).
Variable n : nat.
Implicit Types x y u v G Z A : 'M[K]_n.
Local Notation ofR := (@ofR K).
Local Notation toR := (@toR K).
Local Notation exp := Rtrigo_def.exp.
Local Notation transp := (@htransp1 K ssqrtm n).
Local Notation geo x u t := (hexp1 eigh x (ofR t *: u)).

Lemma functional_eq (M N : 'M[K]_n) : (forall A, toR (\tr (A *m M)) = toR (\tr (A *m N))) -> M = N.
Proof.
move=> h; apply/eqP; rewrite -subr_eq0; apply/eqP/fro2_eq0/(@ofR_inj K); rewrite rmorph0 -(toRK K (fro2 _)) fro2_tr mxtrace_mulC.
by rewrite mulmxBr linearB raddfB /= h subrr rmorph0.
Qed.
Lemma transpE x y v : transp x y v = ssqrtm (y *m invmx x) *m v *m (ssqrtm (y *m invmx x))^H.
Proof. by rewrite /htransp1 !multihconjE /solve adjM adjV !adjK. Qed.
Lemma mderive_uniq (c d e : R -> 'M[K]_n) t : mderive c d -> mderive c e -> d t = e t.
Proof.
move=> hd he; apply: functional_eq => A.
by rewrite -(is_derive_unique _ _ _ (hd A t)) -(is_derive_unique _ _ _ (he A t)).
Qed.
Lemma eq_mderive (c d c' : R -> 'M[K]_n) : (forall t, c t = d t) -> mderive c c' -> mderive d c'.
Proof.
move=> e h A t; apply: (@is_derive_ext R_AbsRing R_NormedModule (fun s => toR (\tr (A *m c s)))) => [s|]; last exact: h.
by rewrite e.
Qed.
Section Basis.
Variables (G : 'M[K]_n) (w : 'rV[R]_n).
Hypothesis uG : G \in unitmx.
Definition vcurve (t : R) := G *m dia K (\row_j (w 0 j * exp (t * w 0 j))) *m G^H.
Lemma mderive_ecurve : mderive (ecurve G w) vcurve.
Proof.
move=> A t.
have e (f : 'I_n -> R) : toR (\tr (A *m (G *m dia K (\row_j f j) *m G^H))) = \sum_j f j * toR ((G^H *m A *m G) j j).
  rewrite !mulmxA mxtrace_mulC !mulmxA /mxtrace raddf_sum; apply: eq_bigr => j _; rewrite mul_mx_dia mxE mulrC toRZ; exact: erefl.
rewrite e; apply: (@is_derive_ext R_AbsRing R_NormedModule (fun s => \sum_j exp (s * w 0 j) * toR ((G^H *m A *m G) j j))) => [s|].
  by rewrite e.
by apply: d_sum => j; apply: d_exp0.
Qed.
Lemma uGH : G^H \in unitmx. Proof. by rewrite unitmx_adj. Qed.
Lemma uexp (t : R) : dia K (\row_j exp (t * w 0 j)) \in unitmx.
Proof. by apply/pd_unit/pd_dia => j; rewrite mxE expR_gt0. Qed.
Lemma vdia t : dia K (\row_j (w 0 j * exp (t * w 0 j))) = dia K w *m dia K (\row_j exp (t * w 0 j)).
Proof. by rewrite diaM; congr (dia K _); apply/rowP => j; rewrite !mxE. Qed.
Lemma vdiaC t : dia K (\row_j (w 0 j * exp (t * w 0 j))) = dia K (\row_j exp (t * w 0 j)) *m dia K w.
Proof. by rewrite diaM; congr (dia K _); apply/rowP => j; rewrite !mxE mulrC. Qed.
Lemma invec t : invmx (ecurve G w t) = (invmx G)^H *m invmx (dia K (\row_j exp (t * w 0 j))) *m invmx G.
Proof. by rewrite /ecurve !invmxM' ?unitmx_mul ?uG ?uexp ?uGH // adjV mulmxA. Qed.
Lemma covl t Y : vcurve t *m invmx (ecurve G w t) *m (G *m Y *m G^H) = G *m (dia K w *m Y) *m G^H.
Proof.
rewrite invec /vcurve vdia !mulmxA -(mulmxA _ G^H) adjI // mulmx1 (mulmxK (uexp t)) (mulmxKV uG) //.
Qed.
Lemma covr t Y : (G *m Y *m G^H) *m invmx (ecurve G w t) *m vcurve t = G *m (Y *m dia K w) *m G^H.
Proof.
rewrite invec /vcurve vdiaC !mulmxA -(mulmxA _ G^H) adjI // mulmx1 (mulmxKV uG) (mulmxKV (uexp t)) //.
Qed.
Definition mid j k := 2%:R^-1 * (w 0 j + w 0 k).
Lemma cov t Y : ofR 2%:R^-1 *: (vcurve t *m invmx (ecurve G w t) *m (G *m Y *m G^H) + (G *m Y *m G^H) *m invmx (ecurve G w t) *m vcurve t)
  = hd G mid Y.
Proof.
rewrite covl covr -mulmxDl -mulmxDr scalemxAl scalemxAr; congr (_ *m _ *m _); apply/matrixP => j k.
by rewrite [RHS]mxE mxE [in LHS]mxE mul_dia_mx mul_mx_dia (mulrC (Y j k)) -mulrDl mulrA /mid rmorphM rmorphD.
Qed.
(* the transport in this basis *)
Lemma transp_curve v t : transp (G *m G^H) (ecurve G w t) v = hd G (fun j k => exp (t * mid j k)) (wh G v).
Proof.
rewrite transpE; have -> : ecurve G w t *m invmx (G *m G^H) = G *m dia K (\row_j exp (t * w 0 j)) *m invmx G.
  by rewrite /ecurve invmxM' ?uGH // !mulmxA mulmxK // uGH.
have d0 j : 0 < (\row_j exp (t * w 0 j)) 0 j by rewrite mxE expR_gt0.
have := sqrtmP uG d0; move: (ssqrtm _) => E /(root_uniq uG d0) ->.
have e D : G *m D *m invmx G *m v *m ((invmx G)^H *m (D *m G^H)) = G *m (D *m wh G v *m D) *m G^H by rewrite /wh !mulmxA.
rewrite !adjM adj_dia e.
rewrite hd_dia; apply: eq_hd => j k; rewrite !mxE.
have sq r : R_sqrt.sqrt (exp r) = exp (2%:R^-1 * r).
  by apply: sqrtR_of; [exact/ltW/expR_gt0|rewrite expr2 -RmultE -exp_plus RplusE half_alg].
by rewrite !sq -RmultE -exp_plus RplusE /mid -mulrDr -mulrDr mulrCA.
Qed.
Lemma mderive_transp v : mderive (fun t => hd G (fun j k => exp (t * mid j k)) (wh G v)) (fun t => hd G (fun j k => mid j k * exp (t * mid j k)) (wh G v)).
Proof. by apply: (@mderive_hd K n G (fun j k t => exp (t * mid j k)) (fun j k t => mid j k * exp (t * mid j k))) => j k t c; apply: d_exp0. Qed.
Lemma basis_parallel v : parallel (ecurve G w) vcurve (fun t => hd G (fun j k => exp (t * mid j k)) (wh G v)).
Proof.
exists (fun t => hd G (fun j k => mid j k * exp (t * mid j k)) (wh G v)); first exact: mderive_transp.
by move=> t; rewrite /hd cov /hd; congr (_ *m _ *m _); apply/matrixP => j k; rewrite !mxE rmorphM mulrA.
Qed.
Lemma pick A j k : (forall a : K, toR (a * A j k) = toR (\tr ((a *: delta_mx k j) *m A))).
Proof.
move=> a; rewrite -scalemxAl mxtraceZ /mxtrace (bigD1 k) //= big1 ?addr0 => [|i ne].
  rewrite mxE (bigD1 j) //= big1 ?addr0 => [|i ne]; first by rewrite mxE !eqxx mul1r.
  by rewrite mxE (negbTE ne) andbF mul0r.
by rewrite mxE big1 // => l _; rewrite mxE (negbTE ne) mul0r.
Qed.
Lemma basis_unique V t : parallel (ecurve G w) vcurve V -> V t = hd G (fun j k => exp (t * mid j k)) (wh G (V 0)).
Proof.
move=> [V' dV eV]; rewrite -[LHS](whK _ uG); congr (_ *m _ *m _); apply: functional_eq => A.
have ent j k (a : K) : toR (a * wh G (V t) j k) = exp (t * mid j k) * toR (a * wh G (V 0) j k).
  apply: (@linear_ode (fun s => toR (a * wh G (V s) j k)) (mid j k)) => s.
  have e (M : 'M[K]_n) : toR (a * wh G M j k) = toR (\tr (((invmx G)^H *m (a *: delta_mx k j) *m invmx G) *m M)).
    by rewrite pick /wh !mulmxA mxtrace_mulC !mulmxA.
  have e2 : mid j k * toR (a * wh G (V s) j k) = toR (a * wh G (V' s) j k).
    have h := whK (V s) uG; rewrite eV -h cov /hd !unwhK // [in RHS]mxE mulrCA toRZ; exact: erefl.
  suff : is_derive (fun r => toR (a * wh G (V r) j k) : R) s (toR (a * wh G (V' s) j k)) by rewrite -e2.
  apply: (@is_derive_ext R_AbsRing R_NormedModule (fun r => toR (\tr (((invmx G)^H *m (a *: delta_mx k j) *m invmx G) *m V r)))) => [r|].
    by rewrite e.
  rewrite e; exact: dV.
rewrite /mxtrace !raddf_sum; apply: eq_bigr => k _; rewrite !mxE !raddf_sum; apply: eq_bigr => j _.
rewrite ent [in RHS]mxE [X in _ = toR X]mulrCA toRZ; exact: erefl.
Qed.
End Basis.

Lemma basis x u : pd x -> herm u -> exists G w, [/\ G \in unitmx, x = G *m G^H, u = G *m dia K w *m G^H &
  forall t, geo x u t = ecurve G w t].
Proof. exact: hexp_curve. Qed.
(* The transport of v along the geodesic has a zero covariant derivative, and starts from v. *)
Theorem C106_parallel x u v c' : pd x -> herm u -> mderive (fun t => geo x u t) c' ->
  parallel (fun t => geo x u t) c' (fun t => transp x (geo x u t) v) /\ transp x (geo x u 0) v = v.
Proof.
move=> px hu dc; have [G [w [uG ex eu eg]]] := basis px hu.
have ec t : c' t = vcurve G w t.
  by apply: (mderive_uniq t dc); apply: (eq_mderive (c := ecurve G w)) (mderive_ecurve _ _) => s; rewrite eg.
have et t : transp x (geo x u t) v = hd G (fun j k => exp (t * mid w j k)) (wh G v) by rewrite eg {1}ex transp_curve.
split.
  have [V' dV eV] := basis_parallel w uG v; exists V'.
    by apply: (eq_mderive (c := fun t => hd G (fun j k => exp (t * mid w j k)) (wh G v))) => // t; rewrite et.
  by move=> t; rewrite et eg ec eV.
rewrite et -[RHS](whK v uG); congr (_ *m _ *m _); apply/matrixP => j k; rewrite mxE mul0r Rtrigo_def.exp_0.
by rewrite -[ofR _]/(ofR 1) rmorph1 mul1r.
Qed.
(* It is the only such field. *)
Theorem C106_unique x u V c' t : pd x -> herm u -> mderive (fun t => geo x u t) c' ->
  parallel (fun t => geo x u t) c' V -> V t = transp x (geo x u t) (V 0).
Proof.
move=> px hu dc [V' dV eV]; have [G [w [uG ex eu eg]]] := basis px hu.
have ec s : c' s = vcurve G w s.
  by apply: (mderive_uniq s dc); apply: (eq_mderive (c := ecurve G w)) (mderive_ecurve _ _) => r; rewrite eg.
rewrite eg {1}ex transp_curve //; apply: basis_unique => //; exists V' => // s.
by rewrite eV ec eg.
Qed.
(* It carries the velocity of the geodesic. *)
Theorem C106_velocity x u c' t : pd x -> herm u -> mderive (fun t => geo x u t) c' -> transp x (geo x u t) u = c' t.
Proof.
move=> px hu dc; have [G [w [uG ex eu eg]]] := basis px hu.
have -> : c' t = vcurve G w t.
  by apply: (mderive_uniq t dc); apply: (eq_mderive (c := ecurve G w)) (mderive_ecurve _ _) => s; rewrite eg.
rewrite eg {1}ex transp_curve // {1}eu unwhK //; congr (_ *m _ *m _); apply/matrixP => j k; rewrite mxE !diaE.
case: eqP => [->|_]; last by rewrite !mulr0n mulr0.
by rewrite !mulr1n mxE rmorphM mulrC /mid mulrDr half_alg.
Qed.
(* Seen from the other end. *)
Definition far G (w : 'rV[R]_n) := G *m dia K (\row_j exp (2%:R^-1 * w 0 j)).
Lemma far_unit G w : G \in unitmx -> far G w \in unitmx.
Proof. by move=> uG; rewrite unitmx_mul uG uexp. Qed.
Lemma far_hd G w f Z : hd (far G w) f Z = hd G (fun j k => exp (mid w j k) * f j k) Z.
Proof.
have e (D M : 'M[K]_n) : G *m D *m M *m (D *m G^H) = G *m (D *m M *m D) *m G^H by rewrite !mulmxA.
rewrite /hd /far adjM adj_dia e; congr (_ *m _ *m _); apply/matrixP => j k.
rewrite mul_mx_dia mul_dia_mx !mxE mulrAC mulrA /mid mulrDr -RplusE exp_plus RmultE !rmorphM.
by rewrite -!mulrA; congr (_ * _); rewrite mulrCA.
Qed.
Lemma hd_one G Z : hd G (fun _ _ => 1) Z = G *m Z *m G^H.
Proof. by congr (_ *m _ *m _); apply/matrixP => j k; rewrite mxE rmorph1 mul1r. Qed.
Lemma ecurve_hd G w t : ecurve G w t = hd G (fun j k => exp (t * mid w j k)) 1%:M.
Proof.
congr (_ *m _ *m _); apply/matrixP => j k; rewrite diaE [RHS]mxE [X in _ * X]mxE; case: eqP => [->|_]; last by rewrite !mulr0n mulr0.
by rewrite !mulr1n mulr1 mxE /mid mulrDr half_alg.
Qed.
Lemma midN (w : 'rV[R]_n) j k : mid (- w) j k = - mid w j k.
Proof. by rewrite /mid !mxE -opprD mulrN. Qed.
Lemma expN1 (a : R) : exp a * exp (1 * - a) = 1.
Proof. by rewrite mul1r -RmultE -exp_plus RplusE addrN; exact: Rtrigo_def.exp_0. Qed.
Lemma far_self G w : far G w *m (far G w)^H = ecurve G w 1.
Proof.
rewrite -[X in X *m _]mulmx1 -hd_one far_hd ecurve_hd; apply: eq_hd => j k; by rewrite mulr1 mul1r.
Qed.
Lemma far_near G w : ecurve (far G w) (- w) 1 = G *m G^H.
Proof.
rewrite ecurve_hd far_hd -[X in _ = X *m _]mulmx1 -hd_one; apply: eq_hd => j k; by rewrite midN expN1.
Qed.
Lemma ends x y : pd x -> pd y -> exists G w, [/\ G \in unitmx, x = G *m G^H, hlog1 eigh x y = G *m dia K w *m G^H,
  y = ecurve G w 1 & hlog1 eigh y x = - vcurve G w 1].
Proof.
move=> px py; have hu : herm (hlog1 eigh x y) := hlog_herm _ _ _.
have [G [w [uG ex eu eg]]] := basis px hu; exists G, w; split=> //.
  by rewrite -eg rmorph1 scale1r hexp_log.
have ey : y = ecurve G w 1 by rewrite -eg rmorph1 scale1r hexp_log.
have uF := far_unit w uG.
have ex' : x = hexp1 eigh y (far G w *m dia K (- w) *m (far G w)^H).
  by rewrite ey -far_self -[X in hexp1 _ _ X]scale1r -(rmorph1 ofR) (hexp_ecurve eighP) // far_near.
rewrite [X in hlog1 _ _ X]ex' (hlog_exp eighP) //; last by apply: herm_congr; exact: adj_dia.
have -> : far G w *m dia K (- w) *m (far G w)^H = hd (far G w) (fun _ _ => 1) (dia K (- w)) by rewrite hd_one.
rewrite far_hd /vcurve -mulNmx -mulmxN; congr (_ *m _ *m _); apply/matrixP => j k; rewrite mxE [RHS]mxE !diaE.
case: eqP => [->|_]; last by rewrite !mulr0n mulr0 oppr0.
by rewrite !mulr1n !mxE mulr1 /mid mulrDr half_alg mul1r rmorphN rmorphM mulrN mulrC.
Qed.
(* The transport turns the direction of y seen from x into the opposite of the direction of x seen from y. *)
Theorem C106_log x y : pd x -> pd y -> transp x y (hlog1 eigh x y) = - hlog1 eigh y x.
Proof.
move=> px py; have [G [w [uG ex el ey eyx]]] := ends px py.
rewrite eyx opprK el [in LHS]ex [in LHS]ey transp_curve // unwhK //; congr (_ *m _ *m _); apply/matrixP => j k; rewrite mxE !diaE.
case: eqP => [->|_]; last by rewrite !mulr0n mulr0.
by rewrite !mulr1n mxE rmorphM mulrC /mid mulrDr half_alg.
Qed.
(* The transport back undoes the transport. *)
Theorem C106_back x y v : pd x -> pd y -> transp y x (transp x y v) = v.
Proof.
move=> px py; have [G [w [uG ex el ey eyx]]] := ends px py; have uF := far_unit w uG.
have e : transp x y v = far G w *m wh G v *m (far G w)^H.
  by rewrite ex ey transp_curve // -hd_one far_hd; apply: eq_hd => j k; rewrite mul1r mulr1.
rewrite e ey -far_self {1}ex -(far_near G w) transp_curve // unwhK // far_hd -[RHS](whK v uG) -hd_one.
by apply: eq_hd => j k; rewrite midN expN1.
Qed.
End One.

(* on the matrices of determinant one: the same transport, between the tangent spaces of that manifold *)
Section Special.
Variables (K : starField) (eigh : eigsolver K) (ssqrtm : forall n, 'M[K]_n -> 'M[K]_n).
Hypotheses (eighP : eigh_ok eigh) (sqrtmP : sqrtm_ok ssqrtm).
Variables n k : nat.
Hypothesis n0 : (0 < n)%N.
Implicit Types x u v : stack K n k.
Local Notation ofR := (@ofR K).
Theorem C106_special x u v t i : special x -> tangent x u -> tangent x v ->
  shpd_exp eigh x (fun i => ofR t *: u i) i = hexp1 eigh (x i) (ofR t *: u i) /\
  shpd_transp ssqrtm x (shpd_exp eigh x (fun i => ofR t *: u i)) v i = htransp1 ssqrtm (x i) (hexp1 eigh (x i) (ofR t *: u i)) (v i).
Proof.
move=> sx tu tv.
have tt : tangent x (fun i => ofR t *: u i).
  by move=> l; have [hu e] := tu l; split; [exact: hermZR|rewrite -scalemxAr mxtraceZ e mulr0].
have e := C52_exp_geodesic eighP i sx tt; split=> //.
have p2 : all_pd (shpd_exp eigh x (fun i => ofR t *: u i)).
  by move=> l; rewrite (C52_exp_geodesic eighP l sx tt); apply: hexp_pd => //; [case: (sx l)|case: (tt l)].
have [_ h _] := C52_transp eighP sqrtmP n0 (fun l => proj1 (sx l)) p2 tv tv.
by rewrite h /hpd_transp e.
Qed.
End Special.

(* on the positive vectors *)
Section Vectors.
Variables n k : nat.
Implicit Types x y u v : 'M[R]_(n, k).
Lemma spv_vel x u (c' : R -> 'M[R]_(n, k)) i j (t : R) : positive x -> (forall i j (t : R), is_derive (fun s : R => spv_exp x (s *: u) i j : R) t (c' t i j : R)) ->
  c' t i j = u i j * (x i j)^-1 * spv_exp x (t *: u) i j.
Proof.
move=> px dc; have /RltP h := px i j; have d := @d_spv0 (x i j) (u i j) t h.
have e : is_derive (fun s : R => spv_exp x (s *: u) i j : R) t (u i j * Rtrigo_def.exp (Rinv (x i j) * (t * u i j))).
  apply: (@is_derive_ext R_AbsRing R_NormedModule (fun s => x i j * Rtrigo_def.exp (Rinv (x i j) * (s * u i j)))) => // s.
  by rewrite !mxE Rinv_E.
rewrite -(is_derive_unique _ _ _ (dc i j t)) (is_derive_unique _ _ _ e) !mxE Rinv_E.
by rewrite -[RHS]mulrA mulKf // gt_eqF.
Qed.
Theorem C106_vectors x u v (c' : R -> 'M[R]_(n, k)) i j t : positive x -> (forall i j (t : R), is_derive (fun s : R => spv_exp x (s *: u) i j : R) t (c' t i j : R)) ->
  [/\ is_derive (fun s : R => spv_transp x (spv_exp x (s *: u)) v i j : R) t
        (c' t i j * (spv_exp x (t *: u) i j)^-1 * spv_transp x (spv_exp x (t *: u)) v i j),
      spv_transp x (spv_exp x (0 *: u)) v i j = v i j &
      spv_transp x (spv_exp x (t *: u)) u i j = c' t i j].
Proof.
move=> px dc; have x0 : x i j != 0 by rewrite gt_eqF.
have e0 : Rtrigo_def.exp ((x i j)^-1 * (t * u i j)) != 0 by rewrite gt_eqF // expR_gt0.
rewrite (spv_vel _ _ t px dc); split.
- have d := d_spvt (x i j) (u i j) (v i j) t.
  have -> : u i j * (x i j)^-1 * spv_exp x (t *: u) i j * (spv_exp x (t *: u) i j)^-1 * spv_transp x (spv_exp x (t *: u)) v i j =
    u i j * Rinv (x i j) * (x i j * Rtrigo_def.exp (Rinv (x i j) * (t * u i j)) * (Rinv (x i j) * v i j)).
    have ne : spv_exp x (t *: u) i j != 0 by rewrite !mxE mulf_neq0.
    by rewrite mulfK // !mxE Rinv_E.
  apply: (@is_derive_ext R_AbsRing R_NormedModule (fun s => x i j * Rtrigo_def.exp (Rinv (x i j) * (s * u i j)) * (Rinv (x i j) * v i j))) => [s|]; last exact: d.
  by rewrite !mxE Rinv_E.
- by rewrite !mxE mul0r mulr0 Rtrigo_def.exp_0 mulr1 mulVKf.
- by rewrite !mxE [RHS]mulrC; congr (_ * _); rewrite mulrC.
Qed.
Theorem C106_vectors_unique x u (V c' : R -> 'M[R]_(n, k)) i j t : positive x -> (forall i j (t : R), is_derive (fun s : R => spv_exp x (s *: u) i j : R) t (c' t i j : R)) ->
  (forall i j (t : R), is_derive (fun s : R => V s i j : R) t (c' t i j * (spv_exp x (t *: u) i j)^-1 * V t i j)) ->
  V t i j = spv_transp x (spv_exp x (t *: u)) (V 0) i j.
Proof.
move=> px dc dV; have x0 : x i j != 0 by rewrite gt_eqF.
rewrite (@linear_ode (fun s => V s i j) (u i j * (x i j)^-1)) => [|s].
  rewrite !mxE; have -> : (x i j)^-1 * (t * u i j) = t * (u i j * (x i j)^-1) by rewrite mulrCA [_^-1 * _]mulrC.
  by rewrite -[RHS]mulrA [X in _ = _ * X]mulrCA mulVKf.
have e0 : Rtrigo_def.exp ((x i j)^-1 * (s * u i j)) != 0 by rewrite gt_eqF // expR_gt0.
by have := dV i j s; rewrite (spv_vel _ _ s px dc) mulfK // !mxE mulf_neq0.
Qed.
Theorem C106_vectors_log x y i j : positive x -> positive y -> spv_transp x y (spv_log x y) i j = - spv_log y x i j.
Proof.
move=> px py; have x0 := px i j; have y0 := py i j; rewrite !mxE mulKf ?gt_eqF // !lnRM ?invr_gt0 // !lnRV //.
by rewrite -mulrN opprD opprK addrC.
Qed.
End Vectors.

(* On 1 x 1 matrices the geodesic from 1 in the direction 1 ends at e, and the transport multiplies by e. *)
Example C106_ex (K : starField) : exists eigh ssqrtm, [/\ @eigh_ok K eigh, @sqrtm_ok K ssqrtm, pd (1%:M : 'M[K]_1),
  hexp1 eigh (1%:M : 'M[K]_1) 1%:M = (@ofR K (Rtrigo_def.exp 1))%:M &
  htransp1 ssqrtm (1%:M : 'M[K]_1) (@ofR K (Rtrigo_def.exp 1))%:M 1%:M = (@ofR K (Rtrigo_def.exp 1))%:M].
Proof.
have [e he] := C61_eigensolver_exists K; have [s hs] := C51_sqrtm_exists K; exists e, s.
have [p [h eE]] := C70_ex he; split=> //.
have p2 : pd ((@ofR K (Rtrigo_def.exp 1))%:M : 'M[K]_1) by rewrite -eE; apply: hexp_pd.
by have [E [_ ->] ->] := transp_root hs p p2.
Qed.
(* On 2 x 2 matrices of determinant one: the identity and two of its tangent vectors. *)
Example C106_ex2 (K : starField) : exists x u v : stack K 2 1,
  [/\ special x, tangent x u, tangent x v & u ord0 *m v ord0 <> v ord0 *m u ord0].
Proof.
pose A : 'M[K]_2 := \matrix_(i, j) (if i == j then (-1) ^+ i else 0).
pose B : 'M[K]_2 := \matrix_(i, j) (if i == j then 0 else 1).
exists (fun=> 1%:M), (fun=> A), (fun=> B); split.
- by move=> i; split; [exact: pd1|exact: det1].
- move=> i; rewrite invmx1 mul1mx /mxtrace !big_ord_recl big_ord0 !mxE /= expr0 expr1 addr0 subrr; split=> //.
  apply/matrixP => a b; rewrite !mxE eq_sym; case: eqP => [->|]; last by rewrite rmorph0.
  by rewrite rmorphX rmorphN rmorph1.
- move=> i; rewrite invmx1 mul1mx /mxtrace !big_ord_recl big_ord0 !mxE /= !addr0; split=> //.
  by apply/matrixP => a b; rewrite !mxE eq_sym; case: eqP => _; rewrite ?rmorph0 ?rmorph1.
move=> /matrixP/(_ 0 1); rewrite !mxE !big_ord_recl !big_ord0 !mxE /= expr0 expr1 ?mulr0 ?mul0r ?mulr1 ?mul1r ?addr0 ?add0r.
move=> e; have : (2%:R : K) = 0 by rewrite mulr2n {1}e addrC subrr.
by move/eqP; rewrite pnatr_eq0.
Qed.

Print Assumptions C106_parallel.
Print Assumptions C106_unique.
Print Assumptions C106_velocity.
Print Assumptions C106_log.
Print Assumptions C106_back.
Print Assumptions C106_special.
Print Assumptions C106_vectors.
Print Assumptions C106_vectors_unique.
Print Assumptions C106_vectors_log.
