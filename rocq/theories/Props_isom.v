(* The operations of the Hermitian manifolds and the isometries: C120. *)
From Coq Require Import Reals.
From mathcomp Require Import all_ssreflect all_algebra.
From Verif Require Import RealsMC RealTac RealTac2 Star StarInst FunCalc Model_linalg Proofs_linalg Props_linalg Proofs_cost Model_manifolds Proofs_hpd Props_hpd Props_shpd.
Set Implicit Arguments.
Unset Strict Implicit.
Unset Printing Implicit Defensive.
Local Open Scope ring_scope.
Import GRing.Theory Num.Theory Order.TTheory.
Local Notation "A ^H" := (adj A) (at level 8, format "A ^H").

Section Spec.
Variables (K : starField) (n k : nat).
Implicit Types x u g : stack K n k.
(* the derivative at x, in the direction u, of the inverse *)
Definition dinv x u : stack K n k := fun i => - (invmx (x i) *m u i *m invmx (x i)).
(* the gradient at x of y |-> f (g y g^H), for the gradient G of f at g x g^H *)
Definition pullback g (G : stack K n k) : stack K n k := fun i => (g i)^H *m G i *m g i.
(* the Hessian at x, in the direction u, of y |-> f (y^-1), for the gradient G of f at x^-1 and the Hessian H of f at x^-1
   in the direction dinv x u *)
Definition inv_hess x (G H : stack K n k) u : stack K n k := fun i => let y := invmx (x i) in
  y *m u i *m y *m G i *m y + y *m G i *m y *m u i *m y - y *m H i *m y.
(* the symmetry around x *)
Definition symmetry x (y : stack K n k) : stack K n k := fun i => x i *m invmx (y i) *m x i.
Definition sconj x : stack K n k := fun i => map_mx (@cj K) (x i).
Definition unimodular g := forall i, \det (g i) * @cj K (\det (g i)) = 1.
End Spec.

Section One.
Variables (K : starField) (eigh : eigsolver K) (ssqrtm : forall n, 'M[K]_n -> 'M[K]_n).
Hypotheses (eighP : eigh_ok eigh) (sqrtmP : sqrtm_ok ssqrtm).
Local Notation ofR := (@ofR K).
Local Notation toR := (@toR K).
Local Notation fexp := (fmx Rtrigo_def.exp).
Variable n : nat.
Implicit Types x y u v g F A W : 'M[K]_n.
(* exp computed with any factor of x *)
Lemma hexp_factor F x u : factor F x -> herm u -> hexp1 eigh x u = F *m fexp (wh F u) *m F^H.
Proof.
move=> fF hu; have px := factor_pd fF; have fA := factor_sqrt eighP px; have [uF eF] := fF; have [uA eA] := fA.
rewrite (hexpE eighP) // sqrt_congr //; set A := fmx R_sqrt.sqrt x in fA uA eA *; clearbody A; pose U := invmx F *m A.
have uU : unitary U.
  have h : U *m U^H = 1%:M.
    have -> : U *m U^H = invmx F *m (A *m A^H) *m (invmx F)^H by rewrite /U adjM !mulmxA.
    by rewrite eA -eF mulmxA mulVmx // mul1mx adjI.
  rewrite /unitary; exact: mulmx1C.
have FU : F *m U = A by rewrite mulmxA mulmxV // mul1mx.
have -> : wh F u = U *m wh A u *m U^H by rewrite -[u in LHS](whK u uA) /wh adjM !mulmxA.
clearbody U; rewrite (fmx_unitary _ (wh_herm A hu) uU).
rewrite -FU; move: (fexp _) => W.
by rewrite adjM !mulmxA.
Qed.
Lemma exp_congr g x u : g \in unitmx -> pd x -> herm u -> hexp1 eigh (g *m x *m g^H) (g *m u *m g^H) = g *m hexp1 eigh x u *m g^H.
Proof.
move=> ug px hu; have f := factor_sqrt eighP px; have [uA _] := f.
rewrite (hexp_factor (factor_congr ug f)); last exact: herm_congr.
by rewrite wh_congr // (hexp_factor f) // adjM !mulmxA.
Qed.
Lemma log_congr g x y : g \in unitmx -> pd x -> pd y -> hlog1 eigh (g *m x *m g^H) (g *m y *m g^H) = g *m hlog1 eigh x y *m g^H.
Proof.
move=> ug px py; have pgx : pd (g *m x *m g^H) by exact: pd_congr.
have h : herm (g *m hlog1 eigh x y *m g^H) by apply: herm_congr; exact: hlog_herm.
by rewrite -[RHS](hlog_exp eighP pgx h) exp_congr // ?(hexp_log eighP) //; exact: hlog_herm.
Qed.
(* inversion *)
Lemma factor_invH F x : factor F x -> factor (invmx F)^H (invmx x).
Proof. by move=> f; have [uF _] := f; split; rewrite ?unitmx_adj ?unitmx_inv // adjK -(factor_inv f). Qed.
Lemma herm_dinv x u : pd x -> herm u -> herm (- (invmx x *m u *m invmx x)).
Proof. by move=> px hu; have hi := pd_herm (pd_inv px); rewrite /herm adjN !adjM hu hi mulmxA. Qed.
Lemma wh_inv F x u : factor F x -> wh (invmx F)^H (- (invmx x *m u *m invmx x)) = - wh F u.
Proof.
move=> f; have [uF _] := f; rewrite /wh mulmxN mulNmx; congr (- _).
have -> : invmx (invmx F)^H = F^H by rewrite adjV invmxK.
by rewrite adjK (factor_inv f) !mulmxA adjI // mul1mx -!mulmxA mulVmx // mulmx1.
Qed.
Lemma fexpN (w : 'M[K]_n) : herm w -> fexp (- w) = invmx (fexp w).
Proof.
move=> hw; rewrite -(fmx_inv (fexp_pd eighP hw)) fmx_comp // -scaleN1r -(rmorph1 (@Star.ofR K)) -rmorphN fmx_scale //.
apply: eq_in_fmx => // r _ /=; rewrite mulN1r -Rinv_E; exact: exp_Ropp.
Qed.
Lemma inv3 A W : A \in unitmx -> W \in unitmx -> (invmx A)^H *m invmx W *m invmx A = invmx (A *m W *m A^H) :> 'M[K]_n.
Proof. by move=> uA uW; rewrite !invmxM' ?unitmx_mul ?uA ?uW ?unitmx_adj // adjV mulmxA. Qed.
Lemma exp_inv x u : pd x -> herm u -> hexp1 eigh (invmx x) (- (invmx x *m u *m invmx x)) = invmx (hexp1 eigh x u).
Proof.
move=> px hu; have f := factor_sqrt eighP px; have [uA _] := f; have uH : (fmx R_sqrt.sqrt x)^H \in unitmx by rewrite unitmx_adj.
rewrite (hexp_factor (factor_invH f)); last exact: herm_dinv.
have hw := wh_herm (fmx R_sqrt.sqrt x) hu; rewrite (wh_inv _ f) fexpN // (hexp_factor f) // adjK.
by apply: inv3 => //; exact: pd_unit (fexp_pd eighP hw).
Qed.
Lemma log_inv x y : pd x -> pd y -> hlog1 eigh (invmx x) (invmx y) = - (invmx x *m hlog1 eigh x y *m invmx x).
Proof.
move=> px py; have hl : herm (hlog1 eigh x y) by exact: hlog_herm.
by rewrite -[RHS](hlog_exp eighP (pd_inv px) (herm_dinv px hl)) exp_inv // (hexp_log eighP).
Qed.
(* parallel transport *)
Lemma transpE (B x1 x2 : 'M[K]_n) (d : 'rV[R]_n) u : B \in unitmx -> (forall j, 0 < d 0 j) -> x1 = B *m B^H -> x2 = B *m dia K d *m B^H ->
  let E := B *m dia K (map_mx R_sqrt.sqrt d) *m invmx B in htransp1 ssqrtm x1 x2 u = E *m u *m E^H.
Proof.
move=> uB d0 e1 e2 E; rewrite /htransp1 !multihconjE /solve adjM adjV !adjK.
have -> : x2 *m invmx x1 = B *m dia K d *m invmx B.
  have uH : B^H \in unitmx by rewrite unitmx_adj.
  by rewrite e1 e2 invmxM' // !mulmxA mulmxK.
by have := sqrtmP uB d0; move: (ssqrtm _) => G /(root_uniq uB d0) ->.
Qed.
Lemma transp_congr g x1 x2 u : g \in unitmx -> pd x1 -> pd x2 ->
  htransp1 ssqrtm (g *m x1 *m g^H) (g *m x2 *m g^H) (g *m u *m g^H) = g *m htransp1 ssqrtm x1 x2 u *m g^H.
Proof.
move=> ug p1 p2; have [B [d [uB e1 e2 d0]]] := simdiag p1 p2; have ugB : g *m B \in unitmx by rewrite unitmx_mul ug.
rewrite (transpE u uB d0 e1 e2) (transpE _ ugB d0); [|by rewrite e1 adjM !mulmxA|by rewrite e2 adjM !mulmxA].
rewrite invmxM' // !adjM !mulmxA mulmxKV // -!(mulmxA _ g^H) adjI // mulmx1 -!mulmxA.
by [].
Qed.
Lemma transp_inv x1 x2 u : pd x1 -> pd x2 -> herm u ->
  htransp1 ssqrtm (invmx x1) (invmx x2) (- (invmx x1 *m u *m invmx x1)) = - (invmx x2 *m htransp1 ssqrtm x1 x2 u *m invmx x2).
Proof.
move=> p1 p2 hu; have [B [d [uB e1 e2 d0]]] := simdiag p1 p2; have uH : B^H \in unitmx by rewrite unitmx_adj.
have uC : (invmx B)^H \in unitmx by rewrite unitmx_adj unitmx_inv.
have [e ee] : exists e : 'rV[R]_n, e = map_mx (fun t : R => t^-1) d by eexists.
have [s es] : exists s : 'rV[R]_n, s = map_mx R_sqrt.sqrt d by eexists.
have [r er] : exists r : 'rV[R]_n, r = map_mx R_sqrt.sqrt e by eexists.
have e0 j : 0 < e 0 j by rewrite ee mxE invr_gt0.
have s0 j : 0 < s 0 j by rewrite es mxE sqrtR_gt0.
have uS : dia K s \in unitmx by apply: pd_unit; exact: pd_dia.
have ud : dia K d \in unitmx by apply: pd_unit; exact: pd_dia.
have sqd : dia K s *m dia K s = dia K d by rewrite diaM; congr (dia K _); apply/matrixP => a b; rewrite es !mxE (ord1 a) sqrtR_sqr // ltW.
have de : dia K e = invmx (dia K d).
  have h : dia K d *m dia K e = 1%:M.
    rewrite diaM -(rmorph1 (@Star.ofR K)) -dia_const; congr (dia K _); apply/matrixP => a b; by rewrite ee !mxE divff // gt_eqF.
  by rewrite -[RHS]mulmx1 -h mulmxA mulVmx // mul1mx.
have dr : dia K r = invmx (dia K s).
  have h : dia K s *m dia K r = 1%:M.
    rewrite diaM -(rmorph1 (@Star.ofR K)) -dia_const; congr (dia K _); apply/matrixP => a b; rewrite er es ee !mxE.
    have := d0 b; move: (d 0 b) => t t0; rewrite -RmultE -R_sqrt.sqrt_mult; [|exact/RleP/ltW|by apply/RleP; rewrite invr_ge0 ltW].
    by rewrite RmultE divff ?gt_eqF // -R1E R_sqrt.sqrt_1.
  by rewrite -[RHS]mulmx1 -h mulmxA mulVmx // mul1mx.
rewrite (transpE u uB d0 e1 e2) (transpE _ uC e0); last 2 first.
- by rewrite e1 adjK invmxM' // adjV.
- by rewrite e2 adjK de !invmxM' ?unitmx_mul ?uB // adjV mulmxA.
rewrite -es -er dr; set E := B *m dia K s *m invmx B; set E' := _ *m _ *m invmx (invmx B)^H.
have key : E' *m invmx x1 = invmx x2 *m E.
  rewrite /E' /E e1 e2 -sqd !invmxM' ?unitmx_mul ?uB ?uS // adjV !invmxK !mulmxA mulmxK // mulmxKV // mulmxKV //.
have hi y : pd y -> (invmx y)^H = invmx y by move=> /pd_inv/pd_herm.
have key' : invmx x1 *m E'^H = E^H *m invmx x2 by have := congr1 (@adj K n n) key; rewrite [LHS]adjM [RHS]adjM !hi.
rewrite mulmxN mulNmx; congr (- _); rewrite !mulmxA key -mulmxA key' !mulmxA.
by [].
Qed.
(* gradients, Hessians and the retraction *)
Lemma multiherm_congr g u : multiherm (g *m u *m g^H) = g *m multiherm u *m g^H.
Proof. by rewrite !multihermE -scalemxAr -scalemxAl mulmxDr mulmxDl !adjM adjK !mulmxA. Qed.
Lemma multiherm_back g u : multiherm (g^H *m u *m g) = g^H *m multiherm u *m g.
Proof. by have := multiherm_congr g^H u; rewrite adjK. Qed.
Lemma egrad_congr g x G : hegrad1 (g *m x *m g^H) G = g *m hegrad1 x (g^H *m G *m g) *m g^H.
Proof. by rewrite /hegrad1 multiherm_back !mulmxA. Qed.
Lemma ehess_congr g x G H u : hehess1 (g *m x *m g^H) G H (g *m u *m g^H) = g *m hehess1 x (g^H *m G *m g) (g^H *m H *m g) u *m g^H.
Proof.
by rewrite /hehess1 mulmxDr mulmxDl !multiherm_back -multiherm_congr !mulmxA.
Qed.
Lemma egrad_inv x G : pd x -> hegrad1 (invmx x) G = - (invmx x *m hegrad1 x (- (invmx x *m G *m invmx x)) *m invmx x).
Proof.
move=> px; have ux := pd_unit px; have hi := pd_herm (pd_inv px).
have -> : - (invmx x *m G *m invmx x) = - (invmx x *m G *m (invmx x)^H) by rewrite hi.
have e u : multiherm (- u) = - multiherm u by rewrite !multihermE adjN -opprD scalerN.
rewrite /hegrad1 e multiherm_congr hi !(mulmxN, mulNmx) opprK !mulmxA mulVmx // mul1mx mulmxKV // mulmxKV //.
Qed.
Lemma ehess_inv x G H u : pd x -> herm G -> herm H -> herm u ->
  hehess1 (invmx x) G H (- (invmx x *m u *m invmx x)) =
  - (invmx x *m hehess1 x (- (invmx x *m G *m invmx x)) (invmx x *m u *m invmx x *m G *m invmx x + invmx x *m G *m invmx x *m u *m invmx x - invmx x *m H *m invmx x) u *m invmx x).
Proof.
move=> px hG hH hu; have ux := pd_unit px; have hi := pd_herm (pd_inv px); set y := invmx x in hi *; have yx : y *m x = 1%:M by rewrite mulVmx.
have xy : x *m y = 1%:M by rewrite mulmxV.
have hx := pd_herm px.
have e1 : multiherm (- (y *m G *m y)) = - (y *m G *m y) by apply: multiherm_id; rewrite /herm adjN !adjM hG hi mulmxA.
have e2 : multiherm (y *m u *m y *m G *m y + y *m G *m y *m u *m y - y *m H *m y) = y *m u *m y *m G *m y + y *m G *m y *m u *m y - y *m H *m y.
  by apply: multiherm_id; rewrite /herm adjB adjD !adjM hG hH hu hi !mulmxA [X in X - _]addrC.
rewrite /hehess1 e1 e2 !(multiherm_id hG) !(multiherm_id hH).
have -> : multiherm (- (y *m u *m y) *m G *m y) = - (ofR 2%:R^-1 *: (y *m u *m y *m G *m y + y *m G *m y *m u *m y)).
  by rewrite multihermE !mulNmx adjN -opprD scalerN !adjM hG hu hi !mulmxA.
have -> : multiherm (u *m - (y *m G *m y) *m x) = - (ofR 2%:R^-1 *: (u *m y *m G + G *m y *m u)).
  by rewrite multihermE mulmxN mulNmx adjN -opprD scalerN !adjM hG hu hi hx !mulmxA mulmxKV // xy mul1mx.
have -> : x *m (y *m u *m y *m G *m y + y *m G *m y *m u *m y - y *m H *m y) *m x = u *m y *m G + G *m y *m u - H.
  by rewrite mulmxBr mulmxBl mulmxDr mulmxDl !mulmxA xy !mul1mx !mulmxKV.
set P := u *m y *m G + G *m y *m u.
have -> : y *m u *m y *m G *m y + y *m G *m y *m u *m y = y *m P *m y by rewrite /P mulmxDr mulmxDl !mulmxA.
have half : P - H - ofR 2%:R^-1 *: P = ofR 2%:R^-1 *: P - H.
  have -> : P - H - ofR 2%:R^-1 *: P = (P - ofR 2%:R^-1 *: P) - H by rewrite addrAC.
  congr (_ - _); rewrite -{1}[P]scale1r -scalerBl -(rmorph1 (@Star.ofR K)) -rmorphB; congr (ofR _ *: _); rfield.
by rewrite half mulmxBr mulmxBl opprB -scalemxAr -scalemxAl.
Qed.
Lemma retr_congr1 g x u : g \in unitmx -> x \in unitmx -> hretr1 (g *m x *m g^H) (g *m u *m g^H) = g *m hretr1 x u *m g^H.
Proof.
move=> ug ux; have uH : g^H \in unitmx by rewrite unitmx_adj.
rewrite /hretr1 /solve !mulmxDr !mulmxDl; congr (_ + _ + _).
rewrite !invmxM' ?unitmx_mul ?ug // -!scalemxAl -!scalemxAr -!scalemxAl; congr (_ *: _).
by rewrite !mulmxA mulmxKV // mulmxK.
Qed.
(* conjugation *)
Local Notation conj := (map_mx (@cj K)).
Lemma conjH (m1 m2 : nat) (a : 'M[K]_(m1, m2)) : conj a^H = (conj a)^H.
Proof. by apply/matrixP => i j; rewrite !mxE. Qed.
Lemma conj_dia (d : 'rV[R]_n) : conj (dia K d) = dia K d.
Proof. by rewrite /dia; apply/matrixP => a b; rewrite !mxE; case: (a == b); rewrite ?mulr1n ?mulr0n ?rmorph0 ?cj_ofR. Qed.
Lemma conj_herm u : herm u -> herm (conj u).
Proof. by move=> hu; rewrite /herm -conjH hu. Qed.
Lemma conj_fmx f u : herm u -> fmx f (conj u) = conj (fmx f u).
Proof.
move=> hu; have [uV eV] := specdecP hu; have dec : eigdec (conj u) (specdec u).1 (conj (specdec u).2).
  by split; [rewrite /unitary -conjH -map_mxM uV map_mx1|rewrite {1}eV !map_mxM conjH conj_dia].
by rewrite (fmx_dec f dec) fmxE !map_mxM conjH conj_dia.
Qed.
Lemma conj_factor F x : factor F x -> factor (conj F) (conj x).
Proof. by case=> uF <-; split; rewrite ?map_unitmx // map_mxM conjH. Qed.
Lemma conj_pd x : pd x -> pd (conj x).
Proof. by move=> px; have f := factor_sqrt eighP px; exact: factor_pd (conj_factor f). Qed.
Lemma conj_wh F u : wh (conj F) (conj u) = conj (wh F u).
Proof. by rewrite /wh !map_mxM conjH map_invmx. Qed.
Lemma exp_conj x u : pd x -> herm u -> hexp1 eigh (conj x) (conj u) = conj (hexp1 eigh x u).
Proof.
move=> px hu; have f := factor_sqrt eighP px; rewrite (hexp_factor (conj_factor f)); last exact: conj_herm.
rewrite (hexp_factor f) // conj_wh conj_fmx; last exact: wh_herm.
have aux (a b : 'M[K]_n) : conj b *m conj a *m (conj b)^H = conj (b *m a *m b^H) by rewrite !map_mxM conjH.
exact: aux.
Qed.
Lemma log_conj x y : pd x -> pd y -> hlog1 eigh (conj x) (conj y) = conj (hlog1 eigh x y).
Proof.
move=> px py; have hl : herm (hlog1 eigh x y) by exact: hlog_herm.
by rewrite -[RHS](hlog_exp eighP (conj_pd px) (conj_herm hl)) exp_conj // (hexp_log eighP).
Qed.
Lemma transp_conj x1 x2 u : pd x1 -> pd x2 -> htransp1 ssqrtm (conj x1) (conj x2) (conj u) = conj (htransp1 ssqrtm x1 x2 u).
Proof.
move=> p1 p2; have [B [d [uB e1 e2 d0]]] := simdiag p1 p2; have uC : conj B \in unitmx by rewrite map_unitmx.
rewrite (transpE u uB d0 e1 e2) (transpE _ uC d0); [|by rewrite e1 !map_mxM conjH|by rewrite e2 !map_mxM conjH conj_dia].
by rewrite !adjM !map_mxM !conjH !map_invmx conj_dia.
Qed.
Lemma multiherm_conj u : multiherm (conj u) = conj (multiherm u).
Proof. by rewrite !multihermE map_mxZ map_mxD conjH /= cj_ofR. Qed.
Lemma egrad_conj x G : hegrad1 (conj x) (conj G) = conj (hegrad1 x G).
Proof. by rewrite /hegrad1 multiherm_conj !map_mxM. Qed.
Lemma ehess_conj x G H u : hehess1 (conj x) (conj G) (conj H) (conj u) = conj (hehess1 x G H u).
Proof. by rewrite /hehess1 !multiherm_conj -!map_mxM multiherm_conj -map_mxD. Qed.
Lemma retr_conj x u : hretr1 (conj x) (conj u) = conj (hretr1 x u).
Proof. by rewrite /hretr1 /solve !map_mxD map_mxM map_mxM map_mxZ map_invmx fmorphV rmorph_nat. Qed.
End One.

Section Props.
Variables (K : starField) (eigh : eigsolver K) (cholesky ssqrtm : forall n, 'M[K]_n -> 'M[K]_n).
Hypotheses (eighP : eigh_ok eigh) (cholP : chol_ok cholesky) (sqrtmP : sqrtm_ok ssqrtm).
Local Notation ofR := (@ofR K).
Local Notation toR := (@toR K).
Local Notation cj := (@cj K).
Variables n k : nat.
Implicit Types x y u v g G H : stack K n k.
Local Notation dist := (@hpd_dist K eigh cholesky n k).
(* ---- HermitianPositiveDefinite ---- *)
Theorem C120_congruence g x y u : all_unit g -> all_pd x -> all_pd y -> all_herm u ->
  [/\ hpd_exp eigh (scongr g x) (scongr g u) =1 scongr g (hpd_exp eigh x u),
      hpd_log eigh (scongr g x) (scongr g y) =1 scongr g (hpd_log eigh x y),
      hpd_transp ssqrtm (scongr g x) (scongr g y) (scongr g u) =1 scongr g (hpd_transp ssqrtm x y u) &
      hpd_retr (scongr g x) (scongr g u) =1 scongr g (hpd_retr x u)].
Proof.
move=> ug px py hu; split=> i; [exact: exp_congr|exact: log_congr|exact: transp_congr|].
by apply: retr_congr1 => //; exact: pd_unit.
Qed.
(* no hypothesis at all *)
Theorem C120_congruence_derivatives g x u G H :
  hpd_egrad2rgrad (scongr g x) G =1 scongr g (hpd_egrad2rgrad x (pullback g G)) /\
  hpd_ehess2rhess (scongr g x) G H (scongr g u) =1 scongr g (hpd_ehess2rhess x (pullback g G) (pullback g H) u).
Proof. by split=> i; [exact: egrad_congr|exact: ehess_congr]. Qed.
Theorem C120_inversion x y u : all_pd x -> all_pd y -> all_herm u ->
  [/\ hpd_exp eigh (sinv x) (dinv x u) =1 sinv (hpd_exp eigh x u),
      hpd_log eigh (sinv x) (sinv y) =1 dinv x (hpd_log eigh x y),
      hpd_transp ssqrtm (sinv x) (sinv y) (dinv x u) =1 dinv y (hpd_transp ssqrtm x y u) &
      forall v, @hpd_inner K n k (sinv x) (dinv x u) (dinv x v) = hpd_inner x u v].
Proof.
move=> px py hu; split=> [i|i|i|v]; [exact: exp_inv|exact: log_inv|exact: transp_inv|].
congr (toR _); apply: eq_bigr => i _; rewrite !inner1E /dinv /sinv invmxK; have uX := pd_unit (px i).
by rewrite !mulmxN !mulNmx opprK !mulmxA mulmxV // mul1mx mulmxKV // -!mulmxA [RHS]mxtrace_mulC -!mulmxA.
Qed.
(* G, H: the gradient and the Hessian of f at x^-1 *)
Theorem C120_inversion_derivatives x u G H : all_pd x -> all_herm u -> all_herm G -> all_herm H ->
  hpd_egrad2rgrad (sinv x) G =1 dinv x (hpd_egrad2rgrad x (dinv x G)) /\
  hpd_ehess2rhess (sinv x) G H (dinv x u) =1 dinv x (hpd_ehess2rhess x (dinv x G) (inv_hess x G H u) u).
Proof. by move=> px hu hG hH; split=> i; [exact: egrad_inv|exact: ehess_inv]. Qed.
Theorem C120_conjugation x y u G H : all_pd x -> all_pd y -> all_herm u ->
  [/\ hpd_exp eigh (sconj x) (sconj u) =1 sconj (hpd_exp eigh x u),
      hpd_log eigh (sconj x) (sconj y) =1 sconj (hpd_log eigh x y),
      hpd_transp ssqrtm (sconj x) (sconj y) (sconj u) =1 sconj (hpd_transp ssqrtm x y u),
      hpd_retr (sconj x) (sconj u) =1 sconj (hpd_retr x u) &
      hpd_egrad2rgrad (sconj x) (sconj G) =1 sconj (hpd_egrad2rgrad x G) /\
      hpd_ehess2rhess (sconj x) (sconj G) (sconj H) (sconj u) =1 sconj (hpd_ehess2rhess x G H u)].
Proof.
move=> px py hu; split=> [i|i|i|i|]; [exact: exp_conj|exact: log_conj|exact: transp_conj|exact: retr_conj|].
by split=> i; [exact: egrad_conj|exact: ehess_conj].
Qed.
Theorem C120_conjugation_inner x u v : hpd_inner (sconj x) (sconj u) (sconj v) = hpd_inner x u v.
Proof.
rewrite /hpd_inner -[in RHS]toR_cj rmorph_sum; congr (toR _); apply: eq_bigr => i _.
by rewrite !inner1E /sconj -map_invmx -!map_mxM trace_map_mx.
Qed.
(* the manifold is a symmetric space for these operations *)
Theorem C120_homogeneous x y : all_pd x -> all_pd y -> exists2 g, all_unit g & scongr g x =1 y.
Proof.
move=> px py; have fx i := factor_sqrt eighP (px i); have fy i := factor_sqrt eighP (py i).
exists (fun i => fmx R_sqrt.sqrt (y i) *m invmx (fmx R_sqrt.sqrt (x i))) => i.
  by have [ux _] := fx i; have [uy _] := fy i; rewrite unitmx_mul uy unitmx_inv ux.
have aux (a b : 'M[K]_n) p q : factor a p -> factor b q -> (b *m invmx a) *m p *m (b *m invmx a)^H = q.
  by move=> [ua <-] [ub <-]; rewrite adjM !mulmxA mulmxKV // -!mulmxA (mulmxA a^H) adjI // mul1mx.
exact: aux.
Qed.
Lemma symmetryE x y : all_pd x -> symmetry x y =1 scongr x (sinv y).
Proof. by move=> px i; rewrite /scongr (pd_herm (px i)). Qed.
Theorem C120_symmetry x y z : all_pd x -> all_pd y -> all_pd z ->
  [/\ symmetry x x =1 x, symmetry x (symmetry x y) =1 y, dist (symmetry x y) (symmetry x z) = dist y z &
      forall u, all_herm u -> symmetry x (hpd_exp eigh x u) =1 hpd_exp eigh x (fun i => - u i)].
Proof.
move=> px py pz; have ux i := pd_unit (px i); split=> [i|i||u hu i].
- by rewrite /symmetry mulmxV // mul1mx.
- have uy := pd_unit (py i); rewrite /symmetry !invmxM' ?unitmx_mul ?unitmx_inv ?ux ?uy //.
  by rewrite invmxK !mulmxA mulmxV // mul1mx mulmxKV.
- have e1 : dist (symmetry x y) (symmetry x z) = dist (scongr x (sinv y)) (scongr x (sinv z)).
    by congr (R_sqrt.sqrt (toR _)); apply: eq_bigr => i _; rewrite !symmetryE.
  by rewrite e1 (C55_congruence eighP cholP) // ?(C55_inversion eighP cholP) // => i; apply: pd_inv.
have := exp_congr eighP (ux i) (pd_inv (px i)) (herm_dinv (px i) (hu i)); rewrite exp_inv // (pd_herm (px i)) /symmetry /hpd_exp => <-.
by rewrite mulmxV // mul1mx mulmxN mulNmx !mulmxA mulmxV // mul1mx mulmxKV.
Qed.
(* ---- SpecialHermitianPositiveDefinite ---- *)
Lemma eq_proj x u v i : u i = v i -> shpd_proj x u i = shpd_proj x v i.
Proof. by rewrite /shpd_proj => ->. Qed.
Lemma eq_normalize x y i : x i = y i -> normalize x i = normalize y i.
Proof. by rewrite /normalize => ->. Qed.
Lemma proj_congr g x u i : g i \in unitmx -> x i \in unitmx -> shpd_proj (scongr g x) (scongr g u) i = scongr g (shpd_proj x u) i.
Proof.
move=> ug ux; have uH : (g i)^H \in unitmx by rewrite unitmx_adj.
have e w : \tr (solve (g i *m x i *m (g i)^H) (g i *m w *m (g i)^H)) = \tr (solve (x i) w).
  rewrite /solve !invmxM' ?unitmx_mul ?ug //.
  have -> : invmx (g i)^H *m (invmx (x i) *m invmx (g i)) *m (g i *m w *m (g i)^H) = invmx (g i)^H *m (invmx (x i) *m w *m (g i)^H).
    by rewrite !mulmxA mulmxKV.
  by rewrite mxtrace_mulC mulmxK.
by rewrite /shpd_proj /scongr multiherm_congr e; move: (multiherm (u i)) => w; rewrite mulmxBr mulmxBl -scalemxAr -scalemxAl.
Qed.
Lemma normalize_congr g x i : \det (g i) * cj (\det (g i)) = 1 -> normalize (scongr g x) i = scongr g (normalize x) i.
Proof.
move=> d; rewrite /normalize /scongr -scalemxAr -scalemxAl !det_mulmx det_adj mulrAC d mul1r.
by [].
Qed.
Theorem C120_special_congruence g x y u G : unimodular g -> all_pd x -> all_pd y -> all_herm u ->
  [/\ shpd_exp eigh (scongr g x) (scongr g u) =1 scongr g (shpd_exp eigh x u),
      shpd_log eigh (scongr g x) (scongr g y) =1 scongr g (shpd_log eigh x y),
      shpd_transp ssqrtm (scongr g x) (scongr g y) (scongr g u) =1 scongr g (shpd_transp ssqrtm x y u),
      shpd_retr (scongr g x) (scongr g u) =1 scongr g (shpd_retr x u) &
      shpd_egrad2rgrad (scongr g x) G =1 scongr g (shpd_egrad2rgrad x (pullback g G))].
Proof.
move=> dg px py hu; have ug : all_unit g.
  by move=> i; rewrite unitmxE unitfE; apply/eqP => z; have := dg i; rewrite z mul0r => /esym/eqP; rewrite oner_eq0.
have [e1 e2 e3 e4] := C120_congruence ug px py hu; have ux i := pd_unit (px i); have uy i := pd_unit (py i); split=> i.
- by rewrite /shpd_exp (eq_normalize (e1 i)) normalize_congr.
- exact: e2.
- by rewrite /shpd_transp (eq_proj _ (e3 i)) proj_congr.
- by rewrite /shpd_retr (eq_normalize (e4 i)) normalize_congr.
rewrite /shpd_egrad2rgrad -proj_congr //; apply: eq_proj.
by rewrite /scongr /pullback !mulmxA.
Qed.
Hypothesis n0 : (0 < n)%N.
Lemma proj_inv x u i : pd (x i) -> shpd_proj (sinv x) (dinv x u) i = dinv x (shpd_proj x u) i.
Proof.
move=> px; have ux := pd_unit px; have hi := pd_herm (pd_inv px).
rewrite /shpd_proj /dinv /sinv /solve invmxK; set y := invmx (x i) in hi *.
have yx : y *m x i = 1%:M by rewrite mulVmx.
have -> : multiherm (- (y *m u i *m y)) = - (y *m multiherm (u i) *m y).
  have eN w : multiherm (- w) = - multiherm w by rewrite !multihermE adjN -opprD scalerN.
  by have := multiherm_congr y (u i); rewrite eN hi => ->.
move: (multiherm (u i)) => w; rewrite mulmxBr mulmxBl opprB -scalemxAr -scalemxAl yx mul1mx addrC; congr (_ + _).
have -> : \tr (x i *m - (y *m w *m y)) = - \tr (y *m w).
  by rewrite mulmxN raddfN /= !mulmxA mulmxV // mul1mx mxtrace_mulC.
by rewrite raddfN mulrN rmorphN scaleNr opprK.
Qed.
Lemma normalize_inv x i : pd (x i) -> normalize (sinv x) i = invmx (normalize x i).
Proof.
move=> px; have ux := pd_unit px; have t0 := toR_gt0 (det_pd px).
rewrite /normalize /sinv det_inv.
have -> : toR (\det (x i))^-1 = (toR (\det (x i)))^-1.
  by rewrite -{1}(ofR_toR_ge0 (ltW (det_pd px))) -fmorphV toRK.
have [e p] := Rpower_root t0 n0.
have -> : Rpower.Rpower (toR (\det (x i)))^-1 n%:R^-1 = (Rpower.Rpower (toR (\det (x i))) n%:R^-1)^-1.
  rewrite /Rpower.Rpower -!Rinv_E Rpower.ln_Rinv; last exact/RltP.
  by rewrite -exp_Ropp RIneq.Ropp_mult_distr_r.
move: (Rpower.Rpower _ _) p => c c0; rewrite invrK.
by rewrite invmxZ ?unitmxZ ?unitfE ?ux ?fmorph_eq0 ?invr_eq0 ?gt_eqF // fmorphV invrK.
Qed.
Theorem C120_special_inversion x y u G : all_pd x -> all_pd y -> all_herm u ->
  [/\ shpd_exp eigh (sinv x) (dinv x u) =1 sinv (shpd_exp eigh x u),
      shpd_log eigh (sinv x) (sinv y) =1 dinv x (shpd_log eigh x y),
      shpd_transp ssqrtm (sinv x) (sinv y) (dinv x u) =1 dinv y (shpd_transp ssqrtm x y u) &
      shpd_egrad2rgrad (sinv x) G =1 dinv x (shpd_egrad2rgrad x (dinv x G))].
Proof.
move=> px py hu; have [e1 e2 e3 _] := C120_inversion px py hu; split=> i.
- by rewrite /shpd_exp (eq_normalize (e1 i)) normalize_inv // /hpd_exp; exact: hexp_pd.
- exact: e2.
- by rewrite /shpd_transp (eq_proj _ (e3 i)) proj_inv.
rewrite /shpd_egrad2rgrad -proj_inv //; apply: eq_proj; have ux := pd_unit (px i).
by rewrite /dinv /sinv mulmxN mulNmx !mulmxA mulmxV // mul1mx mulmxKV // mulmxN mulNmx opprK.
Qed.
End Props.
(* the retraction does not commute with the inversion: at x = u = 1, 1/2 and 2/5 *)
Theorem C120_retr_inversion (K : starField) n k (i : 'I_k) : let x : stack K n.+1 k := fun _ => 1%:M in
  all_pd x /\ all_herm x /\ hpd_retr (sinv x) (dinv x x) i <> sinv (hpd_retr x x) i.
Proof.
move=> x; have p1 := pd1 K n.+1.
split=> [j|]; first exact: p1; split=> [j|]; first exact: pd_herm p1.
rewrite /hpd_retr /hretr1 /sinv /dinv /solve /x !invmx1 !mulmx1 mul1mx addrN add0r scalerN mulNmx mulmxN opprK mulmx1.
have num : 1 + 1 + 2%:R^-1 = 5%:R / 2%:R :> K.
  have n2 : (2%:R : K) != 0 by rewrite pnatr_eq0.
  apply: (mulIf n2); rewrite mulfVK // [LHS]mulrDl mulVf //.
  have -> : (1 + 1 : K) = 2%:R by rewrite -[1]/(1%:R) -natrD.
  by rewrite -natrM -[1]/(1%:R) -natrD.
have e : 1%:M + 1%:M + 2%:R^-1 *: 1%:M = ((5%:R / 2%:R)%:M : 'M[K]_n.+1).
  by rewrite scalemx1 -num !raddfD.
rewrite e scalemx1 invmx_scalar => /matrixP/(_ 0 0); rewrite !mxE eqxx !mulr1n invf_div => /(congr1 (fun t => t * (2%:R * 5%:R))).
rewrite mulrA mulVf ?pnatr_eq0 // mul1r (mulrC 2%:R 5%:R) mulrA mulfVK ?pnatr_eq0 // -natrM => /eqP; rewrite eqr_nat.
by [].
Qed.
(* a congruence of modulus one which moves the identity, and a direction there *)
Example C120_ex (K : starField) (c t : R) : 0 < c -> c != 1 -> t != 0 ->
  let x : stack K 2 1 := fun _ => 1%:M in let g : stack K 2 1 := fun _ => dia K (two c c^-1) in
  let u : stack K 2 1 := fun _ => dia K (two t (- t)) in
  [/\ all_pd x, all_herm u, unimodular g, scongr g x ord0 <> x ord0 & dinv x u ord0 <> u ord0].
Proof.
move=> c0 c1 t0 x g u; have cn : c != 0 by rewrite gt_eqF.
split=> [i|i|i||].
- exact: pd1.
- exact: adj_dia.
- by rewrite det_diag big_ord_recl big_ord1 !mxE /= -rmorphM divff // !rmorph1 mulr1.
- rewrite /scongr /x /g mulmx1 adj_dia diaM => /matrixP/(_ 0 0); rewrite !mxE /= mulr1n -(rmorph1 (@ofR K)) => /(can_inj (@toRK K)) h.
  have : (c - 1) * (c + 1) == 0 by rewrite mulrDr mulr1 mulrBl mul1r h addrA subrK subrr.
  by rewrite mulf_eq0 subr_eq0 (negbTE c1) gt_eqF // addr_gt0 ?ltr01.
rewrite /dinv /x /u invmx1 mulmx1 mul1mx => /matrixP/(_ 0 0); rewrite !mxE /= mulr1n -rmorphN => /(can_inj (@toRK K)) h.
have : t + t == 0 by rewrite -{1}h addNr.
by rewrite -mulr2n mulrn_eq0 /= (negbTE t0).
Qed.

Print Assumptions C120_congruence.
Print Assumptions C120_congruence_derivatives.
Print Assumptions C120_inversion.
Print Assumptions C120_inversion_derivatives.
Print Assumptions C120_conjugation.
Print Assumptions C120_conjugation_inner.
Print Assumptions C120_homogeneous.
Print Assumptions C120_symmetry.
Print Assumptions C120_special_congruence.
Print Assumptions C120_special_inversion.
Print Assumptions C120_retr_inversion.
Print Assumptions C120_ex.
