(* Theorems about geodesics and Hessians: C70. *)
From Coq Require Import Reals.
From Coquelicot Require Import Coquelicot.
From mathcomp Require Import all_ssreflect all_algebra.
From Verif Require Import RealsMC RealTac RealTac2 Star StarInst FunCalc Model_linalg Proofs_linalg Props_linalg Proofs_cost Model_manifolds Proofs_hpd
  Props_spv Props_hpd GeoNum.
Set Implicit Arguments.
Unset Strict Implicit.
Unset Printing Implicit Defensive.
Local Open Scope ring_scope.
Import GRing.Theory Num.Theory Order.TTheory.

Lemma d_sum n (f : 'I_n -> R -> R) (l : 'I_n -> R) (t : R) :
  (forall j, is_derive (f j) t (l j)) -> is_derive (fun s => \sum_j f j s) t (\sum_j l j).
Proof.
elim: n f l => [|n IH] f l h.
  rewrite big_ord0; apply: (@is_derive_ext R_AbsRing R_NormedModule (fun _ => 0%R : R)); last exact: d_zero.
  by move=> s; rewrite big_ord0.
rewrite big_ord_recl; apply: (@is_derive_ext R_AbsRing R_NormedModule (fun s => f ord0 s + \sum_j f (lift ord0 j) s)).
  by move=> s; rewrite big_ord_recl.
by apply: d_add => //; apply: IH.
Qed.

Section Geodesic.
Variables (K : starField) (eigh : eigsolver K).
Hypothesis eighP : eigh_ok eigh.
Variable n : nat.
Implicit Types x u g h G W S : 'M[K]_n.
Local Notation ofR := (@ofR K).
Local Notation toR := (@toR K).
(* the derivative of a curve of matrices: the one of every real linear functional of it *)
Definition mderive (c c' : R -> 'M[K]_n) := forall G (t : R),
  is_derive (fun s => toR (\tr (G *m c s))) t (toR (\tr (G *m c' t))).
Lemma tr_curve S W G : herm W -> exists c : 'I_n -> R, exists d : 'I_n -> R,
  forall f : R -> R, toR (\tr (G *m (S *m fmx f W *m S))) = \sum_j f (d j) * c j.
Proof.
move=> hW; have [N eN] : exists N, N = (specdec W).2^H *m S *m G *m S *m (specdec W).2 by exists ((specdec W).2^H *m S *m G *m S *m (specdec W).2).
exists (fun j => toR (N j j)); exists (fun j => (specdec W).1 0 j) => h.
rewrite fmxE !mulmxA mxtrace_mulC !mulmxA mxtrace_mulC !mulmxA.
have -> : \tr ((specdec W).2^H *m S *m G *m S *m (specdec W).2 *m dia K (map_mx h (specdec W).1)) =
  \tr (N *m dia K (map_mx h (specdec W).1)) by rewrite eN.
rewrite /mxtrace raddf_sum; apply: eq_bigr => j _; rewrite mul_mx_dia [map_mx h _ _ _]mxE mulrC toRZ; exact: erefl.
Qed.
(* t -> exp(x, t u) has velocity u at 0 and solves the geodesic equation c'' = c' c^-1 c' *)
Theorem C70_geodesic x u : pd x -> herm u -> exists v a : R -> 'M[K]_n,
  [/\ mderive (fun t => hexp1 eigh x (ofR t *: u)) v, mderive v a, v 0 = u &
      forall t, a t = v t *m invmx (hexp1 eigh x (ofR t *: u)) *m v t].
Proof.
move=> px hu; have [S eS] : exists S, S = fmx R_sqrt.sqrt x by exists (fmx R_sqrt.sqrt x).
have f := factor_sqrt eighP px; rewrite -eS in f; have hS : S^H = S by rewrite eS; exact: fmx_herm.
have [uS _] := f; have [W eW] : exists W, W = wh S u by exists (wh S u).
have hW : herm W by rewrite eW; apply: wh_herm.
have ge t : hexp1 eigh x (ofR t *: u) = S *m fmx (fun r => Rtrigo_def.exp (t * r)) W *m S.
  by rewrite (hexpE eighP px) -?eS ?whZ -?eW ?fmx_scale //; apply: hermZR.
exists (fun t => S *m fmx (fun r => r * Rtrigo_def.exp (t * r)) W *m S).
exists (fun t => S *m fmx (fun r => r * (r * Rtrigo_def.exp (t * r))) W *m S); split.
- move=> G t; have [c [d h]] := tr_curve S G hW; rewrite h.
  apply: (@is_derive_ext R_AbsRing R_NormedModule (fun s => \sum_j Rtrigo_def.exp (s * d j) * c j)); first by move=> s; rewrite ge h.
  by apply: d_sum => j; apply: d_exp0.
- move=> G t; have [c [d h]] := tr_curve S G hW; rewrite h.
  apply: (@is_derive_ext R_AbsRing R_NormedModule (fun s => \sum_j d j * Rtrigo_def.exp (s * d j) * c j)); first by move=> s; rewrite h.
  by apply: d_sum => j; apply: d_exp1.
- have -> : fmx (fun r => r * Rtrigo_def.exp (0 * r)) W = W.
    rewrite -[RHS](fmx_id hW); apply: eq_in_fmx => // r _; rewrite mul0r Rtrigo_def.exp_0; exact: mulr1.
  by rewrite eW -[in RHS](whK u uS) hS.
move=> t; rewrite ge.
have n0 r : Rtrigo_def.exp (t * r) != 0 by rewrite gt_eqF // expR_gt0.
have E : fmx (fun r => Rtrigo_def.exp (t * r)) W \in unitmx by apply/pd_unit/fmx_pd => // r _; exact: expR_gt0.
have i2 : invmx (S *m fmx (fun r => Rtrigo_def.exp (t * r)) W *m S) =
  invmx S *m fmx (fun r => (Rtrigo_def.exp (t * r))^-1) W *m invmx S.
  have i3 (F : 'M[K]_n) : F \in unitmx -> invmx (S *m F *m S) = invmx S *m invmx F *m invmx S.
    by move=> uF; rewrite !invmxM' ?unitmx_mul ?uS // mulmxA.
  by rewrite i3 // (fmxV hW).
rewrite i2.
have red (A B D : 'M[K]_n) : S *m A *m S *m (invmx S *m B *m invmx S) *m (S *m D *m S) = S *m (A *m B *m D) *m S.
  by rewrite !mulmxA mulmxK // mulmxKV.
rewrite red !fmxM //; congr (_ *m _ *m _); apply: eq_in_fmx => // r _.
by move: (n0 r); move: (Rtrigo_def.exp _) => e e0; rewrite mulfK.
Qed.
(* the quadratic form of ehess2rhess is the second derivative of f along that geodesic,
   <D^2 f[u], u> + <D f, c''(0)>, with c''(0) = u x^-1 u *)
Theorem C70_hessian x g h u : pd x -> herm u ->
  toR (inner1 x (hehess1 x g h u) u) = toR (\tr (h^H *m u)) + toR (\tr (g^H *m (u *m invmx x *m u))).
Proof.
move=> px hu; have ux := pd_unit px; have hx := pd_herm (pd_inv px).
have tg v G : herm v -> toR (\tr (multiherm G *m v)) = toR (\tr (G^H *m v)).
  move=> hv; rewrite multihermE -scalemxAl mxtraceZ toRZ mulmxDl mxtraceD raddfD.
  have -> : toR (\tr (G *m v)) = toR (\tr (G^H *m v)) by rewrite -[LHS]toR_cj -mxtrace_adj adjM hv mxtrace_mulC.
  by rewrite -mulr2n -[toR _ *+ 2]mulr_natl mulrA mulVf ?mul1r // pnatr_eq0.
have hq : herm (u *m invmx x *m u).
  have -> : u *m invmx x *m u = u *m invmx x *m u^H by rewrite [u^H]hu.
  exact: herm_congr.
rewrite -(tg _ _ hu) -(tg _ _ hq) inner1E /hehess1 mulmxDr mulmxDl mxtraceD raddfD; congr (_ + _).
  by congr (toR (\tr _)); rewrite !mulmxA mulVmx // mul1mx -(mulmxA _ x) mulmxV // mulmx1.
have [H eH] : exists H, H = multiherm g by exists (multiherm g).
have hH : H^H = H by rewrite eH; exact: herm_multiherm.
rewrite -eH; have e : toR (\tr (invmx x *m multiherm (u *m H *m x) *m (invmx x *m u))) =
    toR (\tr (multiherm (u *m H *m x) *m (invmx x *m u *m invmx x))).
  by rewrite -mulmxA mxtrace_mulC -!mulmxA.
have hr : herm (invmx x *m u *m invmx x).
  have -> : invmx x *m u *m invmx x = invmx x *m u *m (invmx x)^H by rewrite [(invmx x)^H]hx.
  exact: herm_congr.
rewrite e tg // !adjM hH; have -> : x^H = x by exact: pd_herm.
have -> : u^H = u by [].
congr (toR _); rewrite -!mulmxA mxtrace_mulC !mulmxA.
by rewrite -(mulmxA _ (invmx x) x) mulVmx // mulmx1.
Qed.
End Geodesic.

(* the same for the positive vectors *)
Theorem C70_spv_geodesic n k (x u : 'M[R]_(n, k)) : positive x -> exists v a : R -> 'M[R]_(n, k),
  [/\ forall i j (t : R), is_derive (fun s : R => spv_exp x (s *: u) i j : R) t (v t i j),
      forall i j (t : R), is_derive (fun s => v s i j) t (a t i j), v 0 = u &
      forall i j t, a t i j = v t i j * (spv_exp x (t *: u) i j)^-1 * v t i j].
Proof.
move=> px; exists (fun t => \matrix_(i, j) (u i j * Rtrigo_def.exp (Rinv (x i j) * (t * u i j)))).
exists (fun t => \matrix_(i, j) (u i j * (Rinv (x i j) * (u i j * Rtrigo_def.exp (Rinv (x i j) * (t * u i j)))))); split.
- move=> i j t; rewrite mxE; have /RltP h := px i j; apply: (@is_derive_ext R_AbsRing R_NormedModule (fun s => x i j * Rtrigo_def.exp (Rinv (x i j) * (s * u i j)))).
    by move=> s; rewrite !mxE Rinv_E.
  exact: d_spv0.
- move=> i j t; rewrite mxE; have /RltP h := px i j; apply: (@is_derive_ext R_AbsRing R_NormedModule (fun s => u i j * Rtrigo_def.exp (Rinv (x i j) * (s * u i j)))).
    by move=> s; rewrite !mxE.
  exact: d_spv1.
- by apply/matrixP => i j; rewrite !mxE mul0r mulr0 Rtrigo_def.exp_0; exact: mulr1.
move=> i j t; rewrite !mxE Rinv_E.
have n0 : x i j != 0 by rewrite gt_eqF.
have : Rtrigo_def.exp ((x i j)^-1 * (t * u i j)) != 0 by rewrite gt_eqF // expR_gt0.
move: (Rtrigo_def.exp _) => e; move: (x i j) (u i j) n0 => y w /eqP n0 /eqP e0.
by rfield.
Qed.
Theorem C70_spv_hessian n k (x g h u : 'M[R]_(n, k)) j : positive x ->
  spv_inner x (spv_ehess2rhess x g h u) u 0 j = \sum_i (h i j * u i j + g i j * (u i j * (x i j)^-1 * u i j)).
Proof.
move=> px; rewrite mxE; apply: eq_bigr => i _; rewrite mxE; have := px i j.
by move: (x i j) (g i j) (h i j) (u i j) => a b c d /RltP a0; rfield; apply: Rgt_not_eq.
Qed.
(* on the 1 x 1 matrices: exp(1, t) = e^t, a curve that is not a straight line *)
Example C70_ex (K : starField) eigh : eigh_ok eigh -> pd (1%:M : 'M[K]_1) /\ herm (1%:M : 'M[K]_1) /\
  hexp1 eigh (1%:M : 'M[K]_1) 1%:M = (@ofR K (Rtrigo_def.exp 1))%:M.
Proof.
move=> he; have p := pd1 K 1; have h := pd_herm p; split=> //; split=> //.
have i1 (f : R -> R) : fmx f (1%:M : 'M[K]_1) = (@ofR K (f 1))%:M.
  have e : (1%:M : 'M[K]_1) = @ofR K 1 *: 1%:M by have -> : @ofR K 1 = 1 by [exact: rmorph1]; rewrite scale1r.
  by rewrite {1}e fmx_scalar scalemx1.
have s1 : R_sqrt.sqrt 1 = 1 by apply: sqrtR_of; rewrite ?ler01 ?expr1n.
by rewrite (hexpE he p h) (i1 R_sqrt.sqrt) s1 rmorph1 /wh invmx1 adj1 !mul1mx !mulmx1 i1.
Qed.

Print Assumptions C70_geodesic.
Print Assumptions C70_hessian.
Print Assumptions C70_spv_geodesic.
Print Assumptions C70_spv_hessian.
