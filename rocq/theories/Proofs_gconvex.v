(* Convexity of the costs along the geodesics of the Hermitian positive definite matrices. *)
From Coq Require Import Reals.
From mathcomp Require Import all_ssreflect all_algebra.
From mathcomp Require Import complex mxtens.
From Verif Require Import RealsMC RealTac RealTac2 Star StarInst FunCalc Model_linalg Proofs_linalg Props_linalg Model_covariance Spec_covariance Spec_fixedpoint Proofs_mest Proofs_cost
  Model_manifolds Proofs_hpd Props_hpd Props_structured Proofs_kron Proofs_kron3 Spec_convex GConvNum.
Set Implicit Arguments.
Unset Strict Implicit.
Unset Printing Implicit Defensive.
Local Open Scope ring_scope.
Import GRing.Theory Num.Theory Order.TTheory.
Local Notation "A ^H" := (adj A) (at level 8, format "A ^H").
Local Notation exp := Rtrigo_def.exp.

Lemma convex_ext f g : (forall t, f t = g t) -> convexR f -> convexR g.
Proof. by move=> e h th s t ht; rewrite -!e; apply: h. Qed.
Lemma affine_alg (a b th s t : R) : a + b * (th * s + (1 - th) * t) = th * (a + b * s) + (1 - th) * (a + b * t).
Proof. rring. Qed.
Lemma convex_affine (a b : R) : convexR (fun t => a + b * t).
Proof. by move=> th s t _; rewrite affine_alg. Qed.
Lemma add_alg (th x y z w : R) : th * x + (1 - th) * y + (th * z + (1 - th) * w) = th * (x + z) + (1 - th) * (y + w).
Proof. rring. Qed.
Lemma convex_add f g : convexR f -> convexR g -> convexR (fun t => f t + g t).
Proof. by move=> hf hg th s t ht; rewrite -add_alg ler_add ?hf ?hg. Qed.
Lemma mul_alg (c th x y : R) : c * (th * x + (1 - th) * y) = th * (c * x) + (1 - th) * (c * y).
Proof. rring. Qed.
Lemma convex_scale c f : 0 <= c -> convexR f -> convexR (fun t => c * f t).
Proof. by move=> c0 hf th s t ht; rewrite -mul_alg ler_wpmul2l ?hf. Qed.
Lemma convex_const c : convexR (fun _ => c).
Proof. by apply: convex_ext (convex_affine c 0) => t; rewrite mul0r addr0. Qed.
Lemma convex_sum n (f : 'I_n -> R -> R) : (forall i, convexR (f i)) -> convexR (fun t => \sum_i f i t).
Proof.
move=> h th s t ht; rewrite !mulr_sumr -big_split /=; apply: ler_sum => i _; exact: h.
Qed.
(* log-sum-exp *)
Lemma convex_lse n (c d : 'I_n -> R) : (forall j, 0 <= c j) -> (forall t, 0 < \sum_j c j * exp (t * d j)) ->
  convexR (fun t => ln (\sum_j c j * exp (t * d j))).
Proof.
move=> c0 p th s t /andP[h0 h1].
set F := fun t => \sum_j c j * exp (t * d j); set m := th * ln (F s) + (1 - th) * ln (F t).
have eF r : exp (ln (F r)) = F r by apply: exp_ln; apply/RltP; exact: p.
have le : F (th * s + (1 - th) * t) <= exp m.
  have step j : c j * exp ((th * s + (1 - th) * t) * d j) <= exp m * (th * (c j * exp (s * d j) / F s) + (1 - th) * (c j * exp (t * d j) / F t)).
    have -> : (th * s + (1 - th) * t) * d j = th * (s * d j) + (1 - th) * (t * d j) by rewrite mulrDl !mulrA.
    have /RleP h := @holder_term th (s * d j) (t * d j) (ln (F s)) (ln (F t)) (RleP _ _ h0) (RleP _ _ h1).
    rewrite !eF in h; have := ler_wpmul2l (c0 j) h; congr (_ <= _).
    rewrite /m /Rdiv !Rinv_E; move: (exp _) => e; move: (exp _) (exp _) (F s)^-1 (F t)^-1 => u v f g; rring.
  apply: (le_trans (ler_sum _ (fun j _ => step j))); rewrite -mulr_sumr big_split /= -!mulr_sumr -!mulr_suml.
  by rewrite -/(F s) -/(F t) !divff ?gt_eqF ?p // !mulr1 addrC subrK mulr1.
rewrite -/(F (th * s + (1 - th) * t)) -[X in _ <= X](ln_exp m).
by apply: ln_le => //; exact: p.
Qed.
Lemma convex_lse1 (a : R) n (c d : 'I_n -> R) : 0 <= a -> (forall j, 0 <= c j) -> (forall t, 0 < a + \sum_j c j * exp (t * d j)) ->
  convexR (fun t => ln (a + \sum_j c j * exp (t * d j))).
Proof.
move=> a0 c0 p.
pose c' (j : 'I_n.+1) := if unlift ord0 j is Some k then c k else a.
pose d' (j : 'I_n.+1) := if unlift ord0 j is Some k then d k else 0.
have e t : \sum_j c' j * exp (t * d' j) = a + \sum_j c j * exp (t * d j).
  rewrite big_ord_recl /c' /d' unlift_none mulr0 Rtrigo_def.exp_0; congr (_ + _); first exact: mulr1.
  by apply: eq_bigr => j _; rewrite liftK.
apply: (@convex_ext (fun t => ln (\sum_j c' j * exp (t * d' j)))) => [t|]; first by rewrite e.
apply: convex_lse => [j|t]; last by rewrite e.
by rewrite /c'; case: unliftP.
Qed.

Section Curves.
Variables (K : starField).
Local Notation cj := (@cj K).
Local Notation toR := (@toR K).
Local Notation ofR := (@ofR K).
(* t -> G diag(e^(t w)) G^H *)
Definition ecurve n (G : 'M[K]_n) (w : 'rV[R]_n) (t : R) := G *m dia K (\row_j exp (t * w 0 j)) *m G^H.
Section One.
Variables (n : nat) (G : 'M[K]_n) (w : 'rV[R]_n).
Hypothesis uG : G \in unitmx.
Lemma dexp_gt0 t j : 0 < (\row_j exp (t * w 0 j)) 0 j. Proof. by rewrite mxE expR_gt0. Qed.
Lemma ecurve_pd t : pd (ecurve G w t).
Proof. by apply: pd_congr => //; apply: pd_dia => j; apply: dexp_gt0. Qed.
Lemma ecurve_maha z t : maha (ecurve G w t) z = \sum_j sq ((invmx G *m z) j 0) * exp (t * - w 0 j).
Proof.
have uD : dia K (\row_j exp (t * w 0 j)) \in unitmx by apply/pd_unit/pd_dia => j; apply: dexp_gt0.
rewrite -[X in maha _ X](mulKVmx uG) maha_congr // maha_dia => [|j]; last exact: dexp_gt0.
by apply: eq_bigr => j _; rewrite mxE mulrN -RoppE exp_Ropp Rinv_E.
Qed.
Lemma ecurve_ln_maha (a : R) z : 0 <= a -> 0 < a \/ z != 0 -> convexR (fun t => ln (a + maha (ecurve G w t) z)).
Proof.
move=> a0 az; apply: (@convex_ext (fun t => ln (a + \sum_j sq ((invmx G *m z) j 0) * exp (t * - w 0 j)))) => [t|].
  by rewrite ecurve_maha.
apply: (@convex_lse1 a n (fun j => sq ((invmx G *m z) j 0)) (fun j => - w 0 j)) => // [j|t]; first exact: sq_ge0.
have pt := ecurve_pd t; rewrite -ecurve_maha; case: az => h; first by rewrite ltr_paddr // maha_ge0.
by rewrite ltr_paddl // maha_gt0.
Qed.
Lemma ecurve_ln_det : convexR (fun t => ln (toR (\det (ecurve G w t)))).
Proof.
apply: (@convex_ext (fun t => ln (toR (\det (G *m G^H))) + (\sum_j w 0 j) * t)) => [t|]; last exact: convex_affine.
rewrite /ecurve det_simdiag //; last by move=> j; apply: dexp_gt0.
by congr (_ + _); rewrite mulr_suml; apply: eq_bigr => j _; rewrite mxE ln_exp mulrC.
Qed.
End One.
Lemma ecurve_tens a b (G : 'M[K]_a) (F : 'M[K]_b) w v t : ecurve G w t *t ecurve F v t =
  ecurve (G *t F) (\row_k (w 0 (mxtens_unindex k).1 + v 0 (mxtens_unindex k).2)) t.
Proof.
rewrite /ecurve -!tensmx_mul tens_dia -tens_adj; congr (_ *m dia K _ *m _); apply/rowP => k; rewrite !mxE.
by rewrite mulrDr -RplusE exp_plus.
Qed.
Section Exp.
Variable eigh : eigsolver K.
Hypothesis eighP : eigh_ok eigh.
Lemma hexp_ecurve n (G : 'M[K]_n) w t : G \in unitmx -> hexp1 eigh (G *m G^H) (ofR t *: (G *m dia K w *m G^H)) = ecurve G w t.
Proof.
move=> uG; have pG : pd (G *m G^H) by have := pd_congr uG (pd1 K n); rewrite mulmx1.
rewrite (hexpE eighP pG); last by apply: hermZR; apply: herm_congr; exact: adj_dia.
have f := factor_sqrt eighP pG; have hS : (fmx R_sqrt.sqrt (G *m G^H))^H = fmx R_sqrt.sqrt (G *m G^H) by exact: fmx_herm.
move: (fmx _ _) f hS => S [uS eS] hS; rewrite hS in eS.
pose U := invmx S *m G.
have eG : G = S *m U by rewrite /U mulKVmx.
have UU : U *m U^H = 1%:M.
  by rewrite /U adjM adjV hS !mulmxA -(mulmxA _ G) -eS !mulmxA mulVmx // mul1mx mulmxV.
have uU : unitary U by apply: mulmx1C.
have eD : dia K (map_mx (fun r => t * r) w) = ofR t *: dia K w.
  by apply/matrixP => i j; rewrite [RHS]mxE !diaE mxE rmorphM mulrnAr.
have eW : eigdec (wh S (ofR t *: (G *m dia K w *m G^H))) (map_mx (fun r => t * r) w) U.
  split=> //; rewrite /wh /U eD adjM !(=^~ scalemxAr, =^~ scalemxAl) !mulmxA; by [].
rewrite (fmx_dec _ eW) /ecurve [in RHS]eG adjM hS !mulmxA; congr (_ *m dia K _ *m _ *m _).
by apply/rowP => j; rewrite !mxE.
Qed.
(* every geodesic is one of these curves *)
Lemma hexp_curve n (x u : 'M[K]_n) : pd x -> herm u -> exists G w, [/\ G \in unitmx, x = G *m G^H, u = G *m dia K w *m G^H &
  forall t, hexp1 eigh x (ofR t *: u) = ecurve G w t].
Proof.
move=> px hu; have f := factor_sqrt eighP px; have hS : (fmx R_sqrt.sqrt x)^H = fmx R_sqrt.sqrt x by exact: fmx_herm.
move: (fmx _ _) f hS => S f hS; have [uS eS] := f.
have hW : herm (wh S u) by apply: wh_herm.
have [uV eV] := specdecP hW; set V := (specdec _).2 in uV eV; set w := (specdec _).1 in eV.
have uG : S *m V \in unitmx by rewrite unitmx_mul uS /=; have [] := mulmx1_unit uV.
have ex : x = S *m V *m (S *m V)^H by rewrite adjM mulmxA -(mulmxA S) (mulmx1C uV) mulmx1 eS.
have eu : u = S *m V *m dia K w *m (S *m V)^H by rewrite -[LHS](whK u uS) eV adjM !mulmxA.
exists (S *m V), w; split=> // t; rewrite {1}ex {1}eu; exact: hexp_ecurve.
Qed.
End Exp.
End Curves.
