(* Tyler's cost on Kronecker structured matrices: geodesic convexity.  Nothing here models code. *)
From Coq Require Import Reals Lra Classical_Prop.
From mathcomp Require Import all_ssreflect all_algebra.
From mathcomp Require Import mxtens.
From Verif Require Import RealsMC RealTac RealTac2 Star FunCalc Spec_covariance Proofs_mest Proofs_cost Proofs_unique Proofs_unique2 Proofs_structured Props_structured
  Compact Proofs_converge Props_converge Spec_kron.
Set Implicit Arguments.
Unset Strict Implicit.
Unset Printing Implicit Defensive.
Local Open Scope ring_scope.
Import GRing.Theory Num.Theory Order.TTheory.

Section Tensor.
Variable K : starField.
Local Notation ofR := (@ofR K).
Local Notation toR := (@toR K).
Local Notation "A ^H" := (adj A) (at level 8, format "A ^H").
Variables (a b : nat).
Definition tv (d : 'rV[R]_a) (e : 'rV[R]_b) : 'rV[R]_(a * b) := \row_k (d 0 (mxtens_unindex k).1 * e 0 (mxtens_unindex k).2).
Lemma tvE d e j k : tv d e 0 (mxtens_index (j, k)) = d 0 j * e 0 k.
Proof. by rewrite mxE mxtens_indexK. Qed.
Lemma tv_gt0 (d : 'rV[R]_a) (e : 'rV[R]_b) : (forall j, 0 < d 0 j) -> (forall k, 0 < e 0 k) -> forall l, 0 < tv d e 0 l.
Proof. by move=> d0 e0 l; rewrite mxE mulr_gt0. Qed.
Lemma tens_dia d e : dia K d *t dia K e = dia K (tv d e).
Proof.
apply/matrixP => i j; case: (mxtens_indexP i) => i1 i2; case: (mxtens_indexP j) => j1 j2.
rewrite tensmxE !diaE (can_eq (@mxtens_indexK _ _)) xpair_eqE tvE rmorphM /=.
by case: (i1 == j1); case: (i2 == j2); rewrite ?mulr1n ?mulr0n ?mulr0 ?mul0r.
Qed.
Lemma big_tensR (F : 'I_(a * b) -> R) : \sum_k F k = \sum_j \sum_k F (mxtens_index (j, k)).
Proof.
rewrite (reindex (@mxtens_index a b)) /=; last by exists (@mxtens_unindex a b) => z _; rewrite ?mxtens_indexK ?mxtens_unindexK.
by rewrite pair_bigA; apply: eq_bigr => -[c r] _.
Qed.
Lemma sum_ln_tv (d : 'rV[R]_a) (e : 'rV[R]_b) : (forall j, 0 < d 0 j) -> (forall k, 0 < e 0 k) ->
  \sum_l ln (tv d e 0 l) = b%:R * (\sum_j ln (d 0 j)) + a%:R * (\sum_k ln (e 0 k)).
Proof.
move=> d0 e0; rewrite big_tensR.
rewrite (eq_bigr (fun j => b%:R * ln (d 0 j) + \sum_k ln (e 0 k))) => [|j _].
  by rewrite big_split /= -mulr_sumr sumr_const card_ord; congr (_ + _); rewrite mulr_natl.
rewrite (eq_bigr (fun k => ln (d 0 j) + ln (e 0 k))) => [|k _]; last by rewrite tvE lnM.
by rewrite big_split /= sumr_const card_ord mulr_natl.
Qed.
Lemma tens_unit (G : 'M[K]_a) (H : 'M[K]_b) : G \in unitmx -> H \in unitmx -> G *t H \in unitmx.
Proof. by move=> uG uH; case: (tens_inv uG uH). Qed.
(* both factors at once *)
Lemma tens_congr (G P : 'M[K]_a) (H B : 'M[K]_b) : (G *m P *m G^H) *t (H *m B *m H^H) = (G *t H) *m (P *t B) *m (G *t H)^H.
Proof. by rewrite tens_adj !tensmx_mul. Qed.
(* the column of a matrix: columns one below the other *)
Definition vecu (M : 'M[K]_(b, a)) : 'cV[K]_(a * b) := \col_l M (mxtens_unindex l).2 (mxtens_unindex l).1.
Lemma vecuE M j k : vecu M (mxtens_index (j, k)) 0 = M k j. Proof. by rewrite mxE mxtens_indexK. Qed.
Lemma tens_vecu (F : 'M[K]_a) (E : 'M[K]_b) M : (F *t E) *m vecu M = vecu (E *m M *m F^T).
Proof.
apply/matrixP => l z; rewrite ord1; case: (mxtens_indexP l) => j k; rewrite vecuE mxE big_tens mxE; apply: eq_bigr => j' _.
rewrite mxE big_distrl /=; apply: eq_bigr => k' _; rewrite tensmxE vecuE !mxE; by rewrite -mulrA mulrC.
Qed.
Lemma vecu_inj M M' : vecu M = vecu M' -> M = M'.
Proof. by move=> e; apply/matrixP => k j; rewrite -!vecuE e. Qed.
End Tensor.

(* ln det (S + t y y^H) is unbounded *)
Section RankOne.
Variable K : starField.
Local Notation ofR := (@ofR K).
Local Notation toR := (@toR K).
Local Notation "A ^H" := (adj A) (at level 8, format "A ^H").
Lemma det_rank1 p (S : 'M[K]_p) (y : 'cV[K]_p) (m : R) : pd S -> y != 0 -> exists t : R, [/\ 0 <= t, pd (S + ofR t *: outer y) &
  ln (toR (\det S)) + m < ln (toR (\det (S + ofR t *: outer y)))].
Proof.
move=> pS y0; have pO : psd (outer y) by exact: psd_outer.
have pT : pd (S + outer y) by apply: pdD.
have [B [d [uB eS eT d0]]] := simdiag pS pT.
have eO : outer y = B *m dia K (\row_j (d 0 j - 1)) *m B^H.
  have -> : outer y = (S + outer y) - S by rewrite addrAC subrr add0r.
  have E1 : dia K (const_mx 1) = 1%:M :> 'M_p by rewrite dia_const rmorph1.
  have eS' : S = B *m dia K (const_mx 1) *m B^H by rewrite E1 mulmx1.
  rewrite {1}eT eS' -mulmxBl -mulmxBr diaB; congr (_ *m dia K _ *m _); apply/rowP => j; by rewrite !mxE.
have d1 j : 0 <= d 0 j - 1.
  have := psd_congr (invmx B) pO; rewrite eO !mulmxA mulVmx // mul1mx -mulmxA -adjM mulVmx // adj1 mulmx1.
  by move=> /(psd_diag0 j); rewrite !mxE eqxx mulr1n ofRge0.
have [j dj] : exists j, 0 < d 0 j - 1.
  apply: NNPP => h; case/negP: y0; have z : dia K (\row_j (d 0 j - 1)) = 0.
    apply/matrixP => i j; rewrite diaE !mxE; suff -> : d 0 i - 1 = 0 by rewrite rmorph0 mul0rn.
    by apply/eqP; rewrite eq_le d1 andbT leNgt; apply/negP => hi; apply: h; exists i.
  have o0 : outer y = 0 by rewrite eO z mulmx0 mul0mx.
  apply/eqP/colP => i; rewrite mxE; apply/eqP; rewrite -mul_cj_eq0 -outerE o0 mxE //.
pose t : R := exp (Num.max m 0) / (d 0 j - 1); have ex0 : 0 < exp (Num.max m 0) by apply/RltP; exact: exp_pos.
have t0 : 0 <= t by rewrite divr_ge0 // ltW.
pose e : 'rV[R]_p := \row_j (1 + t * (d 0 j - 1)).
have e1 i : 1 <= e 0 i by rewrite mxE ler_addl mulr_ge0.
have e0 i : 0 < e 0 i := lt_le_trans ltr01 (e1 i).
have eE : S + ofR t *: outer y = B *m dia K e *m B^H.
  have E1 : dia K (const_mx 1) = 1%:M :> 'M_p by rewrite dia_const rmorph1.
  have eS' : S = B *m dia K (const_mx 1) *m B^H by rewrite E1 mulmx1.
  rewrite eO eS' scalemxAl scalemxAr dia_scale -mulmxDl -mulmxDr diaD; congr (_ *m dia K _ *m _); apply/rowP => i; by rewrite !mxE.
exists t; split=> //; first by rewrite eE; apply: pd_congr => //; exact: pd_dia.
rewrite eE det_simdiag // -eS ltr_add2l (bigD1 j) //=.
apply: (@lt_le_trans _ _ (ln (e 0 j))); last by rewrite ler_addl; apply: sumr_ge0 => i _; rewrite -ln1; apply: ln_le => //; exact: ltr01.
apply: (@le_lt_trans _ _ (ln (exp (Num.max m 0)))).
  have -> : ln (exp (Num.max m 0)) = Num.max m 0 by exact: ln_exp.
  by rewrite le_maxr lexx.
by apply: ln_lt => //; rewrite mxE /t divfK ?gt_eqF // ltr_addr ltr01.
Qed.
End RankOne.
