From Coq Require Import Reals.
From mathcomp Require Import all_ssreflect all_algebra.
From Verif Require Import RealsMC Star FunCalc Model_linalg.
Set Implicit Arguments.
Unset Strict Implicit.
Unset Printing Implicit Defensive.
Local Open Scope ring_scope.
Import GRing.Theory Num.Theory Order.TTheory.

Section Linalg.
Variable K : starField.
Variable eigh : eigsolver K.
Hypothesis ok : eigh_ok eigh.
Local Notation ofR := (@ofR K).

Lemma eigh_dec n (A : 'M[K]_n) : herm A -> eigdec A (eigh A).1 (eigh A).2.
Proof. by move=> /ok; case: (eigh A) => d V /=. Qed.

Lemma moE n (A : 'M[K]_n) f : herm A -> _matrix_operator eigh A f = fmx f A.
Proof.
move=> hA; rewrite (fmx_dec f (eigh_dec hA)) /_matrix_operator; case: (eigh A) => d V /=.
by congr (_ *m diag_mx _ *m _); apply/matrixP => i j; rewrite !mxE.
Qed.

Lemma multihconjE m n (A : 'M[K]_(m, n)) : multihconj A = A^H.
Proof. by rewrite /multihconj adj_tr. Qed.
Lemma halfR : 2%:R^-1 = ofR 2%:R^-1. Proof. by rewrite fmorphV ofR_nat. Qed.
Lemma multihermE n (A : 'M[K]_n) : multiherm A = ofR 2%:R^-1 *: (A + A^H).
Proof. by rewrite /multiherm multihconjE halfR. Qed.
Lemma herm_multiherm n (A : 'M[K]_n) : herm (multiherm A).
Proof. by rewrite multihermE; apply: hermZR; rewrite /herm adjD adjK addrC. Qed.
Lemma multiherm_id n (A : 'M[K]_n) : herm A -> multiherm A = A.
Proof.
move=> h; rewrite /multiherm multihconjE h -mulr2n -scaler_nat scalerA mulVf ?scale1r //.
by rewrite pnatr_eq0.
Qed.

Lemma sqrtmE n (A : 'M[K]_n) : herm A -> sqrtm eigh A = fmx R_sqrt.sqrt A. Proof. exact: moE. Qed.
Lemma invsqrtmE n (A : 'M[K]_n) : herm A -> invsqrtm eigh A = fmx (fun x => 1 / R_sqrt.sqrt x) A.
Proof. exact: moE. Qed.

Lemma sqrtm_sqr n (A : 'M[K]_n) : psd A -> sqrtm eigh A *m sqrtm eigh A = A.
Proof.
move=> pA; have hA := psd_herm pA; rewrite sqrtmE // fmxM // -[RHS](fmx_id hA).
by apply: eq_in_fmx => // r /(eigval_ge0 pA) r0; rewrite sqrtR_sqr.
Qed.
Lemma sqrtm_psd n (A : 'M[K]_n) : psd A -> psd (sqrtm eigh A).
Proof. by move=> pA; have hA := psd_herm pA; rewrite sqrtmE //; apply: fmx_psd => // r _; apply: sqrtR_ge0. Qed.
Lemma sqrtm_pd n (A : 'M[K]_n) : pd A -> pd (sqrtm eigh A).
Proof.
move=> pA; have hA := pd_herm pA; rewrite sqrtmE //; apply: fmx_pd => // r /(eigval_gt0 pA) r0.
exact: sqrtR_gt0.
Qed.
Lemma invsqrtm_pd n (A : 'M[K]_n) : pd A -> pd (invsqrtm eigh A).
Proof.
move=> pA; have hA := pd_herm pA; rewrite invsqrtmE //; apply: fmx_pd => // r /(eigval_gt0 pA) r0.
by rewrite mul1r invr_gt0 sqrtR_gt0.
Qed.
Lemma invsqrtm_sqr n (A : 'M[K]_n) : pd A -> invsqrtm eigh A *m invsqrtm eigh A = invmx A.
Proof.
move=> pA; have hA := pd_herm pA; rewrite invsqrtmE // fmxM // -(fmx_inv pA).
apply: eq_in_fmx => // r /(eigval_gt0 pA) r0.
by rewrite !mul1r -invfM sqrtR_sqr // ltW.
Qed.
Lemma invsqrtm_congr n (A : 'M[K]_n) : pd A -> invsqrtm eigh A *m A *m invsqrtm eigh A = 1%:M.
Proof.
move=> pA; have hA := pd_herm pA; rewrite invsqrtmE // -{2}(fmx_id hA) !fmxM //.
rewrite (@eq_in_fmx _ _ _ (fun=> 1)) ?fmx_const ?rmorph1 // => r /(eigval_gt0 pA) r0.
have s0 := sqrtR_gt0 r0; rewrite !mul1r mulrAC -invfM sqrtR_sqr ?ltW // mulVf // gt_eqF //.
Qed.
Lemma sqrtm_inv n (A : 'M[K]_n) : pd A -> sqrtm eigh A *m invsqrtm eigh A = 1%:M.
Proof.
move=> pA; have hA := pd_herm pA; rewrite invsqrtmE // sqrtmE // !fmxM //.
rewrite (@eq_in_fmx _ _ _ (fun=> 1)) ?fmx_const ?rmorph1 // => r /(eigval_gt0 pA) r0.
by rewrite mul1r divff // gt_eqF // sqrtR_gt0.
Qed.
Lemma expm_logm n (A : 'M[K]_n) : pd A -> expm eigh (logm eigh A) = A.
Proof.
move=> pA; have hA := pd_herm pA; rewrite /expm /logm (moE _ hA) moE; last exact: fmx_herm.
rewrite fmx_comp // -[RHS](fmx_id hA); apply: eq_in_fmx => // r /(eigval_gt0 pA) /RltP r0 /=.
exact: Rpower.exp_ln.
Qed.
Lemma logm_expm n (A : 'M[K]_n) : herm A -> logm eigh (expm eigh A) = A.
Proof.
move=> hA; rewrite /expm /logm (moE _ hA) moE; last exact: fmx_herm.
rewrite fmx_comp // -[RHS](fmx_id hA); apply: eq_in_fmx => // r _ /=; exact: Rpower.ln_exp.
Qed.
Lemma expm_pd n (A : 'M[K]_n) : herm A -> pd (expm eigh A).
Proof. by move=> hA; rewrite /expm moE //; apply: fmx_pd => // r _; apply/RltP/exp_pos. Qed.
Lemma logm_herm n (A : 'M[K]_n) : herm A -> herm (logm eigh A).
Proof. by move=> hA; rewrite /logm moE //; apply: fmx_herm. Qed.
Lemma powmD n (A : 'M[K]_n) a b : pd A -> powm eigh A a *m powm eigh A b = powm eigh A (a + b).
Proof.
move=> pA; have hA := pd_herm pA; rewrite /powm !moE // fmxM //; apply: eq_in_fmx => // r _.
by rewrite -RmultE -Rpower_plus.
Qed.
Lemma powm1 n (A : 'M[K]_n) : pd A -> powm eigh A 1 = A.
Proof.
move=> pA; have hA := pd_herm pA; rewrite /powm moE // -[RHS](fmx_id hA).
by apply: eq_in_fmx => // r /(eigval_gt0 pA) /RltP r0; apply: Rpower_1.
Qed.
Lemma powm0 n (A : 'M[K]_n) : pd A -> powm eigh A 0 = 1%:M.
Proof.
move=> pA; have hA := pd_herm pA; rewrite /powm moE // (@eq_in_fmx _ _ _ (fun=> 1)) ?fmx_const ?rmorph1 //.
by move=> r /(eigval_gt0 pA) /RltP r0; apply: Rpower_O.
Qed.
Lemma powm_pd n (A : 'M[K]_n) a : pd A -> pd (powm eigh A a).
Proof. by move=> pA; have hA := pd_herm pA; rewrite /powm moE //; apply: fmx_pd => // r _; apply/RltP/exp_pos. Qed.
Lemma powm_half n (A : 'M[K]_n) : pd A -> powm eigh A 2%:R^-1 = sqrtm eigh A.
Proof.
move=> pA; have hA := pd_herm pA; rewrite /powm sqrtmE // moE //; apply: eq_in_fmx => // r /(eigval_gt0 pA) /RltP r0.
rewrite -Rpower_sqrt //; congr Rpower.
have -> : Rdefinitions.IZR 2 = (2%:R : R) by [].
by rewrite RinvE //; apply/eqP; rewrite pnatr_eq0.
Qed.

(* the square root is the only positive semidefinite one *)
Lemma psd_sqrt_uniq n (A B : 'M[K]_n) : psd B -> B *m B = A -> B = fmx R_sqrt.sqrt A.
Proof.
move=> pB e; have hB := psd_herm pB; rewrite -e -{2 3}(fmx_id hB) fmxM // fmx_comp // -[LHS](fmx_id hB).
apply: eq_in_fmx => // r /(eigval_ge0 pB) r0 /=; by rewrite -expr2 sqrtR_sq.
Qed.
End Linalg.

Section Toeplitz.
Variable K : starField.
Local Notation cj := (@cj K).
Local Notation ofR := (@ofR K).
Local Notation toR := (@toR K).
Lemma toeplitz_herm (rho : K) p : herm (ToeplitzMatrix rho p).
Proof.
apply/matrixP => i j; rewrite adjE !mxE; case: ltngtP => h.
- by rewrite ?cjK.
- by rewrite ?cjK.
- by rewrite -h subnn expr0 rmorph1.
Qed.

(* The AR(1) factorisation T = L D L^H. *)
Definition arL (rho : K) p : 'M[K]_p := \matrix_(i, j) if (j <= i)%N then rho ^+ (i - j)%N else 0.
Definition arD (rho : K) p : 'rV[R]_p := \row_j if j == 0%N :> nat then 1 else 1 - toR (rho * cj rho).

Lemma ar_sum (t : K) j : \sum_(0 <= k < j.+1) t ^+ (j - k) * (if k == 0%N then 1 else 1 - t) = 1.
Proof.
elim: j => [|j IH]; first by rewrite big_nat1 subn0 expr0 mul1r.
rewrite big_nat_recr //= subnn expr0 mul1r.
rewrite (@eq_big_nat _ _ _ _ _ _ (fun k => t * (t ^+ (j - k) * (if k == 0%N then 1 else 1 - t)))); last first.
  by move=> k /andP [_ kj]; rewrite subSn // exprS mulrA.
by rewrite -big_distrr /= IH mulr1 addrC subrK.
Qed.

Lemma toeplitz_factor (rho : K) p : ToeplitzMatrix rho p = arL rho p *m dia K (arD rho p) *m (arL rho p)^H.
Proof.
set t := rho * cj rho.
have T : ofR (toR t) = t by apply: ofR_toR_ge0; apply: mul_cj_ge0.
have D k : ofR (arD rho p 0 k) = if k == 0%N :> nat then 1 else 1 - t.
  by rewrite mxE; case: eqP => _; rewrite ?rmorph1 // rmorphB rmorph1 T.
have main (i j : 'I_p) : (j <= i)%N -> (arL rho p *m dia K (arD rho p) *m (arL rho p)^H) i j = rho ^+ (i - j).
  move=> ji; rewrite !mxE.
  under eq_bigr => k _ do rewrite mul_mx_dia D adjE !mxE.
  rewrite (bigID (fun k : 'I_p => (k <= j)%N)) /= [X in _ + X]big1 ?addr0; last first.
    by move=> k /negbTE kj; rewrite kj rmorph0 mulr0.
  rewrite (eq_bigr (fun k : 'I_p => rho ^+ (i - j) * (t ^+ (j - k) * (if k == 0%N :> nat then 1 else 1 - t)))).
    rewrite -big_distrr /= -[RHS]mulr1; congr (_ * _); rewrite -[RHS](ar_sum t j).
    rewrite big_mkord -(@big_ord_widen_cond _ _ _ j.+1 p xpredT (fun k => t ^+ (j - k) * (if k == 0%N then 1 else 1 - t))) //.
  move=> k kj; rewrite kj (leq_trans kj ji) rmorphX mulrAC mulrA; congr (_ * _).
  by rewrite /t exprMn_comm ?mulrA -?exprD ?addnBA ?subnK //; apply: mulrC.
apply/matrixP => i j; have [ji|ij] := leqP j i; first by rewrite main // !mxE ji.
set B := _ *m _ *m _; have hB : herm B by apply/herm_congr/adj_dia.
have -> : ToeplitzMatrix rho p i j = cj (ToeplitzMatrix rho p j i) by rewrite -adjE toeplitz_herm.
have -> : B i j = cj (B j i) by rewrite -adjE hB.
by rewrite main ?(ltnW ij) // !mxE (ltnW ij).
Qed.

Lemma toeplitz_psd (rho : K) p : rho * cj rho <= 1 -> psd (ToeplitzMatrix rho p).
Proof.
move=> h; rewrite toeplitz_factor; apply/psd_congr/psd_dia => j; rewrite mxE; case: eqP => _; first by rewrite ?ler01 ?ltr01.
rewrite -(ofRge0 K) rmorphB rmorph1 ofR_toR_ge0 ?subr_ge0 //; exact: mul_cj_ge0.
Qed.
Lemma arL_unit (rho : K) p : arL rho p \in unitmx.
Proof.
rewrite unitmxE det_trig; last by apply/is_trig_mxP => i j ij; rewrite mxE leqNgt ij.
by rewrite big1 ?unitr1 // => i _; rewrite mxE leqnn subnn expr0.
Qed.
Lemma toeplitz_pd (rho : K) p : rho * cj rho < 1 -> pd (ToeplitzMatrix rho p).
Proof.
move=> h; rewrite toeplitz_factor; apply/(pd_congr (arL_unit _ _))/pd_dia => j; rewrite mxE; case: eqP => _; first by rewrite ?ler01 ?ltr01.
rewrite -(ofR_gt0 K) rmorphB rmorph1 ofR_toR_ge0 ?subr_gt0 //; exact: mul_cj_ge0.
Qed.
Lemma toeplitz_det (rho : K) p : \det (ToeplitzMatrix rho p) = (1 - rho * cj rho) ^+ p.-1.
Proof.
rewrite toeplitz_factor !det_mulmx det_adj.
have -> : \det (arL rho p) = 1.
  rewrite det_trig; last by apply/is_trig_mxP => i j ij; rewrite mxE leqNgt ij.
  by rewrite big1 // => i _; rewrite mxE leqnn subnn expr0.
rewrite rmorph1 mul1r mulr1 det_diag; case: p => [|p]; first by rewrite big_ord0 expr0.
rewrite big_ord_recl !mxE eqxx rmorph1 mul1r (eq_bigr (fun=> 1 - rho * cj rho)).
  by rewrite prodr_const card_ord.
move=> i _; rewrite !mxE /= rmorphB rmorph1 ofR_toR_ge0 //; exact: mul_cj_ge0.
Qed.
End Toeplitz.
