(* Complex matrices as real matrices of twice the size.  Nothing here models code. *)
From Coq Require Import Reals.
From mathcomp Require Import all_ssreflect all_algebra.
From mathcomp Require Import complex.
From Verif Require Import RealsMC RealTac Star StarInst FunCalc.
Set Implicit Arguments.
Unset Strict Implicit.
Unset Printing Implicit Defensive.
Local Open Scope ring_scope.
Import GRing.Theory Num.Theory Order.TTheory.
Local Notation "A ^H" := (adj A) (at level 8, format "A ^H").
Local Notation K := complex_sf.
Local Notation reC := (@complex.Re R).
Local Notation imC := (@complex.Im R).

Definition reM m n (A : 'M[K]_(m, n)) : 'M[R]_(m, n) := map_mx reC A.
Definition imM m n (A : 'M[K]_(m, n)) : 'M[R]_(m, n) := map_mx imC A.
Definition ofM m n (P Q : 'M[R]_(m, n)) : 'M[K]_(m, n) := \matrix_(i, j) Complex (P i j) (Q i j).
(* [[Re, -Im], [Im, Re]] and [Re; Im] *)
Definition rep m n (A : 'M[K]_(m, n)) : 'M[R]_(m + m, n + n) := block_mx (reM A) (- imM A) (imM A) (reM A).
Definition rvec m n (A : 'M[K]_(m, n)) : 'M[R]_(m + m, n) := col_mx (reM A) (imM A).

Lemma reM_of m n P Q : reM (@ofM m n P Q) = P. Proof. by apply/matrixP => i j; rewrite !mxE. Qed.
Lemma imM_of m n P Q : imM (@ofM m n P Q) = Q. Proof. by apply/matrixP => i j; rewrite !mxE. Qed.
Lemma ofM_re_im m n (A : 'M[K]_(m, n)) : ofM (reM A) (imM A) = A.
Proof. by apply/matrixP => i j; rewrite !mxE; case: (A i j). Qed.
Lemma reM_mul m n p (A : 'M[K]_(m, n)) (B : 'M[K]_(n, p)) : reM (A *m B) = reM A *m reM B - imM A *m imM B.
Proof.
apply/matrixP => i j; rewrite !mxE raddf_sum -sumrB; apply: eq_bigr => k _; rewrite !mxE.
by case: (A i k) => a b; case: (B k j).
Qed.
Lemma imM_mul m n p (A : 'M[K]_(m, n)) (B : 'M[K]_(n, p)) : imM (A *m B) = reM A *m imM B + imM A *m reM B.
Proof.
apply/matrixP => i j; rewrite !mxE raddf_sum -big_split; apply: eq_bigr => k _; rewrite !mxE.
by case: (A i k) => a b; case: (B k j).
Qed.
Lemma reM_adj m n (A : 'M[K]_(m, n)) : reM A^H = (reM A)^T.
Proof. by apply/matrixP => i j; rewrite !mxE; case: (A j i). Qed.
Lemma imM_adj m n (A : 'M[K]_(m, n)) : imM A^H = - (imM A)^T.
Proof. by apply/matrixP => i j; rewrite !mxE; case: (A j i). Qed.
Lemma reM1 n : reM (1%:M : 'M_n) = 1%:M.
Proof. by apply/matrixP => i j; rewrite !mxE; case: (i == j). Qed.
Lemma imM1 n : imM (1%:M : 'M_n) = 0.
Proof. by apply/matrixP => i j; rewrite !mxE; case: (i == j). Qed.
Lemma reMD m n (A B : 'M[K]_(m, n)) : reM (A + B) = reM A + reM B.
Proof. by apply/matrixP => i j; rewrite !mxE raddfD. Qed.
Lemma imMD m n (A B : 'M[K]_(m, n)) : imM (A + B) = imM A + imM B.
Proof. by apply/matrixP => i j; rewrite !mxE raddfD. Qed.

Lemma rep_mul m n p (A : 'M[K]_(m, n)) (B : 'M[K]_(n, p)) : rep (A *m B) = rep A *m rep B.
Proof.
rewrite /rep mulmx_block reM_mul imM_mul; congr block_mx; rewrite ?mulNmx ?mulmxN ?opprK //.
- by rewrite opprD.
- by rewrite addrC.
- by rewrite addrC.
Qed.
Lemma rep_rvec m n p (A : 'M[K]_(m, n)) (B : 'M[K]_(n, p)) : rvec (A *m B) = rep A *m rvec B.
Proof. by rewrite /rvec /rep mul_block_col reM_mul imM_mul mulNmx [X in col_mx _ X]addrC. Qed.
Lemma rep1 n : rep (1%:M : 'M_n) = 1%:M.
Proof. by rewrite /rep reM1 imM1 oppr0 -scalar_mx_block. Qed.
Lemma rep_adj m n (A : 'M[K]_(m, n)) : rep A^H = (rep A)^T.
Proof. by rewrite /rep tr_block_mx reM_adj imM_adj opprK raddfN. Qed.
Lemma repD m n (A B : 'M[K]_(m, n)) : rep (A + B) = rep A + rep B.
Proof. by rewrite /rep reMD imMD opprD add_block_mx. Qed.
Lemma repZ m n c (A : 'M[K]_(m, n)) : rep (@ofR K c *: A) = c *: rep A.
Proof.
rewrite /rep scale_block_mx scalerN; congr block_mx; try (congr (- _));
  by apply/matrixP => i j; rewrite !mxE; case: (A i j) => a b /=; rewrite ?mul0r ?addr0 ?subr0.
Qed.
Lemma rep_inj m n : injective (@rep m n).
Proof.
move=> A B /eq_block_mx [e1 _ e2 _]; by rewrite -(ofM_re_im A) -(ofM_re_im B) e1 e2.
Qed.
(* the range of rep: real matrices of the block form *)
Lemma rep_of m n (P Q : 'M[R]_(m, n)) : block_mx P (- Q) Q P = rep (ofM P Q).
Proof. by rewrite /rep reM_of imM_of. Qed.
Lemma rep_unit n (A : 'M[K]_n) : A \in unitmx -> rep A \in unitmx.
Proof.
by move=> uA; have /mulmx1_unit [] // : rep A *m rep (invmx A) = 1%:M; rewrite -rep_mul mulmxV ?rep1.
Qed.
Lemma rep_inv n (A : 'M[K]_n) : A \in unitmx -> invmx (rep A) = rep (invmx A).
Proof.
move=> uA; rewrite -[RHS]mul1mx -(mulVmx (rep_unit uA)) -mulmxA -rep_mul mulmxV // rep1 mulmx1 //.
Qed.
Lemma rvecZ m n c (A : 'M[K]_(m, n)) : rvec (@ofR K c *: A) = c *: rvec A.
Proof.
rewrite /rvec scale_col_mx; congr col_mx;
  by apply/matrixP => i j; rewrite !mxE; case: (A i j) => a b /=; rewrite ?mul0r ?addr0 ?subr0.
Qed.
(* real scalar product *)
Lemma rvec_dot m n p (A : 'M[K]_(m, n)) (B : 'M[K]_(m, p)) : (rvec A)^T *m rvec B = reM (A^H *m B).
Proof. by rewrite /rvec tr_col_mx mul_row_col reM_mul reM_adj imM_adj mulNmx opprK. Qed.
Lemma rvec_qf n (S : 'M[K]_n) (x : 'cV[K]_n) : (rvec x)^T *m rep S *m rvec x = reM (x^H *m S *m x).
Proof. by rewrite -!mulmxA -rep_rvec rvec_dot. Qed.
Lemma rvec0 m n : rvec (0 : 'M[K]_(m, n)) = 0.
Proof. by rewrite -(scale0r (0 : 'M[K]_(m, n))) -(rmorph0 (@ofR K)) rvecZ scale0r. Qed.
Lemma rvec_inj m n : injective (@rvec m n).
Proof. move=> A B /eq_col_mx [e1 e2]; by rewrite -(ofM_re_im A) -(ofM_re_im B) e1 e2. Qed.
Lemma rvec_onto n (z : 'cV[R]_(n + n)) : z = rvec (ofM (usubmx z) (dsubmx z)).
Proof. by rewrite /rvec reM_of imM_of vsubmxK. Qed.

(* real star field: adjoint is transpose *)
Lemma adj_real m n (A : 'M[real_sf]_(m, n)) : A^H = A^T.
Proof. by apply/matrixP => i j; rewrite !mxE. Qed.
Lemma rep_herm n (S : 'M[K]_n) : herm (rep S : 'M[real_sf]_(n + n)) <-> herm S.
Proof.
rewrite /herm adj_real -rep_adj; split=> [/rep_inj //|-> //].
Qed.
Lemma qf_rep n (S : 'M[K]_n) (x : 'cV[K]_n) : qf (rep S : 'M[real_sf]_(n + n)) (rvec x) = @toR K (qf S x).
Proof. by rewrite /qf /sesq adj_real rvec_qf mxE. Qed.
Lemma herm_qf_real n (S : 'M[K]_n) x : herm S -> @cj K (qf S x) = qf S x.
Proof.
move=> hS; have e : (x^H *m S *m x)^H = x^H *m S *m x by rewrite !adjM adjK hS mulmxA.
by have := congr1 (fun M : 'M_1 => M 0 0) e; rewrite adjE.
Qed.
Lemma rep_psd n (S : 'M[K]_n) : psd (rep S : 'M[real_sf]_(n + n)) <-> psd S.
Proof.
split=> [[/rep_herm hS h]|[hS h]]; split=> //.
- by move=> x; have := h (rvec x); rewrite qf_rep -(ofRge0 K) ofRK // herm_qf_real.
- exact/rep_herm.
- by move=> z; rewrite (rvec_onto z) qf_rep; apply: toR_ge0.
Qed.
Lemma rep_pd n (S : 'M[K]_n) : pd (rep S : 'M[real_sf]_(n + n)) <-> pd S.
Proof.
split=> [[/rep_herm hS h]|[hS h]]; split=> //.
- move=> x x0; have := h (rvec x); rewrite qf_rep -(ofR_gt0 K) ofRK ?herm_qf_real //; apply.
  by apply: contraNneq x0; rewrite -(rvec0 n 1) => /rvec_inj ->.
- exact/rep_herm.
- move=> z; rewrite {1}(rvec_onto z) => z0; rewrite (rvec_onto z) qf_rep; apply: toR_gt0; apply: h.
  by apply: contraNneq z0 => ->; rewrite rvec0.
Qed.
(* determinant *)
Lemma det_rep n (S : 'M[K]_n) : \det (rep S) = @toR K (\det S * @cj K (\det S)).
Proof.
apply: (@ofR_inj K); rewrite ofR_toR_ge0 ?mul_cj_ge0 // -det_map_mx.
pose i1 : 'M[K]_n := (Complex 0 1 : C)%:M.
pose P : 'M[K]_n := map_mx (@ofR K) (reM S); pose Q : 'M[K]_n := map_mx (@ofR K) (imM S).
have eC (u v : R) : (Complex u v : C) = (Complex u 0 : C) + Complex 0 1 * (Complex v 0 : C).
  rewrite /GRing.mul /= /GRing.add /=; congr Complex; rring.
have eS : S = P + (Complex 0 1 : C) *: Q.
  by apply/matrixP => a b; rewrite !mxE; case: (S a b) => u v; exact: eC.
have eSc : map_mx (@cj K) S = P - (Complex 0 1 : C) *: Q.
  by apply/matrixP => a b; rewrite !mxE -mulrN; case: (S a b) => u v; rewrite [LHS](eC u (- v)); congr (_ + _ * _); congr Complex; rewrite oppr0.
have -> : map_mx (@ofR K) (rep S) = block_mx P (- Q) Q P.
  by rewrite /rep map_block_mx map_mxN.
pose L : 'M[K]_(n + n) := block_mx 1%:M i1 0 1%:M.
pose U : 'M[K]_(n + n) := block_mx 1%:M (- i1) 0 1%:M.
have dL : \det L = 1 by rewrite det_ublock !det1 mulr1.
have dU : \det U = 1 by rewrite det_ublock !det1 mulr1.
have -> : \det (block_mx P (- Q) Q P) = \det (L *m block_mx P (- Q) Q P *m U).
  by rewrite !det_mulmx dL dU mul1r mulr1.
have ii : i1 *m i1 = - 1%:M.
  rewrite /i1 -scalar_mxM -raddfN; congr (_%:M); rewrite /GRing.mul /=; congr Complex; rring.
have i1c (A : 'M[K]_n) : A *m i1 = i1 *m A by rewrite /i1 scalar_mxC.
have eS' : P + i1 *m Q = S by rewrite /i1 mul_scalar_mx -eS.
have eSc' : P - i1 *m Q = map_mx (@cj K) S by rewrite /i1 mul_scalar_mx -eSc.
rewrite !mulmx_block !mulmx1 !mul1mx !mul0mx !mulmx0 !add0r ?addr0 eS'.
have -> : S *m - i1 + (- Q + i1 *m P) = 0.
  by rewrite mulmxN i1c -{1}eS' mulmxDr mulmxA ii mulNmx mul1mx opprD opprK addrA addrK addNr.
have -> : Q *m - i1 + P = map_mx (@cj K) S by rewrite mulmxN i1c addrC.
by rewrite det_lblock (det_map_mx (@cj K)).
Qed.
