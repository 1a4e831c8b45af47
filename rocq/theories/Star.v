(* Linear algebra shared by the real and the complex estimators.  Nothing here models code.
   A [starField] is R or R[i] seen through the operations the code uses: conjugation [cj]
   (identity on R), the embedding [ofR] of the reals and np.real [toR]. *)
From Coq Require Import Reals.
From mathcomp Require Import all_ssreflect all_algebra.
From mathcomp Require Import complex.
From Verif Require Import RealsMC.
Set Implicit Arguments.
Unset Strict Implicit.
Unset Printing Implicit Defensive.
Local Open Scope ring_scope.
Import GRing.Theory Num.Theory Order.TTheory.

Record starField := StarField {
  sf_num :> numFieldType;
  cj : {rmorphism sf_num -> sf_num};
  ofR : {rmorphism R -> sf_num};
  toR : {additive sf_num -> R};
  cjK : involutive cj;
  cj_ofR : forall r, cj (ofR r) = ofR r;
  toRK : cancel ofR toR;
  ofRK : forall x, cj x = x -> ofR (toR x) = x;
  toRZ : forall r x, toR (ofR r * x) = r * toR x;
  toR_cj : forall x, toR (cj x) = toR x;
  ofR_ge0 : forall r, (0 <= ofR r) = (0 <= r);
  cj_ge0 : forall x, 0 <= x -> cj x = x;
  mul_cj_ge0 : forall x, 0 <= x * cj x;
  sf_eig : forall n (A : 'M[sf_num]_n.+1), (map_mx cj A)^T = A ->
    exists r, exists2 u : 'cV_n.+1, u != 0 & A *m u = ofR r *: u }.

Section Adjoint.
Variable K : starField.
Local Notation cj := (@cj K).
Local Notation ofR := (@ofR K).
Local Notation toR := (@toR K).

Definition adj m n (A : 'M[K]_(m, n)) : 'M[K]_(n, m) := (map_mx cj A)^T.
Local Notation "A ^H" := (adj A) (at level 8, format "A ^H").

Lemma adjE m n (A : 'M[K]_(m, n)) i j : A^H i j = cj (A j i).
Proof. by rewrite !mxE. Qed.
Lemma adjK m n (A : 'M[K]_(m, n)) : A^H^H = A.
Proof. by apply/matrixP => i j; rewrite !adjE cjK. Qed.
Lemma adj_tr m n (A : 'M[K]_(m, n)) : A^H = map_mx cj A^T.
Proof. by apply/matrixP => i j; rewrite !mxE. Qed.
Lemma adjM m n p (A : 'M[K]_(m, n)) (B : 'M[K]_(n, p)) : (A *m B)^H = B^H *m A^H.
Proof. by rewrite /adj map_mxM trmx_mul. Qed.
Lemma adjD m n (A B : 'M[K]_(m, n)) : (A + B)^H = A^H + B^H.
Proof. by apply/matrixP => i j; rewrite !mxE rmorphD. Qed.
Lemma adjN m n (A : 'M[K]_(m, n)) : (- A)^H = - A^H.
Proof. by apply/matrixP => i j; rewrite !mxE rmorphN. Qed.
Lemma adjB m n (A B : 'M[K]_(m, n)) : (A - B)^H = A^H - B^H.
Proof. by rewrite adjD adjN. Qed.
Lemma adjZ m n c (A : 'M[K]_(m, n)) : (c *: A)^H = cj c *: A^H.
Proof. by apply/matrixP => i j; rewrite !mxE rmorphM. Qed.
Lemma adjZR m n c (A : 'M[K]_(m, n)) : (ofR c *: A)^H = ofR c *: A^H.
Proof. by rewrite adjZ cj_ofR. Qed.
Lemma adj0 m n : (0 : 'M[K]_(m, n))^H = 0.
Proof. by apply/matrixP => i j; rewrite !mxE rmorph0. Qed.
Lemma adj1 n : (1%:M : 'M[K]_n)^H = 1%:M.
Proof. by rewrite /adj map_mx1 trmx1. Qed.
Lemma adj_sum m n I (r : seq I) (P : pred I) (F : I -> 'M[K]_(m, n)) :
  (\sum_(i <- r | P i) F i)^H = \sum_(i <- r | P i) (F i)^H.
Proof. by apply: (big_morph (fun A => A^H)) => [A B|]; rewrite ?adjD ?adj0. Qed.
Lemma adj_inj m n : injective (@adj m n).
Proof. exact: can_inj (@adjK m n). Qed.
Lemma adj_eq0 m n (A : 'M[K]_(m, n)) : (A^H == 0) = (A == 0).
Proof. by rewrite -(inj_eq (@adj_inj m n)) adj0. Qed.
Lemma adj_block m1 m2 n1 n2 (A : 'M[K]_(m1, n1)) (B : 'M[K]_(m1, n2)) (C : 'M[K]_(m2, n1)) (D : 'M[K]_(m2, n2)) :
  (block_mx A B C D)^H = block_mx A^H C^H B^H D^H.
Proof. by rewrite /adj map_block_mx tr_block_mx. Qed.
Lemma unitmx_adj n (A : 'M[K]_n) : (A^H \in unitmx) = (A \in unitmx).
Proof. by rewrite /adj unitmx_tr map_unitmx. Qed.
Lemma adjV n (A : 'M[K]_n) : (invmx A)^H = invmx A^H.
Proof. by rewrite /adj map_invmx trmx_inv. Qed.
Lemma det_adj n (A : 'M[K]_n) : \det A^H = cj (\det A).
Proof. by rewrite /adj det_tr det_map_mx. Qed.
Lemma mxtrace_adj n (A : 'M[K]_n) : \tr A^H = cj (\tr A).
Proof. by rewrite /mxtrace rmorph_sum; apply: eq_bigr => i _; rewrite adjE. Qed.

(* Hermitian, positive semidefinite, positive definite *)
Definition herm n (A : 'M[K]_n) := A^H = A.
Definition sesq n (S : 'M[K]_n) (x y : 'cV[K]_n) : K := (x^H *m S *m y) 0 0.
Definition qf n (S : 'M[K]_n) (x : 'cV[K]_n) : K := sesq S x x.
Definition psd n (S : 'M[K]_n) := herm S /\ forall x, 0 <= qf S x.
Definition pd n (S : 'M[K]_n) := herm S /\ forall x, x != 0 -> 0 < qf S x.
Definition unitary n (U : 'M[K]_n) := U^H *m U = 1%:M.

Lemma ofRge0 r : (0 <= ofR r) = (0 <= r). Proof. exact: ofR_ge0. Qed.
Lemma ofR_gt0 r : (0 < ofR r) = (0 < r).
Proof. by rewrite !lt_def ofRge0 fmorph_eq0. Qed.
Lemma ofR_le r s : (ofR r <= ofR s) = (r <= s).
Proof. by rewrite -subr_ge0 -rmorphB ofRge0 subr_ge0. Qed.
Lemma ofR_lt r s : (ofR r < ofR s) = (r < s).
Proof. by rewrite -subr_gt0 -rmorphB ofR_gt0 subr_gt0. Qed.
Lemma ofR_inj : injective ofR. Proof. exact: fmorph_inj. Qed.
Lemma toR_ge0 x : 0 <= x -> 0 <= toR x.
Proof. by move=> x0; rewrite -ofRge0 ofRK ?cj_ge0. Qed.
Lemma toR_gt0 x : 0 < x -> 0 < toR x.
Proof. by move=> x0; rewrite -ofR_gt0 ofRK ?cj_ge0 ?ltW. Qed.
Lemma ofR_toR_ge0 x : 0 <= x -> ofR (toR x) = x.
Proof. by move=> x0; rewrite ofRK ?cj_ge0. Qed.
Lemma toR0 : toR 0 = 0. Proof. exact: raddf0. Qed.
Lemma toR1 : toR 1 = 1. Proof. by rewrite -(rmorph1 ofR) toRK. Qed.
Lemma ofR_nat n : ofR n%:R = n%:R. Proof. exact: rmorph_nat. Qed.
Lemma toR_nat n : toR n%:R = n%:R. Proof. by rewrite -ofR_nat toRK. Qed.
Lemma cj_nat n : cj n%:R = n%:R. Proof. exact: rmorph_nat. Qed.

Lemma mul_cj_eq0 x : (x * cj x == 0) = (x == 0).
Proof. by rewrite mulf_eq0 fmorph_eq0 orbb. Qed.

Lemma normcol m (x : 'cV[K]_m) : (x^H *m x) 0 0 = \sum_i x i 0 * cj (x i 0).
Proof. by rewrite mxE; apply: eq_bigr => i _; rewrite adjE mulrC. Qed.
Lemma normcol_ge0 m (x : 'cV[K]_m) : 0 <= (x^H *m x) 0 0.
Proof. by rewrite normcol sumr_ge0 // => i _; apply: mul_cj_ge0. Qed.
Lemma normcol_eq0 m (x : 'cV[K]_m) : ((x^H *m x) 0 0 == 0) = (x == 0).
Proof.
apply/eqP/eqP => [h|->]; last by rewrite mulmx0 mxE.
apply/matrixP => i j; rewrite (ord1 j) [RHS]mxE.
have /psumr_eq0P h2 : \sum_i x i 0 * cj (x i 0) = 0 by rewrite -normcol.
have /eqP := h2 (fun i _ => mul_cj_ge0 (x i 0)) i isT.
by rewrite mul_cj_eq0 => /eqP.
Qed.
Lemma normcol_gt0 m (x : 'cV[K]_m) : x != 0 -> 0 < (x^H *m x) 0 0.
Proof. by move=> x0; rewrite lt_def normcol_ge0 normcol_eq0 x0. Qed.

Lemma pd_psd n (S : 'M[K]_n) : pd S -> psd S.
Proof.
move=> [h p]; split=> // x; have [->|/p/ltW //] := eqVneq x 0.
by rewrite /qf /sesq mulmx0 mxE.
Qed.
Lemma psd_herm n (S : 'M[K]_n) : psd S -> herm S. Proof. by case. Qed.
Lemma pd_herm n (S : 'M[K]_n) : pd S -> herm S. Proof. by case. Qed.
Lemma pd_qf_ge0 n (S : 'M[K]_n) x : pd S -> 0 <= qf S x.
Proof. by move=> /pd_psd [_]; apply. Qed.

Lemma qfD n (A B : 'M[K]_n) x : qf (A + B) x = qf A x + qf B x.
Proof. by rewrite /qf /sesq mulmxDr mulmxDl mxE. Qed.
Lemma qfZ n c (A : 'M[K]_n) x : qf (c *: A) x = c * qf A x.
Proof. by rewrite /qf /sesq -scalemxAr -scalemxAl mxE. Qed.
Lemma qf0 n x : qf (0 : 'M[K]_n) x = 0.
Proof. by rewrite /qf /sesq mulmx0 mul0mx mxE. Qed.
Lemma qf1 n x : qf (1%:M : 'M[K]_n) x = (x^H *m x) 0 0.
Proof. by rewrite /qf /sesq mulmx1. Qed.
Lemma qf_sum n I (r : seq I) (P : pred I) (F : I -> 'M[K]_n) x :
  qf (\sum_(i <- r | P i) F i) x = \sum_(i <- r | P i) qf (F i) x.
Proof. by apply: (big_morph (fun A => qf A x)) => [A B|]; rewrite ?qfD ?qf0. Qed.
Lemma qf_congr m n (A : 'M[K]_(m, n)) (S : 'M[K]_n) (x : 'cV[K]_m) :
  qf (A *m S *m A^H) x = qf S (A^H *m x).
Proof. by rewrite /qf /sesq adjM adjK !mulmxA. Qed.
Lemma qf_outer n (y : 'cV[K]_n) x : qf (y *m y^H) x = (y^H *m x) 0 0 * cj ((y^H *m x) 0 0).
Proof.
rewrite /qf /sesq mulmxA -mulmxA mxE big_ord1 mulrC; congr (_ * _).
by rewrite -adjE adjM adjK.
Qed.
Lemma qf_scale n (S : 'M[K]_n) c x : qf S (c *: x) = c * cj c * qf S x.
Proof. by rewrite /qf /sesq adjZ -!scalemxAr -!scalemxAl !mxE; rewrite mulrA. Qed.

Lemma herm_outer n (y : 'cV[K]_n) : herm (y *m y^H).
Proof. by rewrite /herm adjM adjK. Qed.
Lemma psd_outer n (y : 'cV[K]_n) : psd (y *m y^H).
Proof. by split=> [|x]; [apply: herm_outer | rewrite qf_outer mul_cj_ge0]. Qed.
Lemma herm_congr m n (A : 'M[K]_(m, n)) (S : 'M[K]_n) : herm S -> herm (A *m S *m A^H).
Proof. by move=> h; rewrite /herm !adjM adjK h mulmxA. Qed.
Lemma psd_congr m n (A : 'M[K]_(m, n)) (S : 'M[K]_n) : psd S -> psd (A *m S *m A^H).
Proof.
by move=> [h p]; split=> [|x]; [apply: herm_congr | rewrite qf_congr].
Qed.
Lemma pd_congr n (A S : 'M[K]_n) : A \in unitmx -> pd S -> pd (A *m S *m A^H).
Proof.
move=> uA [h p]; split=> [|x x0]; [exact: herm_congr | rewrite qf_congr; apply: p].
have uH : A^H \in unitmx by rewrite unitmx_adj.
apply: contraNneq x0 => e; rewrite -(mulKmx uH x) e mulmx0 //.
Qed.
Lemma psd0 n : psd (0 : 'M[K]_n).
Proof. by split=> [|x]; rewrite /herm ?adj0 ?qf0. Qed.
Lemma psdD n (A B : 'M[K]_n) : psd A -> psd B -> psd (A + B).
Proof.
by move=> [hA pA] [hB pB]; split=> [|x]; rewrite /herm ?adjD ?hA ?hB // qfD addr_ge0.
Qed.
Lemma psd_sum n I (r : seq I) (P : pred I) (F : I -> 'M[K]_n) :
  (forall i, P i -> psd (F i)) -> psd (\sum_(i <- r | P i) F i).
Proof. by move=> h; apply: big_ind => //; [apply: psd0 | apply: psdD]. Qed.
Lemma hermZ n c (A : 'M[K]_n) : 0 <= c -> herm A -> herm (c *: A).
Proof. by move=> c0 h; rewrite /herm adjZ cj_ge0 ?h. Qed.
Lemma hermZR n c (A : 'M[K]_n) : herm A -> herm (ofR c *: A).
Proof. by move=> h; rewrite /herm adjZR h. Qed.
Lemma hermD n (A B : 'M[K]_n) : herm A -> herm B -> herm (A + B).
Proof. by move=> hA hB; rewrite /herm adjD hA hB. Qed.
Lemma hermN n (A : 'M[K]_n) : herm A -> herm (- A).
Proof. by move=> hA; rewrite /herm adjN hA. Qed.
Lemma hermB n (A B : 'M[K]_n) : herm A -> herm B -> herm (A - B).
Proof. by move=> hA hB; apply: hermD => //; apply: hermN. Qed.
Lemma herm0 n : herm (0 : 'M[K]_n). Proof. exact: adj0. Qed.
Lemma herm1 n : herm (1%:M : 'M[K]_n). Proof. exact: adj1. Qed.
Lemma psdZ n c (A : 'M[K]_n) : 0 <= c -> psd A -> psd (c *: A).
Proof. by move=> c0 [h p]; split=> [|x]; [apply: hermZ | rewrite qfZ mulr_ge0]. Qed.
Lemma pdZ n c (A : 'M[K]_n) : 0 < c -> pd A -> pd (c *: A).
Proof.
move=> c0 [h p]; split=> [|x x0]; [apply: hermZ => //; exact: ltW | rewrite qfZ mulr_gt0 ?p //].
Qed.
Lemma pdD n (A B : 'M[K]_n) : pd A -> psd B -> pd (A + B).
Proof.
move=> [hA pA] [hB pB]; split=> [|x x0]; first exact: hermD.
by rewrite qfD ltr_paddr ?pA.
Qed.
Lemma pd1 n : pd (1%:M : 'M[K]_n).
Proof. by split=> [|x x0]; [apply: adj1 | rewrite qf1 normcol_gt0]. Qed.

Lemma pd_unit n (S : 'M[K]_n) : pd S -> S \in unitmx.
Proof.
move=> [h p]; rewrite -unitmx_tr -row_free_unit -kermx_eq0; apply/negPn/negP => /rowV0Pn [v /sub_kermxP vS v0].
have x0 : v^T != 0 by rewrite trmx_eq0.
have : S *m v^T = 0 by apply: trmx_inj; rewrite trmx_mul trmxK vS trmx0.
by move=> e; have := p _ x0; rewrite /qf /sesq -mulmxA e mulmx0 mxE ltxx.
Qed.
Lemma herm_inv n (S : 'M[K]_n) : herm S -> herm (invmx S).
Proof. by move=> h; rewrite /herm adjV h. Qed.
Lemma qf_inv n (S : 'M[K]_n) x : S \in unitmx -> herm S -> qf (invmx S) x = qf S (invmx S *m x).
Proof.
move=> uS h; rewrite /qf /sesq adjM adjV h -!mulmxA mulKVmx //.
Qed.
Lemma pd_inv n (S : 'M[K]_n) : pd S -> pd (invmx S).
Proof.
move=> pS; have uS := pd_unit pS; have [h p] := pS; split=> [|x x0]; first exact: herm_inv.
rewrite qf_inv //; apply: p; apply: contraNneq x0 => e.
by rewrite -(mulKVmx uS x) e mulmx0.
Qed.

(* congruence by an invertible matrix, both ways *)
Lemma pd_congrV n (A S : 'M[K]_n) : A \in unitmx -> pd (A *m S *m A^H) -> pd S.
Proof.
move=> uA /(pd_congr (A := invmx A)); rewrite unitmx_inv => /(_ uA).
by rewrite adjV !mulmxA mulVmx // mul1mx mulmxK // unitmx_adj.
Qed.
End Adjoint.
Notation "A ^H" := (adj A) (at level 8, format "A ^H") : ring_scope.

(* ------------------------------------------------------------------ *)
(* Unitary matrices, spectral theorem                                   *)
(* ------------------------------------------------------------------ *)
Section Spectral.
Variable K : starField.
Local Notation cj := (@cj K).
Local Notation ofR := (@ofR K).
Local Notation toR := (@toR K).

Lemma unitaryV n (U : 'M[K]_n) : unitary U -> U *m U^H = 1%:M.
Proof. exact: mulmx1C. Qed.
Lemma unitary_unit n (U : 'M[K]_n) : unitary U -> U \in unitmx.
Proof. by move=> h; case/mulmx1_unit: h. Qed.
Lemma unitaryM n (U V : 'M[K]_n) : unitary U -> unitary V -> unitary (U *m V).
Proof. by move=> hU hV; rewrite /unitary adjM mulmxA -(mulmxA _ _ U) hU mulmx1. Qed.
Lemma unitary_adj n (U : 'M[K]_n) : unitary U -> unitary U^H.
Proof. by move=> hU; rewrite /unitary adjK; apply: mulmx1C. Qed.
Lemma unitary1 n : unitary (1%:M : 'M[K]_n).
Proof. by rewrite /unitary adj1 mulmx1. Qed.

Definition dia n (d : 'rV[R]_n) : 'M[K]_n := diag_mx (map_mx ofR d).
Lemma diaE n (d : 'rV[R]_n) i j : dia d i j = ofR (d 0 i) *+ (i == j).
Proof. by rewrite !mxE. Qed.
Lemma adj_dia n (d : 'rV[R]_n) : (dia d)^H = dia d.
Proof.
apply/matrixP => i j; rewrite adjE !diaE rmorphMn cj_ofR eq_sym.
by case: eqP => // ->.
Qed.
Lemma mul_mx_dia m n (A : 'M[K]_(m, n)) d i j : (A *m dia d) i j = A i j * ofR (d 0 j).
Proof. by rewrite mul_mx_diag !mxE. Qed.
Lemma mul_dia_mx m n (A : 'M[K]_(m, n)) d i j : (dia d *m A) i j = ofR (d 0 i) * A i j.
Proof. by rewrite mul_diag_mx !mxE. Qed.
Lemma diaM n (d e : 'rV[R]_n) : dia d *m dia e = dia (\row_j (d 0 j * e 0 j)).
Proof.
apply/matrixP => i j; rewrite mul_dia_mx !diaE mxE rmorphM.
by case: eqP => [->|]; rewrite ?mulr1n ?mulr0n ?mulr0.
Qed.
Lemma dia_const n c : dia (const_mx c : 'rV_n) = (ofR c)%:M.
Proof. by apply/matrixP => i j; rewrite diaE !mxE. Qed.

(* (d, V) is an eigendecomposition of A: what la.eigh returns *)
Definition eigdec n (A : 'M[K]_n) (d : 'rV[R]_n) (V : 'M[K]_n) :=
  unitary V /\ A = V *m dia d *m V^H.

Definition cnorm n (x : 'cV[K]_n) : R := R_sqrt.sqrt (toR ((x^H *m x) 0 0)).

Lemma sqrtR_sqr (x : R) : 0 <= x -> R_sqrt.sqrt x * R_sqrt.sqrt x = x.
Proof. by move=> x0; rewrite -RmultE R_sqrt.sqrt_sqrt //; apply/RleP. Qed.
Lemma sqrtR_gt0 (x : R) : 0 < x -> 0 < R_sqrt.sqrt x.
Proof. by move=> x0; apply/RltP/R_sqrt.sqrt_lt_R0/RltP. Qed.
Lemma sqrtR_ge0 (x : R) : 0 <= R_sqrt.sqrt x.
Proof. exact/RleP/R_sqrt.sqrt_pos. Qed.

(* a unit vector with real first entry is the first column of a Hermitian unitary matrix *)
Lemma householder n (u : 'cV[K]_n.+1) (e := delta_mx 0 0 : 'cV[K]_n.+1) :
  (u^H *m u) 0 0 = 1 -> cj (u 0 0) = u 0 0 ->
  exists H : 'M[K]_n.+1, [/\ H^H = H, H *m H = 1%:M & H *m e = u].
Proof.
move=> u1 ur; pose w := u - e; have [w0|w0] := eqVneq w 0.
  exists 1%:M; rewrite adj1 !mul1mx; split=> //.
  by apply/eqP; rewrite eq_sym -subr_eq0; apply/eqP.
have sub11 (A B : 'M[K]_1) : (A - B) 0 0 = A 0 0 - B 0 0 by rewrite !mxE.
have ue : (u^H *m e) 0 0 = u 0 0.
  rewrite mxE (bigD1 0) //= big1 ?addr0 => [|i ni]; first by rewrite adjE ur !mxE !eqxx mulr1.
  by rewrite [e i 0]mxE (negbTE ni) mulr0.
have eu : (e^H *m u) 0 0 = u 0 0.
  by rewrite -[e^H *m u]adjK adjE adjM adjK ue ur.
have ee : (e^H *m e) 0 0 = 1.
  rewrite mxE (bigD1 0) //= big1 ?addr0 => [|i ni]; first by rewrite adjE !mxE !eqxx rmorph1 mulr1.
  by rewrite [e i 0]mxE (negbTE ni) mulr0.
have ww : (w^H *m w) 0 0 = 2%:R * (1 - u 0 0).
  rewrite /w adjB mulmxBl !mulmxBr !sub11 u1 ue eu ee.
  by rewrite mulrBr mulr1 opprB addrA -addrA -addrA (addrC (- u 0 0)) !addrA -addrA -opprD mulrDl !mul1r.
have we : (w^H *m e) 0 0 = u 0 0 - 1 by rewrite /w adjB mulmxBl sub11 ue ee.
have nz : (w^H *m w) 0 0 != 0 by rewrite normcol_eq0.
pose c := 2%:R / (w^H *m w) 0 0.
have cc : cj c = c.
  rewrite rmorphM fmorphV rmorph_nat; congr (_ / _); exact/cj_ge0/normcol_ge0.
have mx11 (B : 'M[K]_1) : B = (B 0 0)%:M by exact: mx11_scalar.
have ewu : e + w = u by rewrite addrC subrK.
have cE : c * (w^H *m w) 0 0 = 1 + 1 by rewrite divfK.
have cE2 : c * (u 0 0 - 1) = -1.
  have h : u 0 0 - 1 != 0 by apply: contraNneq nz => h; rewrite ww -opprB h oppr0 mulr0.
  rewrite /c ww -(opprB (u 0 0)) mulrN invrN mulrN mulNr; congr (- _).
  by rewrite invfM mulrA divff ?pnatr_eq0 // mul1r mulVf.
move: c cc cE cE2 => {ue eu ee ww}; clearbody w => c cc cE cE2.
exists (1%:M - c *: (w *m w^H)); split.
- by rewrite adjB adj1 adjZ cc adjM adjK.
- rewrite mulmxBr mulmx1 mulmxBl mul1mx -scalemxAr -scalemxAl mulmxA -(mulmxA w).
  rewrite [w^H *m w]mx11 mul_mx_scalar -scalemxAl !scalerA.
  rewrite -mulrA cE mulrDr mulr1 scalerDl opprB addrA addrAC addrA.
  by rewrite !subrK.
- rewrite mulmxBl mul1mx -scalemxAl -mulmxA [w^H *m e]mx11 we mul_mx_scalar scalerA cE2.
  by rewrite scaleN1r opprK.
Qed.

Lemma unit_completion n (u : 'cV[K]_n.+1) : u != 0 ->
  exists (H : 'M[K]_n.+1) (c : K), [/\ H^H = H, H *m H = 1%:M, c != 0 & H *m delta_mx 0 0 = c *: u].
Proof.
move=> u0; pose s : R := toR ((u^H *m u) 0 0).
have s0 : 0 < s by apply/toR_gt0/normcol_gt0.
(* phase of the first entry *)
have [f [f0 ff fr]] : exists f : K, [/\ f != 0, f * cj f = 1 & cj (f * u 0 0) = f * u 0 0].
  have [z|nz] := eqVneq (u 0 0) 0.
    by exists 1; rewrite oner_eq0 rmorph1 mulr1 z mulr0 rmorph0.
  have q0 : 0 < u 0 0 * cj (u 0 0) by rewrite lt_def mul_cj_ge0 mul_cj_eq0 nz.
  pose m := R_sqrt.sqrt (toR (u 0 0 * cj (u 0 0))).
  have m0 : 0 < m by apply/sqrtR_gt0/toR_gt0.
  have mm : ofR m * ofR m = u 0 0 * cj (u 0 0).
    by rewrite -rmorphM sqrtR_sqr ?ofR_toR_ge0 ?toR_ge0 ?ltW.
  have om : ofR m != 0 by rewrite fmorph_eq0 gt_eqF.
  exists (cj (u 0 0) / ofR m); split.
  - by rewrite mulf_neq0 ?invr_neq0 // fmorph_eq0.
  - rewrite rmorphM fmorphV cjK cj_ofR mulrACA -invfM mm (mulrC (cj _)) mulfV //.
    by rewrite mul_cj_eq0.
  - by rewrite !rmorphM fmorphV cj_ofR cjK mulrAC (mulrC (u 0 0)) mulrAC.
pose t : R := R_sqrt.sqrt s; have t0 : 0 < t by apply: sqrtR_gt0.
have ot : ofR t != 0 by rewrite fmorph_eq0 gt_eqF.
pose c := f / ofR t.
have c0 : c != 0 by rewrite mulf_neq0 ?invr_neq0.
have [||H [hH HH He]] := @householder n (c *: u).
- rewrite adjZ -scalemxAl -scalemxAr scalerA mxE rmorphM fmorphV cj_ofR.
  rewrite mulrACA (mulrC (cj f)) ff mul1r -invfM -rmorphM sqrtR_sqr ?ltW // ofR_toR_ge0 ?normcol_ge0 //.
  by rewrite mulVf // normcol_eq0.
- by rewrite mxE mulrAC rmorphM fr fmorphV cj_ofR.
- by exists H, c.
Qed.

Theorem spectral n (A : 'M[K]_n) : herm A -> exists d V, eigdec A d V.
Proof.
elim: n A => [|n IH] A hA.
  by exists 0, 1%:M; split; [apply: unitary1 | apply/matrixP => -[]].
have [r [u u0 Au]] := sf_eig hA.
have [H [c [hH HH c0 He]]] := unit_completion u0.
pose B : 'M[K]_(1 + n) := H *m A *m H.
have hB : herm B by rewrite /herm !adjM hH hA mulmxA.
have Be : B *m delta_mx 0 0 = ofR r *: (delta_mx 0 0 : 'cV[K]_n.+1).
  rewrite /B -!mulmxA He -scalemxAr Au scalerA mulrC -scalerA -He -scalemxAr mulmxA HH mul1mx //.
have AB : A = H *m B *m H by rewrite /B !mulmxA HH mul1mx -mulmxA HH mulmx1.
clearbody B.
have B0 i : B i 0 = ofR r *+ (i == 0).
  have := congr1 (fun M : 'cV[K]_n.+1 => M i 0) Be.
  rewrite -colE /= mxE => ->; rewrite !mxE eqxx andbT.
  by case: eqP => _; rewrite ?mulr1 ?mulr0.
have bB : B = block_mx ((ofR r)%:M : 'M_1) 0 0 (drsubmx B).
  rewrite -[LHS]submxK; congr block_mx.
  - by rewrite [LHS]mx11_scalar !mxE lshift0 B0 eqxx.
  - apply/matrixP => i j; rewrite !mxE -hB adjE (ord1 i) lshift0 B0.
    by rewrite -val_eqE /= rmorph0.
  - by apply/matrixP => i j; rewrite !mxE (ord1 j) lshift0 B0 -val_eqE.
have [|d [V [uV eV]]] := IH (drsubmx B).
  by rewrite /herm -{2}hB [in B^H]bB adj_block block_mxKdr.
pose W : 'M[K]_(1 + n) := block_mx (1%:M : 'M_1) 0 0 V.
have aW : W^H = block_mx (1%:M : 'M_1) 0 0 V^H by rewrite /W adj_block !adj0 adj1.
have uW : W^H *m W = 1%:M.
  by rewrite aW /W mulmx_block !mulmx0 !mul0mx !addr0 !add0r mulmx1 uV -scalar_mx_block.
have eD : dia (row_mx (const_mx r : 'M_1) d) = block_mx ((ofR r)%:M : 'M_1) 0 0 (dia d) :> 'M[K]_(1 + n).
  rewrite /dia map_row_mx diag_mx_row; congr block_mx.
  by rewrite map_const_mx diag_const_mx.
have eB : B = W *m dia (row_mx (const_mx r : 'M_1) d) *m W^H.
  rewrite {1}bB aW eD /W !mulmx_block !mulmx0 !mul0mx !addr0 !add0r !mulmx1 !mul1mx.
  by rewrite {1}eV !mul0mx.
exists (row_mx (const_mx r : 'M_1) d), (H *m W); split.
  by apply: unitaryM; [rewrite /unitary hH | exact: uW].
rewrite {1}AB adjM hH !mulmxA; congr (_ *m _); rewrite -!mulmxA; congr (_ *m _).
by rewrite {1}eB !mulmxA.
Qed.
End Spectral.
