(* The passes of the MM algorithm and the minimisers of Tyler's cost over Kronecker products. *)
From Coq Require Import Reals Lra Classical_Prop.
From mathcomp Require Import all_ssreflect all_algebra.
From mathcomp Require Import mxtens.
From Verif Require Import RealsMC RealTac RealTac2 Star FunCalc Spec_covariance Proofs_mest Proofs_cost Proofs_unique Proofs_unique2 Model_structured Proofs_structured Props_structured
  Compact Proofs_converge Props_converge Spec_kron Proofs_kron Proofs_kron1.
Set Implicit Arguments.
Unset Strict Implicit.
Unset Printing Implicit Defensive.
Local Open Scope ring_scope.
Import GRing.Theory Num.Theory Order.TTheory.

Lemma karith3 (a s q n : R) : n != 0 -> a * (s / q) = n * (a / n / q * s).
Proof. move=> /divff; move: (n^-1) (q^-1) => i p h; rewrite (_ : n * (a * i * p * s) = n * i * (a * (s * p))); [by rewrite h mul1r|rring]. Qed.
Lemma nat_scale (n : nat) (x y m : R) : (0 < n)%N -> 0 <= m -> x + m < y -> n%:R * x + m < n%:R * y.
Proof.
move=> n0 m0 h; have n1 : 1 <= n%:R :> R by rewrite ler1n.
apply: (@le_lt_trans _ _ (n%:R * (x + m))); last by rewrite ltr_pmul2l // ltr0n.
by rewrite mulrDr ler_add2l ler_pemull.
Qed.
Lemma karith4 (N b : nat) (x y z m : R) : (0 < N)%N -> (0 < b)%N -> - x + Num.max m 0 < y ->
  N%:R * (b%:R * - y + z) < N%:R * (b%:R * x + z) - m.
Proof.
move=> N0 b0; have m1 : m <= Num.max m 0 by rewrite le_maxr lexx.
have m0 : 0 <= Num.max m 0 by rewrite le_maxr lexx orbT.
move: (Num.max m 0) m1 m0 => M mM M0 /(nat_scale b0 M0) /(nat_scale N0 M0).
rewrite !mulrDr !mulrN; move: (N%:R * (b%:R * x)) (N%:R * (b%:R * y)) (N%:R * z) => u v w h; clear -h mM; rlra2.
Qed.
Section Fix.
Variable K : starField.
Local Notation ofR := (@ofR K).
Local Notation toR := (@toR K).
Local Notation "A ^H" := (adj A) (at level 8, format "A ^H").
Variables (N a b : nat) (X : 'M[K]_(N, a * b)).
Hypothesis nz : nonzero_samples X.
Hypothesis N0 : (0 < N)%N.
Lemma samp_vecu i : samp X i = vecu (unstack X i).
Proof. by apply/colP => l; case: (mxtens_indexP l) => j k; rewrite vecuE !mxE. Qed.
Lemma kcost_tyler (P : 'M[K]_a) (B : 'M[K]_b) : kron_cost X P B = N%:R * tyler_cost X (P *t B).
Proof. by rewrite /kron_cost /tyler_cost mulrDr addrC; congr (_ + _); rewrite mulrA mulrCA divff ?mulr1 // pnatr_eq0 -lt0n. Qed.
Lemma adjT m n (G : 'M[K]_(m, n)) : (G^H)^T = (G^T)^H.
Proof. by apply/matrixP => i j; rewrite !mxE. Qed.
Section Bases.
Variables (A : 'M[K]_a) (B : 'M[K]_b) (G : 'M[K]_a) (H : 'M[K]_b).
Hypotheses (uG : G \in unitmx) (uH : H \in unitmx) (eA : A^T = G *m G^H) (eB : B = H *m H^H).
Let Y i : 'M[K]_(b, a) := \matrix_(k, j) kcoord X G H i j k.
Lemma vecuY i : vecu (Y i) = invmx (G *t H) *m samp X i.
Proof. by apply/colP => l; case: (mxtens_indexP l) => j k; rewrite vecuE mxE. Qed.
Lemma unstackY i : unstack X i = H *m Y i *m G^T.
Proof. by apply: vecu_inj; rewrite -tens_vecu vecuY mulmxA mulmxV ?mul1mx ?samp_vecu //; exact: tens_unit. Qed.
Lemma eA' : A = (G^T)^H *m G^T. Proof. by rewrite -[LHS]trmxK eA trmx_mul adjT. Qed.
Lemma uGT : G^T \in unitmx. Proof. by rewrite unitmx_tr. Qed.
Lemma numA i : mm_numerator a X (invmx B) i = (G^T)^H *m ((Y i)^H *m Y i) *m G^T.
Proof.
rewrite /mm_numerator cellE unstackY !adjM eB invmxM' ?unitmx_adj // !mulmxA.
by rewrite -!(mulmxA _ H^H) mulmxV ?unitmx_adj // mulmx1 mulmxKV.
Qed.
Lemma numB i : mm_numerator_B b X (invmx A) i = H *m (Y i *m (Y i)^H) *m H^H.
Proof.
have uT := uGT; rewrite /mm_numerator_B cellE unstackY !adjM eA' invmxM' ?unitmx_adj // !mulmxA.
by rewrite mulmxK // mulmxKV ?unitmx_adj.
Qed.
Lemma den_sum i : mm_denominator X (invmx A) (invmx B) i = ofR (\sum_j \sum_k sq (kcoord X G H i j k)).
Proof.
have uA : A \in unitmx by rewrite eA' unitmx_mul unitmx_adj uGT.
have uB : B \in unitmx by rewrite eB unitmx_mul unitmx_adj uH.
rewrite -(kmaha X uG uH) -eA -eB -den_maha // ofR_toR_ge0 //; apply: den_ge0; apply: pd_inv; last by rewrite eB; exact: pdB.
by rewrite -[A]trmxK eA; apply/tr_pd/pdP.
Qed.
Lemma colsumE i j : ((Y i)^H *m Y i) j j = ofR (\sum_k sq (kcoord X G H i j k)).
Proof. by rewrite mxE rmorph_sum; apply: eq_bigr => k _; rewrite ofR_sq !mxE mulrC. Qed.
Lemma rowsumE i k : (Y i *m (Y i)^H) k k = ofR (\sum_j sq (kcoord X G H i j k)).
Proof. by rewrite mxE rmorph_sum; apply: eq_bigr => j _; rewrite ofR_sq !mxE. Qed.
Let q i : R := \sum_j \sum_k sq (kcoord X G H i j k).
Let q0 i : 0 < q i. Proof. exact: ksum_gt0. Qed.
Lemma MA_coord : MA X A B = (G^T)^H *m (\sum_i ofR (a%:R / N%:R / q i) *: ((Y i)^H *m Y i)) *m G^T.
Proof.
rewrite /MA /mm_M mulmx_sumr mulmx_suml; apply: eq_bigr => i _.
by rewrite numA den_sum scalerA -scalemxAr -scalemxAl; congr (_ *: _); rewrite !rmorphM !fmorphV !rmorph_nat.
Qed.
Lemma MB_coord : MB X A B = H *m (\sum_i ofR (b%:R / N%:R / q i) *: (Y i *m (Y i)^H)) *m H^H.
Proof.
rewrite /MB /mm_M mulmx_sumr mulmx_suml; apply: eq_bigr => i _.
by rewrite numB den_sum scalerA -scalemxAr -scalemxAl; congr (_ *: _); rewrite !rmorphM !fmorphV !rmorph_nat.
Qed.
Lemma fixed_stat : MA X A B = A -> MB X A B = B -> kstat X G H.
Proof.
have N1 : N%:R != 0 :> R by rewrite pnatr_eq0 -lt0n.
have uT := uGT; rewrite MA_coord MB_coord => hA hB.
have cA : \sum_i ofR (a%:R / N%:R / q i) *: ((Y i)^H *m Y i) = 1%:M.
  have := congr1 (fun M => invmx ((G^T)^H) *m M *m invmx G^T) hA; rewrite eA' !mulmxA !mulVmx ?unitmx_adj // !mul1mx !mulmxK ?mulmxV //.
have cB : \sum_i ofR (b%:R / N%:R / q i) *: (Y i *m (Y i)^H) = 1%:M.
  have := congr1 (fun M => invmx H *m M *m invmx H^H) hB; rewrite eB !mulmxA !mulVmx ?unitmx_adj // !mul1mx !mulmxK ?mulmxV ?unitmx_adj //.
split.
  move=> j; have := congr1 (fun M : 'M[K]_a => M j j) cA; rewrite summxE mxE eqxx mulr1n.
  under eq_bigr => i _ do rewrite mxE colsumE -rmorphM.
  rewrite -rmorph_sum -(rmorph1 (@Star.ofR K)) => /ofR_inj E.
  rewrite -[RHS]mulr1 -[X in N%:R * X]E !mulr_sumr; apply: eq_bigr => i _; exact: karith3.
move=> k; have := congr1 (fun M : 'M[K]_b => M k k) cB; rewrite summxE mxE eqxx mulr1n.
under eq_bigr => i _ do rewrite mxE rowsumE -rmorphM.
rewrite -rmorph_sum -(rmorph1 (@Star.ofR K)) => /ofR_inj E.
rewrite -[RHS]mulr1 -[X in N%:R * X]E !mulr_sumr; apply: eq_bigr => i _; exact: karith3.
Qed.
End Bases.
(* a pass that changes nothing: a global minimiser *)
Lemma fixed_min (A : 'M[K]_a) (B : 'M[K]_b) : pd A -> pd B -> MA X A B = A -> MB X A B = B -> kron_minimiser X A^T B.
Proof.
move=> pA pB hA hB; split=> //; first exact: tr_pd.
move=> P' B' pP' pB'; have [G [d [uG eP eP' d0]]] := simdiag (tr_pd pA) pP'; have [H [e [uH eB eB' e0]]] := simdiag pB pB'.
have st := fixed_stat uG uH eP eB hA hB.
by rewrite eP eB eP' eB'; exact: (kstat_min nz uG uH d0 e0 st).1.
Qed.
Lemma fixed_equal (A : 'M[K]_a) (B : 'M[K]_b) P' B' : (0 < a)%N -> (0 < b)%N -> pd A -> pd B -> MA X A B = A -> MB X A B = B -> pd P' -> pd B' ->
  kron_cost X P' B' <= kron_cost X A^T B -> exists G H d e, [/\ G \in unitmx /\ A^T = G *m G^H, H \in unitmx /\ B = H *m H^H,
    P' = G *m dia K d *m G^H /\ (forall j, 0 < d 0 j), B' = H *m dia K e *m H^H /\ (forall k, 0 < e 0 k) &
    forall i, exists2 l : R, 0 < l & forall j k, kcoord X G H i j k != 0 -> d 0 j * e 0 k = l].
Proof.
move=> a0 b0 pA pB hA hB pP' pB' h; have [G [d [uG eP eP' d0]]] := simdiag (tr_pd pA) pP'; have [H [e [uH eB eB' e0]]] := simdiag pB pB'.
have st := fixed_stat uG uH eP eB hA hB; exists G, H, d, e; split=> //.
by apply: (kstat_min nz uG uH d0 e0 st).2 => //; rewrite -eP -eB -eP' -eB'.
Qed.
Lemma kcostE (A : 'M[K]_a) (B : 'M[K]_b) : pd A -> pd B -> kron_cost X A^T B =
  (a * b)%:R * (\sum_i ln (toR (mm_denominator X (invmx A) (invmx B) i))) + N%:R * (b%:R * ln (toR (\det A)) + a%:R * ln (toR (\det B))).
Proof.
move=> pA pB; rewrite /kron_cost ln_det_tens //; congr (_ * _ + _); apply: eq_bigr => i _; by rewrite den_maha //; exact: pd_unit.
Qed.
Lemma det_invR n (A : 'M[K]_n) : pd A -> ln (toR (\det (invmx A))) = - ln (toR (\det A)).
Proof.
move=> pA; rewrite det_inv; have d0 := det_pd pA.
by rewrite -(ofR_toR_ge0 (ltW d0)) -fmorphV !toRK lnV // toR_gt0.
Qed.
(* samples that do not span: the cost is unbounded *)
Lemma unspanned_columns (A : 'M[K]_a) (B : 'M[K]_b) (m : R) : (0 < b)%N -> pd A -> pd B -> ~ span_columns X ->
  exists A', pd A' /\ kron_cost X A'^T B < kron_cost X A^T B - m.
Proof.
move=> b0 pA pB ns; have [y [hy y0]] : exists y : 'cV[K]_a, (forall i, unstack X i *m y = 0) /\ y != 0.
  by apply: NNPP => h; apply: ns => y hy; apply/eqP; apply: contraT => y0; case: h; exists y.
have [t [t0 pT lt]] := det_rank1 (Num.max m 0) (pd_inv pA) y0; have mm : 0 <= Num.max m 0 by rewrite le_maxr lexx orbT.
exists (invmx (invmx A + ofR t *: outer y)); have pA' := pd_inv pT; split=> //.
rewrite !kcostE // invmxK.
have -> : \sum_i ln (toR (mm_denominator X (invmx A + ofR t *: outer y) (invmx B) i)) = \sum_i ln (toR (mm_denominator X (invmx A) (invmx B) i)).
  apply: eq_bigr => i _; congr (ln (toR _)); rewrite /mm_denominator mulmxDl raddfD /= -scalemxAl mxtraceZ.
  suff -> : \tr (outer y *m mm_numerator a X (invmx B) i) = 0 by rewrite mulr0 addr0.
  by rewrite /outer mxtrace_mulC /mm_numerator cellE !mulmxA -(mulmxA _ _ y) hy mulmx0 mul0mx mxtrace0.
rewrite -addrA ltr_add2l det_invR //; move: lt; rewrite det_invR //; exact: karith4.
Qed.
Lemma unspanned_rows (A : 'M[K]_a) (B : 'M[K]_b) (m : R) : (0 < a)%N -> pd A -> pd B -> ~ span_rows X ->
  exists B', pd B' /\ kron_cost X A^T B' < kron_cost X A^T B - m.
Proof.
move=> a0 pA pB ns; have [y [hy y0]] : exists y : 'cV[K]_b, (forall i, (unstack X i)^H *m y = 0) /\ y != 0.
  by apply: NNPP => h; apply: ns => y hy; apply/eqP; apply: contraT => y0; case: h; exists y.
have [t [t0 pT lt]] := det_rank1 (Num.max m 0) (pd_inv pB) y0; have mm : 0 <= Num.max m 0 by rewrite le_maxr lexx orbT.
exists (invmx (invmx B + ofR t *: outer y)); have pB' := pd_inv pT; split=> //.
rewrite !kcostE // invmxK.
have -> : \sum_i ln (toR (mm_denominator X (invmx A) (invmx B + ofR t *: outer y) i)) = \sum_i ln (toR (mm_denominator X (invmx A) (invmx B) i)).
  apply: eq_bigr => i _; congr (ln (toR _)); rewrite /mm_denominator /mm_numerator cellE mulmxDr mulmxDl mulmxDr raddfD /= -scalemxAr -scalemxAl -scalemxAr mxtraceZ.
  by rewrite /outer !mulmxA -(mulmxA (invmx A) _ y) hy mulmx0 !mul0mx mxtrace0 mulr0 addr0.
rewrite -addrA ltr_add2l det_invR // ![b%:R * _ + _]addrC; move: lt; rewrite det_invR //; exact: karith4.
Qed.
Lemma minimiser_spans P B : (0 < a)%N -> (0 < b)%N -> kron_minimiser X P B -> span_columns X /\ span_rows X.
Proof.
move=> a0 b0 [pP pB mi]; have pA := tr_pd pP; split; apply: NNPP => h.
  have [A' [pA' lt]] := unspanned_columns 0 b0 pA pB h; move: lt; rewrite subr0 trmxK ltNge mi //; exact: tr_pd.
have [B' [pB' lt]] := unspanned_rows 0 a0 pA pB h; by move: lt; rewrite subr0 trmxK ltNge mi.
Qed.
End Fix.
