(* Student's cost on Kronecker structured matrices: stationary points are global minimisers.  Nothing here models code. *)
From Coq Require Import Reals Lra Classical_Prop.
From mathcomp Require Import all_ssreflect all_algebra.
From mathcomp Require Import mxtens.
From Verif Require Import RealsMC RealTac RealTac2 Star FunCalc Spec_covariance Proofs_mest Proofs_cost Proofs_unique Proofs_unique2 Model_structured Proofs_structured Props_structured
  Compact Proofs_converge Props_converge Spec_kron Proofs_kron Proofs_kron1 Proofs_kron2.
Set Implicit Arguments.
Unset Strict Implicit.
Unset Printing Implicit Defensive.
Local Open Scope ring_scope.
Import GRing.Theory Num.Theory Order.TTheory.

Lemma jensen_sub n (v0 : R) (v z : 'I_n -> R) : 0 <= v0 -> (forall j, 0 <= v j) -> v0 + \sum_j v j = 1 -> (forall j, 0 < z j) ->
  \sum_j v j * ln (z j) <= ln (v0 + \sum_j v j * z j) /\
  (0 < v0 -> ln (v0 + \sum_j v j * z j) <= \sum_j v j * ln (z j) -> forall j, 0 < v j -> z j = 1).
Proof.
move=> p0 p1 s1 z0; pose w (l : 'I_n.+1) := if unlift ord0 l is Some j then v j else v0.
pose y (l : 'I_n.+1) := if unlift ord0 l is Some j then z j else 1.
have w0 l : 0 <= w l by rewrite /w; case: unlift.
have y0 l : 0 < y l by rewrite /y; case: unlift => //; exact: ltr01.
have E F : \sum_l w l * F (y l) = v0 * F 1 + \sum_j v j * F (z j).
  by rewrite big_ord_recl /w /y unlift_none; congr (_ + _); apply: eq_bigr => j _; rewrite liftK.
have w1 : \sum_l w l = 1.
  rewrite -[RHS]s1 big_ord_recl /w unlift_none; congr (_ + _); apply: eq_bigr => j _; by rewrite liftK.
have L0 : v0 * ln 1 = 0 by rewrite (_ : ln 1 = 0) ?mulr0 //; exact: ln_1.
have h := ln_jensen w0 w1 y0; rewrite (E ln) (E id) L0 add0r mulr1 in h; split=> // v00 le j vj.
have q := @ln_jensen_eq _ w y w0 w1 y0; rewrite (E ln) (E id) L0 add0r mulr1 in q.
have := q le (lift ord0 j); have := q le ord0; rewrite /w /y unlift_none liftK => /(_ v00) <- /(_ vj) //.
Qed.
Lemma sarith1 (c n s l : R) : c * s = n -> c * (s * l) = n * l. Proof. by move=> <-; rring. Qed.

Section Coord.
Variable K : starField.
Local Notation ofR := (@ofR K).
Local Notation toR := (@toR K).
Local Notation "A ^H" := (adj A) (at level 8, format "A ^H").
Variables (N a b : nat) (X : 'M[K]_(N, a * b)) (df : R).
Hypothesis df0 : 0 < df.
(* up to a constant, the opposite of the log-likelihood of kron(P, B), a complex Student distribution with 2 df
   degrees of freedom *)
Definition skron_cost (P : 'M[K]_a) (B : 'M[K]_b) : R :=
  (df + (a * b)%:R) * (\sum_i ln (df + maha (P *t B) (samp X i))) + N%:R * ln (toR (\det (P *t B))).
Section Basis.
Variables (G : 'M[K]_a) (H : 'M[K]_b).
Hypotheses (uG : G \in unitmx) (uH : H \in unitmx).
Local Notation kc := (kcoord X G H).
Let P := G *m G^H.
Let B := H *m H^H.
Let w i j k : R := sq (kc i j k).
Let w0 i j k : 0 <= w i j k. Proof. exact: sq_ge0. Qed.
Definition skstat := (forall j, (df + (a * b)%:R) * (\sum_i (\sum_k w i j k) / (df + \sum_j \sum_k w i j k)) = N%:R * b%:R :> R) /\
  (forall k, (df + (a * b)%:R) * (\sum_i (\sum_j w i j k) / (df + \sum_j \sum_k w i j k)) = N%:R * a%:R :> R).
Variables (d : 'rV[R]_a) (e : 'rV[R]_b).
Hypotheses (d0 : forall j, 0 < d 0 j) (e0 : forall k, 0 < e 0 k).
Let P' := G *m dia K d *m G^H.
Let B' := H *m dia K e *m H^H.
Lemma skcostT : skron_cost P' B' =
  (df + (a * b)%:R) * (\sum_i ln (df + \sum_j \sum_k w i j k / (d 0 j * e 0 k)))
  + N%:R * (ln (toR (\det (P *t B))) + (b%:R * (\sum_j ln (d 0 j)) + a%:R * (\sum_k ln (e 0 k)))).
Proof.
rewrite /skron_cost (detT (tens_unit uG uH) (kbase G H) (kT G H d e) (tv_gt0 d0 e0)) sum_ln_tv //; congr (_ * _ + _).
by apply: eq_bigr => i _; rewrite (kmahaT X uG uH d0 e0).
Qed.
Lemma skcostS : skron_cost P B = (df + (a * b)%:R) * (\sum_i ln (df + \sum_j \sum_k w i j k)) + N%:R * ln (toR (\det (P *t B))).
Proof. by rewrite /skron_cost; congr (_ * _ + _); apply: eq_bigr => i _; rewrite (kmaha X uG uH). Qed.
Lemma skstat_min : skstat -> skron_cost P B <= skron_cost P' B' /\
  (skron_cost P' B' <= skron_cost P B -> forall i j k, kc i j k != 0 -> d 0 j * e 0 k = 1).
Proof.
move=> [s1 s2]; pose q i := df + \sum_j \sum_k w i j k; pose q' i := df + \sum_j \sum_k w i j k / (d 0 j * e 0 k).
have q0 i : 0 < q i by rewrite ltr_paddr //; do 2! apply: sumr_ge0 => ? _.
have q'0 i : 0 < q' i by rewrite ltr_paddr //; do 2! apply: sumr_ge0 => ? _; rewrite divr_ge0 // ltW // mulr_gt0.
pose J i := \sum_j \sum_k w i j k / q i * ln (d 0 j * e 0 k)^-1.
have c0 : 0 < df + (a * b)%:R by rewrite ltr_paddr ?ler0n.
pose iu := @mxtens_unindex a b.
pose v i l := w i (iu l).1 (iu l).2 / q i; pose z l := (d 0 (iu l).1 * e 0 (iu l).2)^-1.
have E i (F : R -> R) : \sum_l v i l * F (z l) = \sum_j \sum_k w i j k / q i * F (d 0 j * e 0 k)^-1.
  by rewrite big_tensR; do 2! apply: eq_bigr => ? _; rewrite /v /z /iu mxtens_indexK.
have v0 i l : 0 <= v i l by rewrite divr_ge0 // ltW.
have p0 i : 0 < df / q i by rewrite divr_gt0.
have v1 i : df / q i + \sum_l v i l = 1.
  rewrite big_tensR (_ : \sum_j _ = (\sum_j \sum_k w i j k) / q i); first by rewrite -mulrDl -/(q i) divff // gt_eqF.
  rewrite mulr_suml; apply: eq_bigr => j _; rewrite mulr_suml; apply: eq_bigr => k _; by rewrite /v /iu mxtens_indexK.
have z0 l : 0 < z l by rewrite invr_gt0 mulr_gt0.
have vz i : df / q i + \sum_l v i l * z l = q' i / q i.
  rewrite (E i id) /q' mulrDl mulr_suml; congr (_ + _); apply: eq_bigr => j _; rewrite mulr_suml; apply: eq_bigr => k _; exact: mulrAC.
have le i : J i <= ln (q' i) - ln (q i).
  by have [h _] := jensen_sub (ltW (p0 i)) (v0 i) (v1 i) z0; rewrite vz lnD // (E i ln) in h.
have SJ : (df + (a * b)%:R) * (\sum_i J i) = - (N%:R * (b%:R * (\sum_j ln (d 0 j)) + a%:R * (\sum_k ln (e 0 k)))).
  have Ji i : J i = - ((\sum_j (\sum_k w i j k) / q i * ln (d 0 j)) + (\sum_k (\sum_j w i j k) / q i * ln (e 0 k))).
    rewrite /J; transitivity (- (\sum_j \sum_k w i j k / q i * ln (d 0 j) + \sum_j \sum_k w i j k / q i * ln (e 0 k))).
      rewrite -big_split -sumrN; apply: eq_bigr => j _; rewrite -big_split -sumrN; apply: eq_bigr => k _.
      by rewrite lnV ?mulr_gt0 // lnM // mulrN mulrDr.
    congr (- (_ + _)); first by apply: eq_bigr => j _; rewrite -!mulr_suml.
    by rewrite exchange_big; apply: eq_bigr => k _; rewrite -!mulr_suml.
  rewrite (eq_bigr _ (fun i _ => Ji i)) sumrN big_split /= mulrN; congr (- _); rewrite mulrDr [in RHS]mulrDr; congr (_ + _).
    rewrite exchange_big /= mulr_sumr mulrA [in RHS]mulr_sumr; apply: eq_bigr => j _; rewrite -mulr_suml.
    exact: sarith1 (s1 j).
  rewrite exchange_big /= mulr_sumr mulrA [in RHS]mulr_sumr; apply: eq_bigr => k _; rewrite -mulr_suml.
  exact: sarith1 (s2 k).
have D : skron_cost P' B' - skron_cost P B = (df + (a * b)%:R) * \sum_i (ln (q' i) - ln (q i) - J i).
  rewrite skcostT skcostS !sumrB -/(q' _) !mulrBr SJ -/q -/q'; exact: karith2.
have g0 i : 0 <= ln (q' i) - ln (q i) - J i by rewrite subr_ge0.
have G0 : 0 <= \sum_i (ln (q' i) - ln (q i) - J i) by apply: sumr_ge0 => i _.
split; first by rewrite -subr_ge0 D mulr_ge0 // ltW.
move=> h i j k n0; have zz : \sum_i (ln (q' i) - ln (q i) - J i) = 0.
  apply/eqP; rewrite eq_le G0 andbT; have : (df + (a * b)%:R) * (\sum_i (ln (q' i) - ln (q i) - J i)) <= 0 by rewrite -D subr_le0.
  by rewrite pmulr_rle0.
move/psumr_eq0P: zz => /(_ (fun i _ => g0 i) i isT) /eqP; rewrite subr_eq0 => /eqP Ji.
have [_ /(_ (p0 i))] := jensen_sub (ltW (p0 i)) (v0 i) (v1 i) z0; rewrite vz lnD // Ji (E i ln) => /(_ (lexx _) (mxtens_index (j, k))).
rewrite /v /z /iu mxtens_indexK /= divr_gt0 ?kc_neq0 // => /(_ isT) e1; by rewrite -[LHS]invrK e1 invr1.
Qed.
End Basis.
End Coord.

Lemma sarith2 (c s q : R) : c * (s / q) = c / q * s. Proof. by rewrite mulrA mulrAC. Qed.
(* the likelihood equations *)
Section Equations.
Variable K : starField.
Local Notation ofR := (@ofR K).
Local Notation toR := (@toR K).
Local Notation "A ^H" := (adj A) (at level 8, format "A ^H").
Variables (N a b : nat) (X : 'M[K]_(N, a * b)) (df : R).
Hypothesis df0 : 0 < df.
Definition sk_u (A : 'M[K]_a) (B : 'M[K]_b) i : R := (df + (a * b)%:R) / (df + toR (mm_denominator X (invmx A) (invmx B) i)).
Definition sk_eqA (A : 'M[K]_a) (B : 'M[K]_b) := \sum_i ofR (sk_u A B i) *: mm_numerator a X (invmx B) i = ofR (N%:R * b%:R) *: A.
Definition sk_eqB (A : 'M[K]_a) (B : 'M[K]_b) := \sum_i ofR (sk_u A B i) *: mm_numerator_B b X (invmx A) i = ofR (N%:R * a%:R) *: B.
Lemma sk_stat (A G : 'M[K]_a) (B H : 'M[K]_b) : G \in unitmx -> H \in unitmx -> A^T = G *m G^H -> B = H *m H^H ->
  sk_eqA A B -> sk_eqB A B -> skstat X df G H.
Proof.
move=> uG uH eA eB hA hB; have uT : G^T \in unitmx by rewrite unitmx_tr.
pose q i := df + \sum_j \sum_k sq (kcoord X G H i j k).
pose Y i : 'M[K]_(b, a) := \matrix_(k, j) kcoord X G H i j k.
have uE i : sk_u A B i = (df + (a * b)%:R) / q i by rewrite /sk_u (den_sum X uG uH eA eB) toRK.
have cA : \sum_i ofR (sk_u A B i) *: ((Y i)^H *m Y i) = ofR (N%:R * b%:R) *: 1%:M.
  move: hA; rewrite /sk_eqA => hA; have := congr1 (fun M => invmx ((G^T)^H) *m M *m invmx G^T) hA.
  rewrite mulmx_sumr mulmx_suml {2}(eA' eA) -!scalemxAr -!scalemxAl !mulmxA mulVmx ?unitmx_adj // mul1mx mulmxV // => <-; apply: eq_bigr => i _.
  rewrite (numA X uG uH eB) -/(Y i) -scalemxAr -scalemxAl; congr (_ *: _).
  by rewrite !mulmxA mulVmx ?unitmx_adj // mul1mx mulmxK.
have cB : \sum_i ofR (sk_u A B i) *: (Y i *m (Y i)^H) = ofR (N%:R * a%:R) *: 1%:M.
  move: hB; rewrite /sk_eqB => hB; have := congr1 (fun M => invmx H *m M *m invmx H^H) hB.
  rewrite mulmx_sumr mulmx_suml {2}eB -!scalemxAr -!scalemxAl !mulmxA mulVmx // mul1mx mulmxV ?unitmx_adj // => <-; apply: eq_bigr => i _.
  rewrite (numB X uG uH eA) -/(Y i) -scalemxAr -scalemxAl; congr (_ *: _).
  by rewrite !mulmxA mulVmx // mul1mx mulmxK ?unitmx_adj.
split=> [j|k].
  have := congr1 (fun M : 'M[K]_a => M j j) cA; rewrite summxE !mxE eqxx mulr1n mulr1.
  under eq_bigr => i _ do rewrite mxE colsumE -rmorphM.
  rewrite -rmorph_sum => /ofR_inj <-; rewrite mulr_sumr; apply: eq_bigr => i _; rewrite uE; exact: sarith2.
have := congr1 (fun M : 'M[K]_b => M k k) cB; rewrite summxE !mxE eqxx mulr1n mulr1.
under eq_bigr => i _ do rewrite mxE rowsumE -rmorphM.
rewrite -rmorph_sum => /ofR_inj <-; rewrite mulr_sumr; apply: eq_bigr => i _; rewrite uE; exact: sarith2.
Qed.
Lemma sk_min (A : 'M[K]_a) (B : 'M[K]_b) P' B' : pd A -> pd B -> sk_eqA A B -> sk_eqB A B -> pd P' -> pd B' ->
  skron_cost X df A^T B <= skron_cost X df P' B'.
Proof.
move=> pA pB hA hB pP' pB'; have [G [d [uG eP eP' d0]]] := simdiag (tr_pd pA) pP'; have [H [e [uH eB eB' e0]]] := simdiag pB pB'.
have st := sk_stat uG uH eP eB hA hB.
by rewrite eP eB eP' eB'; exact: (skstat_min df0 uG uH d0 e0 st).1.
Qed.
End Equations.
