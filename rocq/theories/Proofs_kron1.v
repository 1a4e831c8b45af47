(* Tyler's cost of kron(P, B) in coordinates: convexity along geodesics, and stationary points are global minimisers. *)
From Coq Require Import Reals Lra Classical_Prop.
From mathcomp Require Import all_ssreflect all_algebra.
From mathcomp Require Import mxtens.
From Verif Require Import RealsMC RealTac RealTac2 Star FunCalc Spec_covariance Proofs_mest Proofs_cost Proofs_unique Proofs_unique2 Proofs_structured Props_structured
  Compact Proofs_converge Props_converge Spec_kron Proofs_kron.
Set Implicit Arguments.
Unset Strict Implicit.
Unset Printing Implicit Defensive.
Local Open Scope ring_scope.
Import GRing.Theory Num.Theory Order.TTheory.

Lemma karith1 (a b N s l : R) : a * s = N -> a * b * (s * l) = N * (b * l).
Proof. by move=> <-; rring. Qed.
Lemma karith2 (c x y n l m : R) : c * x + n * (l + m) - (c * y + n * l) = c * x - c * y - - (n * m).
Proof. rring. Qed.
Section Coord.
Variable K : starField.
Local Notation ofR := (@ofR K).
Local Notation toR := (@toR K).
Local Notation "A ^H" := (adj A) (at level 8, format "A ^H").
Variables (N a b : nat) (X : 'M[K]_(N, a * b)).
Hypothesis nz : nonzero_samples X.
Variables (G : 'M[K]_a) (H : 'M[K]_b).
Hypotheses (uG : G \in unitmx) (uH : H \in unitmx).
Local Notation kc := (kcoord X G H).
Let P := G *m G^H.
Let B := H *m H^H.
Let w i j k : R := sq (kc i j k).
Let w0 i j k : 0 <= w i j k. Proof. exact: sq_ge0. Qed.
Lemma kbase : P *t B = (G *t H) *m (G *t H)^H.
Proof. by rewrite /P /B tens_adj -tensmx_mul. Qed.
Lemma kmaha i : maha (P *t B) (samp X i) = \sum_j \sum_k w i j k.
Proof. by rewrite (mahaS X (tens_unit uG uH) kbase) big_tensR; do 2! apply: eq_bigr => ? _. Qed.
Lemma pdP : pd P. Proof. by rewrite /P -[G in G *m _]mulmx1; apply: pd_congr (pd1 _ _). Qed.
Lemma pdB : pd B. Proof. by rewrite /B -[H in H *m _]mulmx1; apply: pd_congr (pd1 _ _). Qed.
Lemma ksum_gt0 i : 0 < \sum_j \sum_k w i j k.
Proof. by rewrite -kmaha; apply: maha_gt0; [apply: tens_pd; [exact: pdP|exact: pdB]|exact: nz]. Qed.
Lemma kc_neq0 i j k : (0 < w i j k) = (kc i j k != 0).
Proof.
rewrite lt_def w0 andbT /w; congr (~~ _); apply/eqP/eqP => h; last by rewrite h /sq mul0r raddf0.
by apply/eqP; rewrite -mul_cj_eq0 -ofR_sq h rmorph0.
Qed.
Section Two.
Variables (d : 'rV[R]_a) (e : 'rV[R]_b).
Hypotheses (d0 : forall j, 0 < d 0 j) (e0 : forall k, 0 < e 0 k).
Lemma kT : (G *m dia K d *m G^H) *t (H *m dia K e *m H^H) = (G *t H) *m dia K (tv d e) *m (G *t H)^H.
Proof. by rewrite tens_congr tens_dia. Qed.
Lemma kmahaT i : maha ((G *m dia K d *m G^H) *t (H *m dia K e *m H^H)) (samp X i) = \sum_j \sum_k w i j k / (d 0 j * e 0 k).
Proof.
rewrite (mahaT X (tens_unit uG uH) kT (tv_gt0 d0 e0)) big_tensR; do 2! apply: eq_bigr => ? _; by rewrite tvE.
Qed.
Lemma kT_gt0 i : 0 < \sum_j \sum_k w i j k / (d 0 j * e 0 k).
Proof.
rewrite -kmahaT; apply: maha_gt0; last exact: nz.
by apply: tens_pd; apply: pd_congr => //; exact: pd_dia.
Qed.
Lemma kcostT : kron_cost X (G *m dia K d *m G^H) (H *m dia K e *m H^H) =
  (a * b)%:R * (\sum_i ln (\sum_j \sum_k w i j k / (d 0 j * e 0 k)))
  + N%:R * (ln (toR (\det (P *t B))) + (b%:R * (\sum_j ln (d 0 j)) + a%:R * (\sum_k ln (e 0 k)))).
Proof.
rewrite /kron_cost (detT (tens_unit uG uH) kbase kT (tv_gt0 d0 e0)) sum_ln_tv //; congr (_ * _ + _).
by apply: eq_bigr => i _; rewrite kmahaT.
Qed.
Lemma kcostS : kron_cost X P B = (a * b)%:R * (\sum_i ln (\sum_j \sum_k w i j k)) + N%:R * ln (toR (\det (P *t B))).
Proof. by rewrite /kron_cost; congr (_ * _ + _); apply: eq_bigr => i _; rewrite kmaha. Qed.

(* Jensen's inequality on pairs *)
Lemma jensen2 (v z : 'I_a -> 'I_b -> R) : (forall j k, 0 <= v j k) -> \sum_j \sum_k v j k = 1 -> (forall j k, 0 < z j k) ->
  \sum_j \sum_k v j k * ln (z j k) <= ln (\sum_j \sum_k v j k * z j k) /\
  (ln (\sum_j \sum_k v j k * z j k) <= \sum_j \sum_k v j k * ln (z j k) -> forall j k, 0 < v j k -> z j k = \sum_j \sum_k v j k * z j k).
Proof.
move=> v0 v1 z0; pose v' (l : 'I_(a * b)) := v (mxtens_unindex l).1 (mxtens_unindex l).2.
pose z' (l : 'I_(a * b)) := z (mxtens_unindex l).1 (mxtens_unindex l).2.
have E F : \sum_j \sum_k v j k * F j k = \sum_l v' l * F (mxtens_unindex l).1 (mxtens_unindex l).2.
  rewrite big_tensR; do 2! apply: eq_bigr => ? _; rewrite /v' mxtens_indexK.
  done.
have v1' : \sum_l v' l = 1.
  rewrite big_tensR -[RHS]v1.
  apply: eq_bigr => j _; apply: eq_bigr => k _.
  by rewrite /v' mxtens_indexK.
rewrite (E (fun j k => ln (z j k))) (E z); split; first exact: (@ln_jensen _ v' z' (fun l => v0 _ _) v1' (fun l => z0 _ _)).
move=> le j k vj; have := @ln_jensen_eq _ v' z' (fun l => v0 _ _) v1' (fun l => z0 _ _) le (mxtens_index (j, k)).
by rewrite /v' /z' mxtens_indexK => /(_ vj).
Qed.
(* stationarity *)
Definition kstat := (forall j, a%:R * (\sum_i (\sum_k w i j k) / (\sum_j \sum_k w i j k)) = N%:R :> R) /\
  (forall k, b%:R * (\sum_i (\sum_j w i j k) / (\sum_j \sum_k w i j k)) = N%:R :> R).
Lemma kstat_min : kstat -> kron_cost X P B <= kron_cost X (G *m dia K d *m G^H) (H *m dia K e *m H^H) /\
  (kron_cost X (G *m dia K d *m G^H) (H *m dia K e *m H^H) <= kron_cost X P B -> (0 < a)%N -> (0 < b)%N ->
     forall i, exists2 l : R, 0 < l & forall j k, kc i j k != 0 -> d 0 j * e 0 k = l).
Proof.
move=> [s1 s2]; pose q i := \sum_j \sum_k w i j k; pose q' i := \sum_j \sum_k w i j k / (d 0 j * e 0 k).
have q0 i : 0 < q i := ksum_gt0 i; have q'0 i : 0 < q' i := kT_gt0 i.
pose J i := \sum_j \sum_k w i j k / q i * ln (d 0 j * e 0 k)^-1.
have v0 i j k : 0 <= w i j k / q i by rewrite divr_ge0 // ltW.
have v1 i : \sum_j \sum_k w i j k / q i = 1.
  under eq_bigr => j _ do rewrite -mulr_suml.
  by rewrite -mulr_suml -/(q i) divff // gt_eqF.
have z0 j k : 0 < (d 0 j * e 0 k)^-1 by rewrite invr_gt0 mulr_gt0.
have vz i : \sum_j \sum_k w i j k / q i * (d 0 j * e 0 k)^-1 = q' i / q i.
  rewrite /q' mulr_suml; apply: eq_bigr => j _; rewrite mulr_suml; apply: eq_bigr => k _; exact: mulrAC.
have le i : J i <= ln (q' i) - ln (q i).
  by have [h _] := jensen2 (v0 i) (v1 i) z0; rewrite vz lnD // in h.
have SJ : (a * b)%:R * (\sum_i J i) = - (N%:R * (b%:R * (\sum_j ln (d 0 j)) + a%:R * (\sum_k ln (e 0 k)))).
  have Ji i : J i = - ((\sum_j (\sum_k w i j k) / q i * ln (d 0 j)) + (\sum_k (\sum_j w i j k) / q i * ln (e 0 k))).
    rewrite /J; transitivity (- (\sum_j \sum_k w i j k / q i * ln (d 0 j) + \sum_j \sum_k w i j k / q i * ln (e 0 k))).
      rewrite -big_split -sumrN; apply: eq_bigr => j _; rewrite -big_split -sumrN; apply: eq_bigr => k _.
      by rewrite lnV ?mulr_gt0 // lnM // mulrN mulrDr.
    congr (- (_ + _)); first by apply: eq_bigr => j _; rewrite -!mulr_suml.
    by rewrite exchange_big; apply: eq_bigr => k _; rewrite -!mulr_suml.
  rewrite (eq_bigr _ (fun i _ => Ji i)) sumrN big_split /= mulrN; congr (- _); rewrite mulrDr [in RHS]mulrDr; congr (_ + _).
    rewrite exchange_big /= mulr_sumr [in RHS]mulr_sumr [in RHS]mulr_sumr; apply: eq_bigr => j _; rewrite -mulr_suml natrM.
    exact: karith1 (s1 j).
  rewrite exchange_big /= mulr_sumr [in RHS]mulr_sumr [in RHS]mulr_sumr; apply: eq_bigr => k _; rewrite -mulr_suml natrM.
  rewrite [_ * b%:R]mulrC; exact: karith1 (s2 k).
have D : kron_cost X (G *m dia K d *m G^H) (H *m dia K e *m H^H) - kron_cost X P B = (a * b)%:R * \sum_i (ln (q' i) - ln (q i) - J i).
  rewrite kcostT kcostS !sumrB -/(q' _) !mulrBr SJ -/q -/q'; exact: karith2.
have g0 i : 0 <= ln (q' i) - ln (q i) - J i by rewrite subr_ge0.
have G0 : 0 <= \sum_i (ln (q' i) - ln (q i) - J i) by apply: sumr_ge0 => i _.
split; first by rewrite -subr_ge0 D mulr_ge0 ?ler0n.
move=> h a0 b0 i; have z : \sum_i (ln (q' i) - ln (q i) - J i) = 0.
  apply/eqP; rewrite eq_le G0 andbT; have : (a * b)%:R * (\sum_i (ln (q' i) - ln (q i) - J i)) <= 0 by rewrite -D subr_le0.
  by rewrite pmulr_rle0 // ltr0n muln_gt0 a0.
move/psumr_eq0P: z => /(_ (fun i _ => g0 i) i isT) /eqP; rewrite subr_eq0 => /eqP Ji.
exists (q i / q' i); first by rewrite divr_gt0.
move=> j k n0; have [_] := jensen2 (v0 i) (v1 i) z0; rewrite vz lnD // Ji => /(_ (lexx _) j k).
rewrite divr_gt0 ?kc_neq0 // => /(_ isT) E; by rewrite -[LHS]invrK E invf_div.
Qed.
End Two.
End Coord.
