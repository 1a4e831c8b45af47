(* Conditions under which the samples are stable. *)
From Coq Require Import Reals Lra Classical_Prop Epsilon.
From mathcomp Require Import all_ssreflect all_algebra zify.
From mathcomp Require Import mxtens.
From Verif Require Import RealsMC RealTac RealTac2 Star FunCalc Spec_covariance Proofs_mest Proofs_cost Model_structured Proofs_structured Props_structured
  Spec_exist Proofs_exist Spec_kron Proofs_kron Proofs_kron1 Proofs_kron2.
Set Implicit Arguments.
Unset Strict Implicit.
Unset Printing Implicit Defensive.
Local Open Scope ring_scope.
Import GRing.Theory Num.Theory Order.TTheory.

Lemma choice_fin (T U : Type) (u0 : U) (P : T -> U -> Prop) : (forall t, exists u, P t u) -> exists f, forall t, P t (f t).
Proof. by move=> h; exists (fun t => epsilon (inhabits u0) (P t)) => t; exact: (epsilon_spec (inhabits u0) _ (h t)). Qed.

Lemma karith20 (n z s p m : R) : 1 * (z - s) <= n * 0 - p * m - (n * (p * s) - p * (n * s)) -> s < z -> 0 < p -> m < 0.
Proof.
have -> : n * 0 - p * m - (n * (p * s) - p * (n * s)) = - (p * m) by rring.
rewrite mul1r => h1 h2 p0; rewrite -(pmulr_rlt0 _ p0) -oppr_gt0; apply: lt_le_trans h1; by rewrite subr_gt0.
Qed.
Section Stable.
Variable K : starField.
Local Notation ofR := (@ofR K).
Local Notation toR := (@toR K).
Local Notation "A ^H" := (adj A) (at level 8, format "A ^H").
Section Tyler.
Variables (N a b : nat) (X : 'M[K]_(N, a * b)).
Hypotheses (nz : nonzero_samples X) (N0 : (0 < N)%N) (a0 : (0 < a)%N) (b0 : (0 < b)%N).
Lemma tyler_stable : tyler_condition X -> kron_stable X.
Proof.
move=> cond G H al be uG uH sa sb z; have u1 := tens_unit uG uH; set F := G *t H in u1.
pose p := (a * b)%N; have p0 : (0 < p)%N by rewrite muln_gt0 a0.
pose y (l : 'I_p) := al (mxtens_unindex l).1 + be (mxtens_unindex l).2.
have yE j k : y (mxtens_index (j, k)) = al j + be k by rewrite /y mxtens_indexK.
pose x i := invmx F *m samp X i.
have x0 i : exists l, x i l 0 != 0.
  apply: NNPP => no; have /eqP := nz i; apply; rewrite -[samp X i](mulKVmx u1) -/(x i).
  have -> : x i = 0 by apply/colP => l; rewrite [RHS]mxE; apply/eqP; apply: contraT => h; case: no; exists l.
  by rewrite mulmx0.
have [c hc] : exists c : 'I_N -> 'I_p, forall i, x i (c i) 0 != 0 /\ forall l, x i l 0 != 0 -> y (c i) <= y l.
  apply: (@choice_fin 'I_N 'I_p (Ordinal p0) (fun i u => x i u 0 != 0 /\ forall l, x i l 0 != 0 -> y u <= y l)) => i; have [l0 h0] := x0 i.
  by case: (@arg_minP _ _ _ l0 (fun l => x i l 0 != 0) y h0) => l hl ml; exists l.
exists (fun i => mxtens_unindex (c i)) => [i|]; first by rewrite /kcoord -surjective_pairing mxtens_unindexK; exact: (hc i).1.
rewrite -/(\sum_i y (c i)).
have sy : \sum_l y l = 0.
  rewrite big_tensR (eq_bigr (fun j => al j *+ b)) => [|j _]; first by rewrite sumrMnl sa mul0rn.
  by rewrite (eq_bigr (fun k => al j + be k)) => [|k _]; [rewrite big_split /= sb addr0 sumr_const card_ord|rewrite yE].
(* the least and the greatest weight *)
case: (@arg_minP _ _ _ (Ordinal p0) predT y isT) => l1 _ m1; case: (@arg_maxP _ _ _ (Ordinal p0) predT y isT) => l2 _ m2.
have lt : y l1 < y l2.
  rewrite lt_neqAle m1 // andbT; apply/eqP => e.
  have yc l : y l = 0.
    have ce l' : y l' = y l1 by apply/eqP; rewrite eq_le m1 // andbT e; exact: m2.
    move: sy; rewrite (eq_bigr (fun=> y l1)) => [|l' _]; last exact: ce.
    by rewrite sumr_const card_ord => /eqP; rewrite mulrn_eq0 ce => /orP[/eqP h|/eqP //]; move: p0; rewrite h.
  have be1 k : be k = - al (Ordinal a0) by apply/eqP; rewrite -addr_eq0 addrC -yE yc.
  have al1 j : al j = - be (Ordinal b0) by apply/eqP; rewrite -addr_eq0 -yE yc.
  have c0 n (f : 'I_n -> R) (r : R) : (0 < n)%N -> (forall t, f t = r) -> \sum_t f t = 0 -> r = 0.
    by move=> n0 hf; rewrite (eq_bigr _ (fun t _ => hf t)) sumr_const card_ord => /eqP; rewrite mulrn_eq0 => /orP[/eqP h|/eqP //]; move: n0; rewrite h.
  case: z => -[t]; [rewrite al1 (c0 _ _ _ a0 al1 sa)|rewrite be1 (c0 _ _ _ b0 be1 sb)]; by rewrite eqxx.
pose m i := y (c i); have my i : exists l, m i = y l by exists (c i).
have L := @layers p N y m N%:R p%:R 1 my (y l2) p (y l1).
have hs : (#|[set l | (y l1 < y l)%R]| <= p)%N by rewrite -[X in (_ <= X)%N](card_ord p) max_card.
have {}L := L hs (ltW lt); move: L; rewrite /lay.
have -> : \sum_l Num.min (y l) (y l2) = 0 by rewrite -[RHS]sy; apply: eq_bigr => l _; rewrite min_l //; exact: m2.
have -> : \sum_l Num.min (y l) (y l1) = p%:R * y l1.
  by rewrite (eq_bigr (fun=> y l1)) => [|l _]; [rewrite sumr_const card_ord mulr_natl|rewrite min_r //; exact: m1].
have -> : \sum_i Num.min (m i) (y l2) = \sum_i m i by apply: eq_bigr => i _; rewrite min_l //; exact: m2.
have -> : \sum_i Num.min (m i) (y l1) = N%:R * y l1.
  by rewrite (eq_bigr (fun=> y l1)) => [|l _]; [rewrite sumr_const card_ord mulr_natl|rewrite min_r //; exact: m1].
move=> L; have pp : 0 < p%:R :> R by rewrite ltr0n.
apply: (karith20 (L _) lt pp) => t lt1 lt2.
pose W := [set l | t <= y l]; pose V := indicator K W *m F^T.
have rV : (\rank V <= #|W|)%N by rewrite /V mxrankMfree ?rank_indicator // row_free_unit unitmx_tr.
have Wp : (#|W| < p)%N.
  rewrite -[X in (_ < X)%N](card_ord p) -cardsT; apply: proper_card; apply/properP; split; first exact: subsetT.
  by exists l1; rewrite !inE // -ltNge.
have W0 : (0 < #|W|)%N by apply/card_gt0P; exists l2; rewrite inE.
have cV : (#|[set i | (t <= m i)%R]| <= count_in X V)%N.
  apply: subset_leq_card; apply/subsetP => i; rewrite !inE => ti.
  have -> : row i X = (x i)^T *m F^T by rewrite -trmx_mul mulKVmx // /samp trmxK.
  have <- : (x i)^T *m indicator K W = (x i)^T.
    apply: indicatorE => l; rewrite inE -ltNge mxE => lt'; apply/eqP; apply: contraT => h.
    by move: (lt_le_trans lt' (le_trans ti ((hc i).2 l h))); rewrite ltxx.
  by rewrite -mulmxA submxMl.
rewrite -!natrM ler_subr_addl -[1]/(1%:R) -natrD ler_nat addn1.
case: (posnP (\rank V)) => [r0|r0].
  have c0 : count_in X V = 0%N.
    apply/eqP; rewrite cards_eq0; apply/eqP/setP => i; rewrite !inE; apply/negbTE/negP => h.
    have V0 : V = 0 by apply/eqP; rewrite -mxrank_eq0 r0.
    move: h; rewrite V0 submx0 => /eqP ri; have /eqP := nz i; apply.
    by rewrite /samp ri trmx0.
  by move: cV W0 N0; rewrite c0 -/W; clear; nia.
have := cond V; rewrite r0 (leq_ltn_trans rV Wp) => /(_ isT); move: cV rV; rewrite -/W -/p; clear; nia.
Qed.
End Tyler.
(* two by two factors *)
Section Pencil.
Variables (N : nat) (X : 'M[K]_(N, 2 * 2)).
Definition o2 (j : 'I_2) : 'I_2 := if j == 0 then 1 else 0.
Lemma o2_sum (f : 'I_2 -> R) : \sum_j f j = 0 -> forall j, f (o2 j) = - f j.
Proof.
rewrite big_ord_recl big_ord1 => h j; apply/eqP; rewrite -addr_eq0.
have e : f 0 + f 1 = 0 by rewrite -h; congr (_ + f _); apply: val_inj.
by rewrite /o2; case: j => -[|[|//]] hj; rewrite /=; apply/eqP; rewrite -e; [rewrite addrC|]; congr (f _ + f _); apply: val_inj.
Qed.
Lemma o2_neg (f : 'I_2 -> R) : \sum_j f j = 0 -> exists j, f j <= 0.
Proof.
move=> h; case: (lerP (f 0) 0) => c; first by exists 0.
by exists (o2 0); rewrite (o2_sum h) oppr_le0 ltW.
Qed.
Lemma o2P (t t' : 'I_2) : t' = t \/ t' = o2 t.
Proof. by case: (eqVneq t' t) => [->|n]; [left|right; apply/val_inj; move: n; rewrite /o2; case: t t' => -[|[|//]] h1 [[|[|//]] h2]]. Qed.
Lemma row_unit (M : 'M[K]_2) t : M \in unitmx -> row t M != 0.
Proof.
move=> uM; apply/eqP => /(congr1 (fun x => x *m invmx M)); rewrite mul0mx -row_mul mulmxV // => /rowP /(_ t) /eqP.
by rewrite !mxE eqxx oner_eq0.
Qed.
Lemma det_o2 (Y : 'M[K]_2) k j : Y \in unitmx -> Y k j = 0 -> Y k (o2 j) != 0 /\ Y (o2 k) j != 0.
Proof.
move=> uY e; split; apply/eqP => e2.
  by have /eqP := row_unit k uY; apply; apply/rowP => t; rewrite !mxE; case: (o2P j t) => ->.
have uT : Y^T \in unitmx by rewrite unitmx_tr.
by have /eqP := row_unit j uT; apply; apply/rowP => t; rewrite !mxE; case: (o2P k t) => ->.
Qed.
Lemma pencil_stable : (forall i, unstack X i \in unitmx) ->
  (forall u v : 'cV[K]_2, u != 0 -> v != 0 -> exists i, (v^T *m unstack X i *m u) 0 0 != 0) -> kron_stable X.
Proof.
move=> ui pen G H al be uG uH sa sb z.
pose Y i : 'M[K]_2 := \matrix_(k, j) kcoord X G H i j k.
have eY i : Y i = invmx H *m unstack X i *m invmx G^T.
  by rewrite (unstackY X uG uH) !mulmxA mulVmx // mul1mx mulmxK // unitmx_tr.
have eY' i j' k' : (row k' (invmx H *m unstack X i) *m col j' (invmx G^T)) 0 0 = Y i k' j'.
  by rewrite eY -row_mul !mxE; apply: eq_bigr => t _; rewrite !mxE.
have uY i : Y i \in unitmx by rewrite eY !unitmx_mul !unitmx_inv uH ui unitmx_tr.
have [j hj] := o2_neg sa; have [k hk] := o2_neg sb.
have Yk i j' k' : kcoord X G H i j' k' = Y i k' j' by rewrite mxE.
pose c i : 'I_2 * 'I_2 := if Y i k j != 0 then (j, k) else if al j <= be k then (j, o2 k) else (o2 j, k).
have st : al j + be k < 0.
  rewrite lt_neqAle -(addr0 0) ler_add // andbT addr0 addr_eq0; apply/eqP => e.
  have a0 : al j = 0 by apply/eqP; rewrite eq_le hj e oppr_ge0.
  have b0 : be k = 0 by move/eqP: e; rewrite a0 eq_sym oppr_eq0 => /eqP.
  have all (f : 'I_2 -> R) t : \sum_j f j = 0 -> f t = 0 -> forall t', f t' = 0.
    move=> sf ft t'; case: (eqVneq t' t) => [-> //|n]; have -> : t' = o2 t; last by rewrite (o2_sum sf) ft oppr0.
    by case: (o2P t t') n => // ->; rewrite eqxx.
  by case: z => -[t]; [rewrite (all _ _ sa a0)|rewrite (all _ _ sb b0)]; rewrite eqxx.
have w i : al (c i).1 + be (c i).2 <= 0 /\ (Y i k j != 0 -> al (c i).1 + be (c i).2 < 0).
  rewrite /c; case: ifP => [y|y]; first by split; [exact: ltW|].
  by case: ifP => /= h; rewrite (o2_sum sa, o2_sum sb) ?subr_le0 // addrC subr_le0; split=> //; rewrite ltW // ltNge h.
exists c => [i|].
  rewrite Yk /c; case: ifP => [//|/negbFE/eqP y]; have [h1 h2] := det_o2 (uY i) y; by case: ifP.
have [i hi] : exists i, Y i k j != 0.
  have u1 : (invmx G^T)^T \in unitmx by rewrite unitmx_tr unitmx_inv unitmx_tr.
  have u2 : invmx H \in unitmx by rewrite unitmx_inv.
  have := pen (row j (invmx G^T)^T)^T (row k (invmx H))^T; rewrite !trmx_eq0 !row_unit // => /(_ isT isT) [i hi].
  exists i; move: hi; rewrite trmxK -row_mul -tr_col trmxK -eY'.
  done.
rewrite (bigD1 i) //=; apply: (@lt_le_trans _ _ (0 + \sum_(i' | i' != i) 0)); last by rewrite big1_eq addr0.
apply: ltr_le_add; first exact: (w i).2.
by apply: ler_sum => i' _; exact: (w i').1.
Qed.
End Pencil.
End Stable.
