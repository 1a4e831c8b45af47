(* The cost of Student's estimator when some samples are arbitrary.  Nothing here models code. *)
From Coq Require Import Reals Epsilon Lra Classical_Prop.
From mathcomp Require Import all_ssreflect all_algebra.
From mathcomp Require Import zify.
From Verif Require Import RealsMC RealTac RealTac2 Star FunCalc Spec_covariance Spec_fixedpoint Spec_exist Proofs_mest Proofs_cost Proofs_unique Proofs_unique2
  Compact Proofs_estimators Proofs_converge Props_cost Props_unique Proofs_exist Proofs_exist2 Spec_breakdown Proofs_breakdown.
Set Implicit Arguments.
Unset Strict Implicit.
Unset Printing Implicit Defensive.
Local Open Scope ring_scope.
Import GRing.Theory Num.Theory Order.TTheory.

(* sums by layers, when some of the values are above the top *)
Section Layers.
Variables (n N : nat) (y : 'I_n -> R) (m : 'I_N -> R) (A B k e : R).
Hypothesis my : forall i, (exists l, m i = y l) \/ e <= m i.
Lemma layer_top s s' : s <= s' -> s' <= e -> (forall l, y l <= s \/ s' <= y l) ->
  lay y m A B s' - lay y m A B s = (s' - s) * (A * #|[set l | s' <= y l]|%:R - B * #|[set i | s' <= m i]|%:R).
Proof.
move=> se he h; have hm i : m i <= s \/ s' <= m i.
  by case: (my i) => [[l ->] //|em]; right; exact: le_trans he em.
have E1 := layer_step se h; have E2 := layer_step se hm; rewrite /lay.
have -> (a b c d : R) : A * a - B * c - (A * b - B * d) = A * (a - b) - B * (c - d) by rring.
rewrite E1 E2; move: (#|_|%:R) (#|_|%:R) => f g; rring.
Qed.
Lemma layers_top r : forall s : R, (#|[set l | (s < y l)%R]| <= r)%N -> s <= e ->
  (forall t, s < t -> t <= e -> k <= A * #|[set l | t <= y l]|%:R - B * #|[set i | t <= m i]|%:R) -> k * (e - s) <= lay y m A B e - lay y m A B s.
Proof.
elim: r => [|r IH] s hr se H; move: (se); rewrite le_eqVlt => /orP[/eqP->|lt]; rewrite ?subrr ?mulr0 //.
  rewrite layer_top // => [|l].
    by rewrite mulrC; apply: ler_wpmul2l; [rewrite subr_ge0 | exact: H].
  left; rewrite leNgt; apply/negP => sl; move: hr; rewrite leqn0 cards_eq0 => /eqP e0.
  have : l \in [set l | s < y l] by rewrite inE.
  by rewrite e0 inE.
case: (pickP [pred l | (s < y l) && (y l < e)]) => [l0 /= /andP[l1 l2]|no]; last first.
  rewrite layer_top // => [|l].
    by rewrite mulrC; apply: ler_wpmul2l; [rewrite subr_ge0 | exact: H].
  by move: (no l) => /=; case: (leP (y l) s) => h; [left | rewrite /= ltNge => /negbFE; right].
case: (@arg_minP _ _ _ l0 (fun l => s < y l) y l1) => l sl hl; have le : y l < e by apply: le_lt_trans l2; exact: hl.
have le' := ltW le; have -> : lay y m A B e - lay y m A B s = (lay y m A B e - lay y m A B (y l)) + (lay y m A B (y l) - lay y m A B s) by rewrite addrA subrK.
have -> : e - s = (e - y l) + (y l - s) by rewrite addrA subrK.
rewrite mulrDr; apply: ler_add.
  apply: IH => // [|t lt1 lt2]; last by apply: H => //; exact: lt_trans lt1.
  rewrite -ltnS; apply: leq_trans hr; apply: proper_card; apply/properP; split.
    by apply/subsetP => j; rewrite !inE; apply: lt_trans.
  by exists l; rewrite !inE ?ltxx.
rewrite layer_top; first by rewrite mulrC; apply: ler_wpmul2l; [rewrite subr_ge0 ltW | exact: H].
- exact: ltW.
- by [].
by move=> j; case: (leP (y j) s) => h; [left | right; exact: hl].
Qed.
End Layers.

Section Corrupted.
Variable K : starField.
Local Notation ofR := (@ofR K).
Local Notation toR := (@toR K).
Local Notation "A ^H" := (adj A) (at level 8, format "A ^H").
Hypothesis cK : compactK K.
Variables (N p : nat) (X : 'M[K]_(N, p.+1)).
Hypothesis X0 : forall i, row i X != 0.
Local Notation changed := (changed X).
Lemma eig_layers3 : exists2 c : R, 0 < c & forall Y : 'M[K]_(N, p.+1), (forall i, row i Y != 0) ->
  forall T d U, pd T -> eigdec T d U -> exists m : 'I_N -> R,
  [/\ forall i, exists l, m i = ln (d 0 l), forall i, i \notin changed Y -> ln c - m i <= ln (maha T (samp Y i)),
      forall i, i \in changed Y -> ln c + ln (nrm2 (samp Y i)) - m i <= ln (maha T (samp Y i)) &
      forall t, exists2 V : 'M[K]_p.+1, (\rank V <= #|[set l | (t <= ln (d 0 l))%R]|)%N & [set i | t <= m i] \subset inside X V :|: changed Y].
Proof.
have [c c0 hc] := eig_layers2 cK X0; exists c => // Y Y0 T d U pT dec.
have n0 i : 0 < nrm2 (samp Y i) by apply: nrm2_gt0; exact: samp0.
have s0 i : 0 < R_sqrt.sqrt (nrm2 (samp Y i)) by apply/RltP/sqrt_lt_R0/RltP.
pose Y' := scale_samples (unitf X Y) Y.
have same i : i \notin changed Y -> row i Y' = row i Y.
  by move=> h; apply/rowP => j; rewrite !mxE /unitf (negbTE h) mul1r.
have sub : changed Y' \subset changed Y.
  by apply/subsetP => i; apply: contraLR => h; move: (h); rewrite !inE !negbK same.
have mh i : i \in changed Y -> maha T (samp Y' i) = maha T (samp Y i) / nrm2 (samp Y i).
  move=> h; rewrite samp_scale /unitf h /maha adjZ cj_ofR -scalemxAl -scalemxAl -scalemxAr scalerA -rmorphM mxE toRZ.
  by rewrite -invfM sqrtR_sqr ?(ltW (n0 i)) // mulrC.
have one i : i \in changed Y -> nrm2 (samp Y' i) = 1.
  move=> h; rewrite /nrm2 -maha1 samp_scale /unitf h /maha adjZ cj_ofR -scalemxAl -scalemxAl -scalemxAr scalerA -rmorphM mxE toRZ -/(maha _ _) maha1.
  by rewrite -invfM sqrtR_sqr ?(ltW (n0 i)) // mulVf // gt_eqF.
have [m [m1 m2 m3]] := hc Y' (fun i h => one i (subsetP sub i h)) T d U pT dec; exists m; split=> //.
- by move=> i h; have := m2 i; rewrite /samp same.
- move=> i h; have := m2 i; rewrite mh // lnD //; last exact: (maha_gt0 pT (samp0 Y0 i)).
  by rewrite ler_subr_addr addrAC.
by move=> t; have [V r s] := m3 t; exists V => //; apply: subset_trans s _; apply: setUS.
Qed.
Lemma exp_gt0 (x : R) : 0 < Rtrigo_def.exp x. Proof. exact/RltP/exp_pos. Qed.
Lemma lnE (x : R) : ln (Rtrigo_def.exp x) = x. Proof. exact: ln_exp. Qed.
Lemma exp_le1 (x : R) : x <= 0 -> Rtrigo_def.exp x <= 1.
Proof.
rewrite le_eqVlt => /orP[/eqP ->|h]; first by rewrite exp_0; exact: lexx.
by have /RltP/ltW := exp_increasing x 0 (elimT (RltP _ _) h); rewrite exp_0.
Qed.
Lemma changed_bound (a c n q m : R) : 0 < a -> 0 < c -> 0 < n -> 0 < q -> ln c + ln n - m <= ln q ->
  Num.min 0 (ln c) - Num.max 0 m <= ln (a + q) - ln (a + n).
Proof.
move=> a0 c0 n0 q0 h; set t := _ - _; have w0 := exp_gt0 t.
have t0 : t <= 0 by rewrite subr_le0; apply: (@le_trans _ _ 0); rewrite ?le_minl ?le_maxr lexx.
have w1 := exp_le1 t0.
have wn : Rtrigo_def.exp t * n <= q.
  rewrite leNgt; apply/negP => lt.
  have wle : ln (Rtrigo_def.exp t * n) <= ln q.
    rewrite lnM // lnE; apply: le_trans h; rewrite addrAC ler_add2r; apply: ler_sub; first by rewrite le_minl lexx orbT.
    by rewrite le_maxr lexx orbT.
  by have /RltP := ln_increasing _ _ (elimT (RltP _ _) q0) (elimT (RltP _ _) lt); rewrite ltNge wle.
rewrite ler_subr_addr -[t]lnE -lnM ?addr_gt0 //; apply: ln_le; first by rewrite mulr_gt0 ?addr_gt0.
by rewrite mulrDr; apply: ler_add => //; rewrite ler_pimull // ltW.
Qed.
Section Student.
Variables (k : nat) (a : R).
Hypotheses (a0 : 0 < a) (cond : student_resists a k X).
Definition scost (Y : 'M[K]_(N, p.+1)) T := mcost (fun q => (a + p.+1%:R) * ln (a + q)) Y T.
Lemma student_excess : exists C : R, exists2 g : R, 0 < g & forall Y, corrupted k X Y -> forall T d U, pd T -> eigdec T d U -> forall l,
  C + g * ln (d 0 l) <= scost Y T - scost Y 1%:M /\ C - g * ln (d 0 l) <= scost Y T - scost Y 1%:M.
Proof.
have [c c0 hc] := eig_layers3; have [g g0 hg] := margin N p a; have [condE condI] := cond.
have b0 : 0 < a + p.+1%:R by rewrite ltr_spaddl ?ler0n.
pose h := N%:R - (a + p.+1%:R) * k%:R; have h0 : 0 < h by rewrite subr_gt0.
pose Ci i := Num.min (Num.min 0 (ln c)) (Num.min (ln a) (ln c) - ln (a + nrm2 (samp X i))).
pose g1 := Num.min g h; have g10 : 0 < g1 by rewrite lt_minr g0.
have g1g : g1 <= g by rewrite le_minl lexx. have g1h : g1 <= h by rewrite le_minl lexx orbT.
exists ((a + p.+1%:R) * \sum_i Ci i), g1 => // Y [Y0 kY] T d U pT dec l.
have [m [m1 m2 m2' m3]] := hc Y Y0 T d U pT dec; pose y l := ln (d 0 l).
have [s hs] := arg_ord y; have [e he] := arg_ord (fun l => - y l); have {}he j : y j <= y e by rewrite -ler_opp2.
pose m' i := if i \in changed Y then 0 else m i; pose f := lay y m' N%:R (a + p.+1%:R).
have my i : (exists l, m' i = y l) \/ 0 <= m' i by rewrite /m'; case: ifP => _; [right | left].
have lay_s (t : R) : t <= 0 -> t <= y s -> f t = - (N%:R * a * t).
  move=> t0 ts; rewrite /f /lay (eq_bigr (fun=> t)) => [|j _]; last by rewrite min_r // (le_trans ts).
  rewrite [X in _ - _ * X](eq_bigr (fun=> t)) => [|j _]; last first.
    by rewrite min_r // /m'; case: ifP => // _; have [j' ->] := m1 j; rewrite (le_trans ts) //; exact: hs.
  rewrite !sumr_const !card_ord -[t *+ p.+1]mulr_natl -[t *+ N]mulr_natl; move: (p.+1%:R) (N%:R) => P M; rring.
have L0 : 0 <= f 0 /\ - (g * y s) <= f 0.
  case: (leP 0 (y s)) => ys; first by rewrite lay_s // mulr0 oppr0 lexx oppr_le0 mulr_ge0 // ltW.
  have L : (g - N%:R * a) * (0 - y s) <= f 0 - f (y s).
    apply: (layers_top my (leqnn _)) => [|t st te]; first exact: ltW.
    have [V rV sV] := m3 t.
    have Wp : (#|[set l | (t <= y l)%R]| < p.+1)%N.
      rewrite -[X in (_ < X)%N]card_ord -cardsT; apply: proper_card; rewrite properT; apply/negP => /eqP /setP /(_ s).
      by rewrite !inE leNgt st.
    have rp := leq_ltn_trans rV Wp.
    have cV := condI V rp.
    have nN : (count_in X V + k <= N)%N.
      rewrite -(ler_nat [numDomainType of R]) -(ler_pmul2l b0); apply: le_trans (ltW cV) _; rewrite mulrC ler_wpmul2r ?ler0n //.
      by rewrite ler_add2l ler_nat ltnW.
    have := hg _ _ nN rp cV => q.
    have sV' : [set i | t <= m' i] \subset inside X V :|: changed Y.
      apply/subsetP => i; rewrite in_set in_setU /m'; case: ifP => hi ti; rewrite ?orbT // orbF.
      by have : i \in [set i | t <= m i] by [rewrite inE]; move/(subsetP sV); rewrite in_setU hi orbF.
    have i1 : #|[set i | t <= m' i]|%:R <= (count_in X V + k)%:R :> R by rewrite ler_nat; exact: card_above sV' kY.
    have i2 : (\rank V)%:R <= #|[set l | t <= y l]|%:R :> R by rewrite ler_nat.
    have i3 : (a + p.+1%:R) * #|[set i | t <= m' i]|%:R <= (a + p.+1%:R) * (count_in X V + k)%:R by rewrite ler_pmul2l.
    have i4 : N%:R * (a + (\rank V)%:R) <= N%:R * a + N%:R * #|[set l | t <= y l]|%:R.
      by rewrite -mulrDr; apply: ler_wpmul2l; rewrite ?ler0n // ler_add2l.
    rewrite ler_subr_addr addrAC ler_subl_addr [g + _]addrC [X in _ <= X]addrC.
    exact: le_trans (ler_add i3 (lexx g)) (le_trans q i4).
  have e1 : - (g * y s) <= f 0.
    move: L; rewrite (lay_s (y s)) ?(ltW ys) //; move: (f 0) (N%:R * a) (y s) => u v w q; apply: (@le_trans _ _ ((g - v) * (0 - w) - v * w)); last by rewrite -ler_subr_addr opprK; move: q; rewrite opprK.
    by rewrite le_eqVlt; apply/orP; left; apply/eqP; rring.
  split=> //; apply: le_trans e1; by rewrite oppr_ge0 pmulr_rle0 // ltW.
have low : (a + p.+1%:R) * (\sum_i Ci i) + f 0 + (N%:R * (\sum_l (y l - Num.min (y l) 0)) - (a + p.+1%:R) * (\sum_(i in changed Y) Num.max 0 (m i))) <= scost Y T - scost Y 1%:M.
  rewrite /scost /mcost (lndet_eig pT dec) det1 toR1 ln1 mulr0 addr0 -!mulr_sumr.
  have -> : (a + p.+1%:R) * (\sum_i Ci i) + f 0 + (N%:R * (\sum_l (y l - Num.min (y l) 0)) - (a + p.+1%:R) * (\sum_(i in changed Y) Num.max 0 (m i))) =
      (a + p.+1%:R) * (\sum_i (Ci i - Num.min (m' i) 0 - (if i \in changed Y then Num.max 0 (m i) else 0))) + N%:R * (\sum_l y l).
    rewrite /f /lay !sumrB [\sum_(i in changed Y) _]big_mkcond /=.
    move: (p.+1%:R) (N%:R) (\sum_i (if _ then _ else _)) (\sum_i Ci i) (\sum_l y l) (\sum_l Num.min (y l) 0) (\sum_i Num.min (m' i) 0) => P M z u v w x; rring.
  rewrite [X in _ <= X]addrAC ler_add2r -mulrBr -sumrB ler_pmul2l //; apply: ler_sum => i _.
  have q0 := maha_gt0 pT (samp0 Y0 i); have n0 := nrm2_gt0 (samp0 Y0 i); rewrite maha1 -/(nrm2 _) /m'; case: ifP => hi.
    rewrite min_r ?lexx // subr0; apply: le_trans (changed_bound a0 c0 n0 q0 (m2' i hi)); by rewrite ler_add2r le_minl lexx.
  have ei : samp X i = samp Y i by move/negbT: hi; rewrite inE negbK /samp => /eqP ->.
  rewrite subr0; apply: (@le_trans _ _ (Num.min (ln a) (ln c) - ln (a + nrm2 (samp X i)) - Num.min (m i) 0)).
    by rewrite ler_add2r le_minl lexx orbT.
  rewrite ei addrAC ler_add2r; have := m2 i (negbT hi) => m2i; case: (leP (m i) 0) => hm.
    apply: (@le_trans _ _ (ln c - m i)); first by rewrite ler_add2r le_minl lexx orbT.
    by apply: le_trans m2i _; apply: ln_le => //; rewrite ler_addr ltW.
  by rewrite subr0; apply: (@le_trans _ _ (ln a)); [rewrite le_minl lexx | apply: ln_le => //; rewrite ler_addl ltW].
have pos j : 0 <= y j - Num.min (y j) 0 by rewrite subr_ge0 le_minl lexx.
have ye : y e - Num.min (y e) 0 = Num.max 0 (y e).
  by case: (leP (y e) 0) => q; rewrite ?subrr ?subr0 //.
have up : h * Num.max 0 (y e) <= N%:R * (\sum_l (y l - Num.min (y l) 0)) - (a + p.+1%:R) * (\sum_(i in changed Y) Num.max 0 (m i)).
  have Y1 : 0 <= Num.max 0 (y e) by rewrite le_maxr lexx.
  rewrite mulrBl; apply: ler_sub.
    by apply: ler_wpmul2l; [exact: ler0n | rewrite (bigD1 e) //= ye ler_addl; apply: sumr_ge0].
  rewrite -mulrA; apply: ler_wpmul2l; first exact: ltW.
  apply: (@le_trans _ _ (\sum_(i in changed Y) Num.max 0 (y e))).
    by apply: ler_sum => i _; have [j ->] := m1 i; rewrite le_maxl !le_maxr lexx he orbT.
  by rewrite sumr_const -[_ *+ #|_|]mulr_natl ler_wpmul2r // ler_nat.
have [f0 f1] := L0; split; apply: le_trans low; rewrite -addrA ler_add2l.
- rewrite -[X in X <= _]add0r; apply: ler_add => //; apply: le_trans up; apply: (@le_trans _ _ (g1 * Num.max 0 (y e))).
    by rewrite ler_pmul2l // le_maxr he orbT.
  by rewrite ler_wpmul2r // le_maxr lexx.
- have u0 : 0 <= h * Num.max 0 (y e) by rewrite mulr_ge0 ?(ltW h0) // le_maxr lexx.
  rewrite -[X in X <= _]addr0; apply: ler_add; last exact: le_trans up.
  case: (leP 0 (y s)) => ys.
    by apply: le_trans f0; rewrite oppr_le0 mulr_ge0 ?(ltW g10) // (le_trans ys (hs l)).
  apply: le_trans f1; rewrite ler_opp2; apply: (@le_trans _ _ (g1 * y s)).
    by rewrite ler_nmul2r.
  by rewrite ler_pmul2l //; exact: hs.
Qed.
End Student.
End Corrupted.
