(* Bounds on the solutions of Student's equation when some samples are small or large, and the iterations started from the
   sample covariance matrix.  Nothing here models code. *)
From Coq Require Import Reals Lra Classical_Prop.
From mathcomp Require Import all_ssreflect all_algebra.
From mathcomp Require Import zify.
From Verif Require Import RealsMC RealTac RealTac2 Star FunCalc Spec_covariance Spec_fixedpoint Spec_exist Proofs_mest Proofs_cost Proofs_unique Proofs_unique2
  Compact Proofs_estimators Proofs_converge Props_cost Props_robust Props_unique Props_converge Proofs_exist Proofs_exist2 Spec_breakdown Proofs_breakdown Proofs_breakdown2
  Proofs_breakdown3.
Set Implicit Arguments.
Unset Strict Implicit.
Unset Printing Implicit Defensive.
Local Open Scope ring_scope.
Import GRing.Theory Num.Theory Order.TTheory.

Section Between.
Variable K : starField.
Local Notation ofR := (@ofR K).
Local Notation toR := (@toR K).
Lemma le_exp (q B : R) : 0 < q -> ln q <= B -> q <= Rtrigo_def.exp B.
Proof.
move=> q0 h; rewrite -[q](exp_ln q); last exact/RltP.
case: (ltgtP (ln q) B) h => // [lt|->] _; last by rewrite lexx.
by apply/ltW/RltP/exp_increasing/RltP.
Qed.
Lemma exp_le (q B : R) : 0 < q -> B <= ln q -> Rtrigo_def.exp B <= q.
Proof.
move=> q0 h; rewrite -[q in X in _ <= X](exp_ln q); last exact/RltP.
case: (ltgtP B (ln q)) h => // [lt|->] _; last by rewrite lexx.
by apply/ltW/RltP/exp_increasing/RltP.
Qed.
Lemma excess_between p (T : 'M[K]_p.+1) d U (C D g : R) : pd T -> eigdec T d U -> 0 < g ->
  (forall l, C + g * ln (d 0 l) <= D /\ C - g * ln (d 0 l) <= D) -> between (Rtrigo_def.exp (- ((D - C) / g))) (Rtrigo_def.exp ((D - C) / g)) T.
Proof.
move=> pT dec g0 h; have d0 := eigdec_pos pT dec; split.
  apply: (eig_low dec) => j; apply: exp_le => //; have [_ q] := h j; rewrite ler_oppl ler_pdivl_mulr // mulNr mulrC ler_subr_addl //.
apply: (eig_up dec) => j; apply: le_exp => //; have [q _] := h j; by rewrite ler_pdivl_mulr // mulrC ler_subr_addl.
Qed.
Lemma maha_between p (S : 'M[K]_p.+1) l M x : pd S -> 0 < l -> 0 < M -> between l M S -> nrm2 x / M <= maha S x <= nrm2 x / l.
Proof.
move=> pS l0 M0 [lo up]; have p1 : pd (1%:M : 'M[K]_p.+1) by exact: pd1.
have e (c : R) : 0 < c -> ofR c^-1 *: (ofR c *: (1%:M : 'M[K]_p.+1)) = 1%:M.
  by move=> c0; rewrite scalerA -rmorphM mulVf ?gt_eqF // rmorph1 scale1r.
apply/andP; split.
  rewrite ler_pdivr_mulr // mulrC /nrm2 -maha1; apply: maha_loewner => //.
have -> : nrm2 x / l = l^-1 * maha 1%:M x by rewrite maha1 mulrC.
apply: maha_loewner => //; rewrite /loewner -(e l l0) -scalerBr; apply: psdZ lo; by rewrite ofR_ge0 invr_ge0 ltW.
Qed.
Lemma student_start_excess N p (a : R) (s0 : 'M[K]_p.+1) : 0 < a -> pd s0 -> exists D : R, forall Y : 'M[K]_(N, p.+1), (forall i, row i Y != 0) -> scost a Y s0 - scost a Y 1%:M <= D.
Proof.
move=> a0 p0; have dec := specdecP (pd_herm p0); have d0 := eigdec_pos p0 dec.
have [s hs] := arg_ord (fun j => (specdec s0).1 0 j); pose l := Num.max 1 ((specdec s0).1 0 s)^-1; have l1 : 1 <= l by rewrite le_maxr lexx.
have l0 : 0 < l by exact: lt_le_trans l1.
have lo : loewner 1%:M (ofR l *: s0).
  apply: (eig_lo dec) => j; apply: (@le_trans _ _ (((specdec s0).1 0 s)^-1 * (specdec s0).1 0 j)).
    by rewrite mulrC ler_pdivl_mulr // mul1r; exact: hs.
  by rewrite ler_pmul2r // le_maxr lexx orbT.
have b0 : 0 < a + p.+1%:R by rewrite ltr_spaddl ?ler0n.
exists ((a + p.+1%:R) * (N%:R * ln l) + N%:R * ln (toR (\det s0))) => Y Y0.
rewrite /scost /mcost det1 toR1 ln1 mulr0 addr0 -!mulr_sumr addrAC -mulrBr ler_add2r ler_pmul2l //.
rewrite -sumrB mulr_natl -[N in _ *+ N]card_ord -sumr_const; apply: ler_sum => i _.
have q0 := maha_gt0 p0 (samp0 Y0 i); have q1 := maha_gt0 (pd1 K p.+1) (samp0 Y0 i).
rewrite ler_subl_addr -lnM ?addr_gt0 //; apply: ln_le; first exact: addr_gt0.
rewrite mulrDr; apply: ler_add; first by rewrite ler_pemull // ltW.
exact: maha_loewner (pd1 _ _) p0 lo.
Qed.
Lemma student_resists_condition a N p m (X Y : 'M[K]_(N, p)) : 0 < a -> student_resists a m X -> corrupted m X Y -> student_condition a Y.
Proof.
move=> a0 [_ h] c V r; apply: le_lt_trans (h V r); apply: ler_wpmul2l; first by rewrite addr_ge0 ?ler0n // ltW.
by rewrite ler_nat count_corrupted.
Qed.
(* the equation, seen by the trace and by a vector *)
Lemma student_total a N p (X : 'M[K]_(N, p.+1)) S : 0 < a -> (0 < N)%N -> student_solution a X S ->
  (a + p.+1%:R) * (\sum_i (a + maha S (samp X i))^-1) = N%:R.
Proof.
move=> a0 N0 [pS eS]; have aq i : 0 < a + maha S (samp X i) by rewrite ltr_spaddl // maha_ge0.
have NR : 0 < N%:R :> R by rewrite ltr0n.
have : p.+1%:R = \sum_i (a + p.+1%:R) / N%:R / (a + maha S (samp X i)) * maha S (samp X i) :> R.
  rewrite -[LHS](toR_nat K) -mxtrace1 -(mulVmx (pd_unit pS)) {2}eS tr_sum raddf_sum; apply: eq_bigr => i _.
  by rewrite /= toRZ.
move=> e; have : N%:R * p.+1%:R = (a + p.+1%:R) * (N%:R - a * \sum_i (a + maha S (samp X i))^-1).
  rewrite {1}e mulr_sumr mulr_sumr -[X in _ = _ * (X - _)]mulr1 mulr_natl -[X in _ = _ * (_ *+ X - _)]card_ord -sumr_const -sumrB mulr_sumr; apply: eq_bigr => i _.
  have -> : 1 - a * (a + maha S (samp X i))^-1 = maha S (samp X i) / (a + maha S (samp X i)).
    by rewrite -{1}(divff (lt0r_neq0 (aq i))) -mulrBl [a + _]addrC addrK.
  by rewrite weightN.
move: (\sum_i _) (p.+1%:R) (N%:R) => u P M h; have an : a != 0 by rewrite gt_eqF.
apply: (mulfI an); have -> : a * ((a + P) * u) = (a + P) * M - (a + P) * (M - a * u) by rring.
by rewrite -h; rring.
Qed.
Lemma rqf_wsum N p (w : 'I_N -> R) (X : 'M[K]_(N, p)) v : rqf (wsum w X) v = \sum_i w i * sq (((adj (samp X i)) *m v) 0 0).
Proof. by rewrite /rqf /wsum qf_sum raddf_sum; apply: eq_bigr => i _; rewrite -/(rqf _ _) rqfZ rqf_outer. Qed.
(* the share of the samples other than 0 on a line *)
Lemma student_line a N p (X : 'M[K]_(N, p.+1)) S (x : 'cV[K]_p.+1) (r : 'I_N -> R) (B : {set 'I_N}) : 0 < a -> (0 < N)%N -> x != 0 -> student_solution a X S ->
  (forall i, i \in B -> samp X i = ofR (r i) *: x) ->
  (a + p.+1%:R) * (\sum_(i in B) r i ^+ 2 * maha S x / (a + r i ^+ 2 * maha S x)) <= N%:R.
Proof.
move=> a0 N0 x0 [pS eS] hB; have g0 := maha_gt0 pS x0; have NR : 0 < N%:R :> R by rewrite ltr0n.
have b0 : 0 < a + p.+1%:R by rewrite ltr_spaddl ?ler0n.
have aq i : 0 < a + maha S (samp X i) by rewrite ltr_spaddl // maha_ge0.
pose z := invmx S *m x; have hS := pd_herm pS.
have gz : rqf S z = maha S x by rewrite /rqf -qf_inv // pd_unit.
have dot i : i \in B -> sq ((adj (samp X i) *m z) 0 0) = r i ^+ 2 * maha S x ^+ 2.
  move=> iB; have := ofR_maha x pS; rewrite /qf /sesq -mulmxA -/z => e.
  by rewrite hB // adjZ cj_ofR -scalemxAl mxE -e /sq -rmorphM cj_ofR -rmorphM toRK; rewrite mulrACA !expr2.
have mh i : i \in B -> maha S (samp X i) = r i ^+ 2 * maha S x.
  move=> iB; rewrite hB // /maha adjZ cj_ofR -scalemxAl -scalemxAl -scalemxAr scalerA -rmorphM mxE toRZ //.
have := gz; rewrite {1}eS rqf_wsum (bigID (mem B)) /= => e.
have : \sum_(i in B) (a + p.+1%:R) / N%:R / (a + maha S (samp X i)) * sq ((adj (samp X i) *m z) 0 0) <= maha S x.
  rewrite -e ler_addl; apply: sumr_ge0 => i _; rewrite mulr_ge0 ?sq_ge0 // !divr_ge0 ?ler0n ?(ltW b0) //; exact: ltW.
have -> : \sum_(i in B) (a + p.+1%:R) / N%:R / (a + maha S (samp X i)) * sq ((adj (samp X i) *m z) 0 0) =
    (a + p.+1%:R) * (\sum_(i in B) r i ^+ 2 * maha S x / (a + r i ^+ 2 * maha S x)) * (maha S x / N%:R).
  rewrite mulr_sumr mulr_suml; apply: eq_bigr => i iB; rewrite dot // mh //; move: ((a + r i ^+ 2 * maha S x)^-1) (N%:R^-1) (a + p.+1%:R) (maha S x) (r i ^+ 2) => u v b g t; rewrite expr2; rring.
by move: ((a + p.+1%:R) * \sum_(i in B) _) => s; rewrite mulrA ler_pdivr_mulr // [maha S x * _]mulrC ler_pmul2r.
Qed.
Lemma barith1 (a g G n : R) : 0 < a -> 0 < G -> G <= g -> 0 <= n ->
  n < g / (a + g) + n * ((1 + n * a * (a + G) / G ^+ 2) * g / (a + (1 + n * a * (a + G) / G ^+ 2) * g)).
Proof.
move=> a0 G0 Gg n0; set t := 1 + _; have g0 : 0 < g by exact: lt_le_trans Gg.
have t1 : 1 <= t by rewrite /t ler_addl !mulr_ge0 ?invr_ge0 ?exprn_ge0 ?addr_ge0 // ltW.
have t0 : 0 < t by exact: lt_le_trans t1.
have tg : 0 < a + t * g by rewrite addr_gt0 // mulr_gt0.
have ag : 0 < a + g by rewrite addr_gt0.
have key : n * a * (a + g) < g * (a + t * g).
  have e : (t - 1) * G ^+ 2 = n * a * (a + G) by rewrite /t addrC addKr divfK // expf_neq0 // gt_eqF.
  have le : n * a * (a + g) <= (t - 1) * g ^+ 2.
    have G2 : 0 < G ^+ 2 by rewrite exprn_gt0.
    have c0 : 0 <= n * a by rewrite mulr_ge0 // ltW.
    rewrite -(ler_pmul2r G2) [X in _ <= X]mulrAC e; move: (n * a) c0 => c c0; rewrite -mulrA -[X in _ <= X]mulrA; apply: ler_wpmul2l => //.
    rewrite !mulrDl; apply: ler_add; first by rewrite ler_pmul2l // ler_sqr ?nnegrE // ltW.
    by rewrite !expr2 mulrCA !ler_pmul2l.
  apply: le_lt_trans le _; have := mulr_gt0 g0 a0; have := exprn_gt0 2 g0; rewrite !expr2; move: (t) => x h1 h2; rnra2.
have -> : n * (t * g / (a + t * g)) = n - n * a / (a + t * g).
  have -> : t * g / (a + t * g) = 1 - a / (a + t * g) by rewrite -{1}(divff (lt0r_neq0 tg)) -mulrBl [a + _]addrC addrK.
  by rewrite mulrBr mulr1 mulrA.
rewrite addrCA ltr_addl subr_gt0 ltr_pdivr_mulr // mulrAC ltr_pdivl_mulr //.
Qed.
Lemma barith2 (a P N k Q d : R) : 0 < a -> 1 <= P -> 1 <= N -> 0 <= Q -> 0 <= k -> k + 1 <= N \/ k = N -> N * a <= (a + P) * k ->
  0 < d -> d < 1 -> d * (N * (a + Q)) <= a * (a + P) -> N < (a + P) * (k / (a + d) + (N - k) / (a + Q)).
Proof.
move=> a0 P1 N1 Q0 k0 hk h d0 d1 hd; have ad : 0 < a + d by rewrite addr_gt0.
have aQ : 0 < a + Q by rewrite ltr_paddr.
have aP : 0 < a + P by rewrite addr_gt0 // (lt_le_trans ltr01).
case: hk => [k1|->]; last first.
  rewrite subrr mul0r addr0 mulrCA -[X in X < _]mulr1 ltr_pmul2l ?(lt_le_trans ltr01) // ltr_pdivl_mulr // mul1r ltr_add2l.
  exact: lt_le_trans d1 P1.
have h1 : N * a / (a + d) <= (a + P) * (k / (a + d)) by rewrite mulrA ler_pmul2r // invr_gt0.
have h2 : (a + P) / (a + Q) <= (a + P) * ((N - k) / (a + Q)).
  by rewrite ler_pmul2l // -[X in X <= _]mul1r ler_pmul2r ?invr_gt0 // ler_subr_addl.
rewrite mulrDr; apply: lt_le_trans (ler_add h1 h2).
have e : N * a / (a + d) = N - N * d / (a + d) by rewrite -{2}[N](mulfK (lt0r_neq0 ad)) -mulrBl mulrDr addrK.
rewrite e addrAC -addrA ltr_addl subr_gt0 ltr_pdivr_mulr // mulrAC ltr_pdivl_mulr //.
have Nd : 0 < N * d by rewrite mulr_gt0 // (lt_le_trans ltr01).
apply: (@le_lt_trans _ _ (a * (a + P))); first by rewrite mulrAC [_ * d]mulrC.
by rewrite [X in X < _]mulrC ltr_pmul2l // ltr_addl.
Qed.
Lemma mahaZ p (S : 'M[K]_p) (c : R) x : maha S (ofR c *: x) = c ^+ 2 * maha S x.
Proof. by rewrite /maha adjZ cj_ofR -scalemxAl -scalemxAl -scalemxAr scalerA -rmorphM mxE toRZ expr2. Qed.
Section Necessary.
Variables (a : R) (N p m : nat) (X : 'M[K]_(N, p.+1)) (l M : R).
Hypotheses (a0 : 0 < a) (N0 : (0 < N)%N) (X0 : forall i, row i X != 0) (l0 : 0 < l) (M0 : 0 < M).
Hypothesis H : forall Y, corrupted m X Y -> exists2 S, student_solution a Y S & between l M S.
Let b0 : 0 < a + p.+1%:R. Proof. by rewrite ltr_spaddl ?ler0n. Qed.
Lemma not_small : (a + p.+1%:R) * m%:R < N%:R * a.
Proof.
rewrite ltNge; apply/negP => h.
have [B _ cB] := some_of [set: 'I_N] m; rewrite cardsT card_ord in cB.
have hB : N%:R * a <= (a + p.+1%:R) * #|B|%:R.
  rewrite cB /minn; case: ltnP => // _; by rewrite mulrC ler_wpmul2r ?ler0n // ler_addl ler0n.
have n0 i := nrm2_gt0 (samp0 X0 i); pose Q := \sum_i nrm2 (samp X i) / l.
have Qi i : nrm2 (samp X i) / l <= Q by rewrite /Q (bigD1 i) //= ler_addl; apply: sumr_ge0 => j _; rewrite divr_ge0 // ltW.
have Q0 : 0 < Q by apply: lt_le_trans (Qi (Ordinal N0)); rewrite divr_gt0.
have NR : 1 <= N%:R :> R by rewrite ler1n. have PR : 1 <= p.+1%:R :> R by rewrite ler1n.
have Np : 0 < N%:R :> R by rewrite ltr0n.
pose c := a * (a + p.+1%:R) / (N%:R * (a + Q)); have aQ : 0 < a + Q by rewrite addr_gt0.
have c0 : 0 < c by rewrite divr_gt0 // mulr_gt0.
pose d := Num.min c 2%:R^-1; have h0 : 0 < 2%:R^-1 :> R by rewrite invr_gt0 ltr0n.
have d0 : 0 < d by rewrite lt_minr c0.
have d1 : d < 1 by rewrite lt_minl invf_lt1 ?ltr1n ?ltr0n // orbT.
have dc : d * (N%:R * (a + Q)) <= a * (a + p.+1%:R) by rewrite -ler_pdivl_mulr ?mulr_gt0 // le_minl lexx.
pose e := R_sqrt.sqrt (d / Q); have dQ : 0 < d / Q by rewrite divr_gt0.
have e0 : 0 < e by apply/RltP/sqrt_lt_R0/RltP.
have e2 : e ^+ 2 * Q = d by rewrite expr2 sqrtR_sqr ?(ltW dQ) // divfK // gt_eqF.
pose Y : 'M[K]_(N, p.+1) := \matrix_i if i \in B then ofR e *: row i X else row i X.
have sY i : samp Y i = if i \in B then ofR e *: samp X i else samp X i.
  by rewrite /samp rowK; case: ifP => _ //; rewrite linearZ.
have cY : corrupted m X Y.
  split=> [i|]; first by rewrite rowK; case: ifP => _ //; rewrite scaler_eq0 negb_or X0 fmorph_eq0 gt_eqF.
  apply: leq_trans (_ : #|B| <= _)%N; last by rewrite cB geq_minl.
  by apply: subset_leq_card; apply/subsetP => i; rewrite inE rowK; case: ifP => // _; rewrite eqxx.
have [S sS bS] := H cY; have pS := sS.1.
have qi i : maha S (samp X i) <= Q by apply: le_trans (Qi i); have /andP[_] := maha_between (samp X i) pS l0 M0 bS.
have q0 i := maha_ge0 (samp X i) pS.
have tot := student_total a0 N0 sS.
have : (a + p.+1%:R) * (#|B|%:R / (a + d) + (N%:R - #|B|%:R) / (a + Q)) <= N%:R.
  rewrite -[X in _ <= X]tot ler_pmul2l // (bigID (mem B)) /=; apply: ler_add.
    rewrite -sum1_card natr_sum mulr_suml; apply: ler_sum => i iB; rewrite mul1r sY iB mahaZ lef_pinv ?posrE; [|by rewrite addr_gt0|by rewrite ltr_spaddl // mulr_ge0 ?exprn_ge0 // ltW].
    by rewrite ler_add2l -e2 ler_pmul2l ?exprn_gt0.
  have -> : N%:R - #|B|%:R = \sum_(i | i \notin B) 1 :> R.
    have : N%:R = \sum_(i < N) 1 :> R by rewrite sumr_const card_ord.
    by rewrite (bigID (mem B)) /= sumr_const => {1}->; rewrite addrC addKr.
  rewrite mulr_suml; apply: ler_sum => i iB; rewrite mul1r sY (negbTE iB) lef_pinv ?posrE; [|by []|by rewrite ltr_spaddl].
  by rewrite ler_add2l.
rewrite leNgt => /negP; apply; apply: barith2 => //; [exact: ltW | exact: ler0n |].
by rewrite cB /minn; case: ltnP => lt; [left; rewrite -[1]/(1%:R) -natrD ler_nat addn1 | right].
Qed.
Lemma m_lt : (m < N)%N.
Proof.
rewrite -(ltr_nat [numDomainType of R]) -(ltr_pmul2l b0); apply: lt_le_trans not_small _; rewrite mulrC; apply: ler_wpmul2r; first exact: ler0n.
by rewrite ler_addl ler0n.
Qed.
Lemma not_large : (a + p.+1%:R) * m%:R < N%:R.
Proof.
rewrite ltNge; apply/negP => h; pose i0 := Ordinal N0.
have [B sB cB] := some_of (~: [set i0]) m.
have {}cB : #|B| = m by rewrite cB; have := cardsC1 i0; rewrite card_ord => ->; apply/minn_idPl; rewrite -ltnS prednK //; exact: m_lt.
have i0B : i0 \notin B by apply/negP => /(subsetP sB); rewrite !inE eqxx.
pose x := samp X i0; have x0 : x != 0 by exact: samp0.
have n0 := nrm2_gt0 x0; pose G := nrm2 x / M; have G0 : 0 < G by rewrite divr_gt0.
pose t := 1 + m%:R * a * (a + G) / G ^+ 2.
have t1 : 1 <= t by rewrite ler_addl !mulr_ge0 ?ler0n ?invr_ge0 ?exprn_ge0 ?addr_ge0 // ltW.
have t0 : 0 < t by exact: lt_le_trans t1.
pose r := R_sqrt.sqrt t; have r2 : r ^+ 2 = t by rewrite expr2 sqrtR_sqr ?(ltW t0).
have r0 : 0 < r by apply/RltP/sqrt_lt_R0/RltP.
pose Y : 'M[K]_(N, p.+1) := \matrix_i if i \in B then ofR r *: row i0 X else row i X.
have cY : corrupted m X Y.
  split=> [i|]; first by rewrite rowK; case: ifP => _ //; rewrite scaler_eq0 negb_or X0 fmorph_eq0 gt_eqF.
  rewrite -[X in (_ <= X)%N]cB.
  by apply: subset_leq_card; apply/subsetP => i; rewrite inE rowK; case: ifP => // _; rewrite eqxx.
have [S sS bS] := H cY; have pS := sS.1; have g0 := maha_gt0 pS x0.
have Gg : G <= maha S x by have /andP[] := maha_between x pS l0 M0 bS.
have sY i : i \in i0 |: B -> samp Y i = ofR (if i \in B then r else 1) *: x.
  by rewrite !inE /samp rowK; case: ifP => [_ _|_]; rewrite ?linearZ //= orbF => /eqP ->; rewrite rmorph1 scale1r.
have := student_line a0 N0 x0 sS sY; rewrite big_setU1 //= (negbTE i0B) expr1n mul1r.
have -> : \sum_(i in B) (if i \in B then r else 1) ^+ 2 * maha S x / (a + (if i \in B then r else 1) ^+ 2 * maha S x) = m%:R * (t * maha S x / (a + t * maha S x)).
  rewrite (eq_bigr (fun=> t * maha S x / (a + t * maha S x))) => [|i ->]; last by rewrite r2.
  by rewrite sumr_const cB mulr_natl.
have := barith1 a0 G0 Gg (ler0n _ m); rewrite -/t => lt le; have := le_trans le h; rewrite ler_pmul2l // leNgt => /negP; exact.
Qed.
Lemma student_breaks : student_resists a m X.
Proof.
split=> [|V rV]; first exact: not_large.
case: (posnP (\rank V)) => [r0|r0].
  have -> : count_in X V = 0%N by have := inside0 X0 r0; rewrite /inside /count_in => ->.
  by rewrite r0 add0n addr0; exact: not_small.
have [Y cY eY] := worst m X0 r0; have [S sS _] := H cY; have := student_necessary cY.1 a0 sS rV; rewrite eY.
case: (leqP N (count_in X V + m)) => // _; rewrite mulrC ltr_pmul2l ?ltr0n // ltr_add2l ltr_nat => lt; by have := ltn_trans rV lt; rewrite ltnn.
Qed.
End Necessary.
Section Start.
Variables (a : R) (N p : nat) (Y : 'M[K]_(N, p.+1)).
Hypotheses (a0 : 0 < a) (N0 : (0 < N)%N) (sp : spanning Y).
Local Notation F := (mstep (stu_w N p.+1 a) Y).
Let b0 : 0 < a + p.+1%:R. Proof. by rewrite ltr_spaddl ?ler0n. Qed.
Fixpoint qbound k : R := if k is k'.+1 then N%:R * (a + qbound k') / (a + p.+1%:R) else N%:R.
Lemma qbound_ge0 k : 0 <= qbound k.
Proof.
elim: k => [|k IH] /=; first exact: ler0n.
by apply: divr_ge0; [apply: mulr_ge0; [exact: ler0n | apply: addr_ge0 => //; exact: ltW] | exact: ltW].
Qed.
Lemma weight_above (w : 'I_N -> R) i : (forall j, 0 <= w j) -> loewner (ofR (w i) *: outer (samp Y i)) (wsum w Y).
Proof.
move=> w0; rewrite /loewner /wsum (bigD1 i) //= addrC addKr; elim/big_rec: _ => [|j T _ pT]; first exact: psd0.
by apply: psdD => //; apply: psdZ; [rewrite ofR_ge0 | exact: psd_outer].
Qed.
Lemma student_bounds k i : let S := iter k F (wsum (fun=> N%:R^-1) Y) in pd S /\ maha S (samp Y i) <= qbound k.
Proof.
have NR : 0 < N%:R :> R by rewrite ltr0n.
have n1 : 0 < N%:R^-1 :> R by rewrite invr_gt0.
elim: k => [|k [pk hk]] /=.
  have p0 : pd (wsum (fun=> N%:R^-1) Y) by exact: wsum_pd.
  split=> //; have := maha_above p0 n1 (weight_above i (fun=> ltW n1)); by rewrite -ler_pdivl_mull // invrK mulr1.
have pF := student_mstep_pd a0 sp pk; split=> //; set S := iter k _ _ in pk hk pF *.
have q0 j := maha_ge0 (samp Y j) pk; have aq j : 0 < a + maha S (samp Y j) by rewrite ltr_spaddl.
have w0 j : 0 < stu_w N p.+1 a (maha S (samp Y j)) by rewrite /stu_w !divr_gt0.
have := maha_above pF (w0 i) (weight_above i (fun j => ltW (w0 j))); rewrite -ler_pdivl_mull // mulr1 => h; apply: le_trans h _.
rewrite /stu_w 2!invfM !invrK [_^-1 * N%:R]mulrC mulrAC ler_pmul2r ?invr_gt0 // ler_pmul2l // ler_add2l //.
Qed.
Lemma student_explodes M k i (e : 'cV[K]_p.+1) : (\sum_j sq (e j 0)) = 1 -> loewner (iter k F (wsum (fun=> N%:R^-1) Y)) (ofR M *: 1%:M) ->
  sq (((adj (samp Y i)) *m e) 0 0) <= qbound k * M.
Proof.
move=> e1 up; have [pk hk] := student_bounds k i; set S := iter k _ _ in up pk hk.
have le : rqf S e <= M.
  have := rqf_loewner e up; rewrite rqfZ; have -> : rqf 1%:M e = 1 by rewrite /rqf qf1 -e1 normcol raddf_sum; apply: eq_bigr.
  by rewrite mulr1.
apply: le_trans (CSm (samp Y i) e pk) _; apply: ler_pmul => //; [exact: maha_ge0 | exact/toR_ge0/pd_qf_ge0].
Qed.
End Start.
Lemma student_default_start a N p (X : 'M[K]_(N, p.+1)) (M : R) it : 0 < a -> (0 < N)%N -> (forall i, row i X != 0) -> student_resists a 1 X ->
  exists Y, [/\ corrupted 1 X Y, spanning Y & forall k, (k <= it)%N -> ~ loewner (iter k (mstep (stu_w N p.+1 a) Y) (wsum (fun=> N%:R^-1) Y)) (ofR M *: 1%:M)].
Proof.
move=> a0 N0 X0 res; pose i0 := Ordinal N0.
pose r := 1 + Num.max 0 M * \sum_(k < it.+1) qbound a N p k.
have m0 : 0 <= Num.max 0 M by rewrite le_maxr lexx.
have t0 : 0 <= Num.max 0 M * \sum_(k < it.+1) qbound a N p k.
  by rewrite mulr_ge0 // sumr_ge0 // => k _; exact: qbound_ge0.
have r1 : 1 <= r by rewrite ler_addl.
pose y : 'rV[K]_p.+1 := ofR r *: delta_mx 0 ord0.
have y0 : y != 0.
  rewrite scaler_eq0 fmorph_eq0 negb_or gt_eqF ?(lt_le_trans ltr01) //=; apply/negP => /eqP /matrixP /(_ 0 ord0) /eqP; by rewrite !mxE !eqxx oner_eq0.
pose Y : 'M[K]_(N, p.+1) := \matrix_i if i == i0 then y else row i X.
have cY : corrupted 1 X Y.
  split=> [i|]; first by rewrite rowK; case: ifP.
  apply: leq_trans (_ : #|[set i0]| <= 1)%N; last by rewrite cards1.
  apply: subset_leq_card; apply/subsetP => i; rewrite !inE rowK; case: (i == i0) => //; by rewrite eqxx.
have sp := student_condition_spanning a0 (student_resists_condition a0 res cY).
exists Y; split=> // k kit up; pose e : 'cV[K]_p.+1 := delta_mx ord0 0.
have d1 : \sum_l sq (e l 0) = 1.
  rewrite (bigD1 ord0) //= big1 => [|l /negbTE lj]; first by rewrite mxE !eqxx /sq rmorph1 mulr1 toR1 addr0.
  by rewrite mxE lj /sq mul0r raddf0.
have := student_explodes a0 N0 sp i0 d1 up.
have -> : sq ((adj (samp Y i0) *m e) 0 0) = r ^+ 2.
  rewrite mxE (bigD1 ord0) //= big1 => [|l /negbTE lj]; last by rewrite !mxE lj mulr0.
  by rewrite adjE [e _ _]mxE !eqxx mulr1 addr0 /samp rowK eqxx !mxE !eqxx mulr1 /sq cj_ofR cj_ofR -rmorphM toRK expr2.
move=> le; have : r ^+ 2 <= r - 1.
  apply: le_trans le _; rewrite /r addrC addKr mulrC; have qk := qbound_ge0 N p a0 k.
  apply: (@le_trans _ _ (Num.max 0 M * qbound a N p k)).
    by apply: ler_wpmul2r => //; rewrite le_maxr lexx orbT.
  apply: ler_wpmul2l => //; rewrite (bigD1 (Ordinal (kit : (k < it.+1)%N))) //= ler_addl; apply: sumr_ge0 => j _; exact: qbound_ge0.
rewrite leNgt => /negP; apply; move: r1; move: (r) => x x1; rnra2.
Qed.
End Between.
