(* The equation solved by the Huber functions as they are written (weights beta max(1, q/lambda)): its cost, existence and
   uniqueness of its solution, and the contraction of the update when the samples near the solution span the space. *)
From Coq Require Import Reals Lra Epsilon Classical_Prop.
From mathcomp Require Import all_ssreflect all_algebra.
From Verif Require Import RealsMC RealTac RealTac2 Star FunCalc Model_covariance Spec_covariance Spec_fixedpoint Proofs_mest
  Proofs_cost Props_cost Props_robust Props_robust2 Proofs_unique Proofs_unique2 Props_unique Compact Proofs_converge Props_converge Proofs_exist Proofs_exist2 Proofs_major.
Set Implicit Arguments.
Unset Strict Implicit.
Unset Printing Implicit Defensive.
Local Open Scope ring_scope.
Import GRing.Theory Num.Theory Order.TTheory.

Lemma lin1 (A B C E G q lb : R) : A <= B -> B <= q - lb -> C <= E - G -> E + E = lb -> E + G + (A + C) <= q.
Proof. by move=> h1 h2 h3 h4; rewrite -h4 in h2; rlra. Qed.
Lemma lin2 (A B C E G q lb : R) : A <= B -> B <= q - lb -> E + E = lb -> q <= E + G + (A + C) -> E - G <= C.
Proof. by move=> h1 h2 h3; rewrite -h3 in h2 => h4; rlra. Qed.
Lemma lin3 (t N D P Ra Rb L ld E1 E2 : R) : Rb <= Ra + t * (N * D) + t ^+ 2 * P -> N * L <= N * (- (t * E1) + t ^+ 2 * (2%:R * E2)) ->
  Ra + N * ld <= Rb + N * (ld + L) -> E2 = E1 - D -> t * (N * E2) <= t * (t * (P + 2%:R * N * E2)).
Proof. by move=> h1 h2 h3 h4; rewrite (_ : D = E1 - E2) in h1; [clear h4; rlra2|rewrite h4 opprB addrCA subrr addr0]. Qed.
Lemma lin4 (a g sG D C : R) : D + (a + sG) <= C -> a - g <= C - D - (g + sG).
Proof. by move=> h; rlra. Qed.
Lemma lin5 (v i e s c L : R) : s <= v + i -> i <= e -> L <= s + e * c -> L - v <= e * (c + 1).
Proof. by move=> h1 h2 h3; rlra. Qed.
Section Scalar.
Variables lb b : R.
Hypotheses (l0 : 0 < lb) (b0 : 0 < b).
Local Notation u := (code_weight lb b).
(* the cost function of one distance: its derivative is u *)
Definition hrho (q : R) : R := b * (if q <= lb then q else lb / 2%:R + q ^+ 2 / (2%:R * lb)).
Lemma l2 : 0 < 2%:R * lb. Proof. by rewrite mulr_gt0 ?ltr0n. Qed.
Lemma u_gt0 q : 0 < u q.
Proof. by rewrite /code_weight mulr_gt0 //; case: (leP q lb) => [_|h]; [exact: ltr01 | rewrite divr_gt0 //; exact: lt_trans l0 h]. Qed.
Lemma u_ge q : b <= u q.
Proof. by rewrite /code_weight; case: (leP q lb) => h; rewrite ?mulr1 // ler_pmulr // ler_pdivl_mulr // mul1r ltW. Qed.
Lemma u_mono q r : q <= r -> u q <= u r.
Proof.
move=> qr; rewrite /code_weight ler_pmul2l //; case: (leP q lb) => h; case: (leP r lb) => h' //.
- by rewrite ler_pdivl_mulr // mul1r ltW.
- by move: (lt_le_trans h qr); rewrite ltNge h'.
- by rewrite ler_pmul2r // invr_gt0.
Qed.
Lemma u_scale q c : 0 <= q -> 1 <= c -> u (c * q) <= c * u q.
Proof.
move=> q0 c1; have c0 := lt_le_trans ltr01 c1; rewrite /code_weight mulrCA ler_pmul2l //.
case: (leP (c * q) lb) => h; case: (leP q lb) => h'; rewrite ?mulr1 //.
- by move: h; rewrite leNgt => /negP[]; apply: lt_le_trans h' _; rewrite ler_pemull.
- by rewrite ler_pdivr_mulr // ler_pmul2l.
- by rewrite mulrA.
Qed.
Lemma u_core q c k : 0 <= q -> q <= k * lb -> 0 <= k -> k < 1 -> 1 <= c -> u (c * q) <= (1 + k * (c - 1)) * u q.
Proof.
move=> q0 qk k0 k1 c1; have ql : q <= lb by apply: le_trans qk _; rewrite ger_pmull // ltW.
have c0 := lt_le_trans ltr01 c1; have h0 : 1 <= 1 + k * (c - 1) by rewrite ler_addl mulr_ge0 ?subr_ge0.
rewrite /code_weight ql mulr1 mulrC ler_pmul2r //; case: (leP (c * q) lb) => // h; rewrite ler_pdivr_mulr //.
have h1 : c * q <= c * (k * lb) by rewrite ler_pmul2l.
apply: le_trans h1 _; rewrite mulrA ler_pmul2r // mulrBr mulr1 mulrC addrCA ler_addl subr_ge0; exact: ltW.
Qed.
Lemma hrho_gt q : lb < q -> q <= lb / 2%:R + q ^+ 2 / (2%:R * lb).
Proof.
move=> h; have -> : lb / 2%:R + q ^+ 2 / (2%:R * lb) = q + (q - lb) ^+ 2 / (2%:R * lb).
  by move: l0 => /RltP hl; rfield; apply: Rgt_not_eq.
by rewrite ler_addl divr_ge0 ?sqr_ge0 // ltW // l2.
Qed.
Lemma hrho_ge q : b * q <= hrho q.
Proof. by rewrite /hrho ler_pmul2l //; case: (leP q lb) => // h; exact: hrho_gt. Qed.
Lemma hrho_ge0 q : 0 <= q -> 0 <= hrho q.
Proof. by move=> q0; apply: le_trans (hrho_ge q); rewrite mulr_ge0 // ltW. Qed.
(* convex in ln q, strictly *)
Lemma ln_sq q : 0 < q -> ln (q ^+ 2) = 2%:R * ln q.
Proof. by move=> q0; rewrite expr2 lnM // mulr_natl mulr2n. Qed.
Lemma two0 : (2%:R : R) != 0. Proof. by rewrite pnatr_eq0. Qed.
(* q ln(q'/q) <= q' - q, with equality only for q = q' *)
Lemma slope1 q q' : 0 < q -> 0 < q' -> q * (ln q' - ln q) <= q' - q /\ (q' - q <= q * (ln q' - ln q) -> q = q').
Proof.
move=> q0 q'0; have r0 : 0 < q' / q by rewrite divr_gt0.
have e : q' - q = q * (q' / q - 1) by rewrite mulrBr mulr1 mulrC divfK // gt_eqF.
rewrite -lnD // e !ler_pmul2l //; split; first exact: ln_le_sub1.
move=> h; apply/eqP/negPn/negP => ne; have := @ln_lt_sub1 (q' / q) r0; rewrite ltNge h => H.
have {}H : q' / q == 1 by apply/negPn/negP => /H.
by case/negP: ne; rewrite eq_sym -(divfK (lt0r_neq0 q0) q') (eqP H) mul1r.
Qed.
(* and for the squares: q^2 ln(q'/q) <= (q'^2 - q^2) / 2 *)
Lemma slope2 q q' : 0 < q -> 0 < q' -> q ^+ 2 / lb * (ln q' - ln q) <= q' ^+ 2 / (2%:R * lb) - q ^+ 2 / (2%:R * lb) /\
  (q' ^+ 2 / (2%:R * lb) - q ^+ 2 / (2%:R * lb) <= q ^+ 2 / lb * (ln q' - ln q) -> q = q').
Proof.
move=> q0 q'0; have [h1 h2] := slope1 (exprn_gt0 2 q0) (exprn_gt0 2 q'0); rewrite !ln_sq // -mulrBr in h1 h2.
have e : q ^+ 2 / lb * (ln q' - ln q) = q ^+ 2 * (2%:R * (ln q' - ln q)) / (2%:R * lb).
  by move: l0 (ln q' - ln q) => /RltP hl x; rfield; apply: Rgt_not_eq.
rewrite e -mulrBl !ler_pmul2r ?invr_gt0 ?l2 //; split=> // /h2 /eqP.
by rewrite eqr_expn2 ?ltW // => /eqP.
Qed.
Lemma hrho_logconvex q q' : 0 < q -> 0 < q' -> hrho q + u q * q * (ln q' - ln q) <= hrho q'
  /\ (hrho q' <= hrho q + u q * q * (ln q' - ln q) -> q = q').
Proof.
move=> q0 q'0; rewrite /hrho /code_weight; set D := ln q' - ln q; set v := if _ then 1 else _; rewrite (_ : b * v * q * D = b * (v * (q * D))); last by rewrite !mulrA.
rewrite -mulrDr !ler_pmul2l // /v {v}.
have [a1 a2] := slope1 q0 q'0; have [b1 b2] := slope2 q0 q'0; rewrite -/D in a1 a2 b1 b2.
case: (leP q lb) => h; case: (leP q' lb) => h'; rewrite ?mul1r.
- by rewrite -ler_subr_addl; split=> //; rewrite ler_subl_addl in a2.
- have lt := le_lt_trans h h'; have g := hrho_gt h'; rewrite -ler_subr_addl; split.
    by apply: le_trans a1 _; rewrite ler_sub.
  move=> H; have e : q = q' by apply: a2; rewrite ler_subl_addl; exact: le_trans g H.
  by move: lt; rewrite e ltxx.
- have [c1 _] := slope1 l0 q'0; have [d1 d2] := slope2 q0 l0.
  have eD : D = (ln q' - ln lb) + (ln lb - ln q) by rewrite addrA subrK.
  have n1 : ln q' - ln lb <= 0 by rewrite subr_le0; apply: Proofs_major.ln_mono.
  have q2 : lb <= q ^+ 2 / lb by rewrite ler_pdivl_mulr // -expr2 ler_pexpn2r ?nnegrE ?ltW.
  have e1 : (q ^+ 2 / lb) * (ln q' - ln lb) <= lb * (ln q' - ln lb) by apply: ler_wnmul2r.
  have lt : q != lb by rewrite gt_eqF.
  have s1 : q / lb * (q * D) = (q ^+ 2 / lb) * (ln q' - ln lb) + (q ^+ 2 / lb) * (ln lb - ln q).
    by rewrite -mulrDr -eD expr2 [LHS]mulrA; congr (_ * _); exact: mulrAC.
  have e2 : lb ^+ 2 / (2%:R * lb) = lb / 2%:R by move: l0 => /RltP hl; rfield; apply: Rgt_not_eq.
  rewrite e2 in d1 d2.
  have half : lb / 2%:R + lb / 2%:R = lb by rewrite -splitr.
  rewrite s1; split; first exact: lin1 e1 c1 d1 half.
  by move=> H; case/negP: lt; apply/eqP/d2; exact: lin2 e1 c1 half H.
have eq1 : q / lb * (q * D) = q ^+ 2 / lb * D by rewrite expr2 [LHS]mulrA; congr (_ * _); exact: mulrAC.
by rewrite eq1 -addrA !ler_add2l -ler_subr_addl; split=> // H; apply: b2; rewrite ler_subl_addl.
Qed.
(* quadratic upper bound *)
Lemma hrho_upper q q' : 0 <= q -> 0 <= q' -> hrho q' <= hrho q + u q * (q' - q) + b / (2%:R * lb) * (q' - q) ^+ 2.
Proof.
move=> q0 q'0.
have eu r : b / (2%:R * lb) * r = b * (r / (2%:R * lb)) by rewrite mulrAC mulrA.
rewrite eu /hrho /code_weight -[b * _ * _]mulrA -!mulrDr ler_pmul2l //.
have s0 r : 0 <= r ^+ 2 / (2%:R * lb) by rewrite divr_ge0 ?sqr_ge0 // ltW // l2.
case: (leP q lb) => h; case: (leP q' lb) => h'; rewrite ?mul1r.
- by rewrite addrCA subrr addr0 ler_addl.
- rewrite addrCA subrr addr0.
  have -> : lb / 2%:R + q' ^+ 2 / (2%:R * lb) = q' + (q' - lb) ^+ 2 / (2%:R * lb) by move: l0 => /RltP hl; rfield; apply: Rgt_not_eq.
  rewrite ler_add2l ler_pmul2r ?invr_gt0 ?l2 // ler_pexpn2r ?nnegrE ?subr_ge0 ?(ltW h') //; last by apply: le_trans h _; exact: ltW.
  by rewrite ler_add2l ler_opp2.
- have -> : lb / 2%:R + q ^+ 2 / (2%:R * lb) + (q / lb) * (q' - q) + (q' - q) ^+ 2 / (2%:R * lb) = q' + (q' - lb) ^+ 2 / (2%:R * lb).
    by move: l0 => /RltP hl; rfield; apply: Rgt_not_eq.
  by rewrite ler_addl.
- by have -> : lb / 2%:R + q ^+ 2 / (2%:R * lb) + (q / lb) * (q' - q) + (q' - q) ^+ 2 / (2%:R * lb) = lb / 2%:R + q' ^+ 2 / (2%:R * lb)
    by move: l0 => /RltP hl; rfield; apply: Rgt_not_eq.
Qed.
Lemma hrho_scale q c : 0 <= q -> 1 <= c -> hrho (c * q) <= c ^+ 2 * hrho q.
Proof.
move=> q0 c1; have c0 := lt_le_trans ltr01 c1; have cc : c <= c ^+ 2 by rewrite expr2 ler_pemull // ltW.
rewrite /hrho mulrCA ler_pmul2l //; case: (leP (c * q) lb) => h; case: (leP q lb) => h'.
- by apply: ler_wpmul2r.
- by move: h; rewrite leNgt => /negP[]; apply: lt_le_trans h' _; rewrite ler_pemull // ltW // (lt_trans l0).
- have q1 : 0 < q by rewrite lt_neqAle q0 andbT eq_sym; apply: contraTneq h => ->; rewrite mulr0 -leNgt ltW.
  have h1 : lb / 2%:R <= c ^+ 2 * q / 2%:R by rewrite ler_pmul2r ?invr_gt0 ?ltr0n //; apply/ltW/(lt_le_trans h); apply: ler_wpmul2r.
  have h2 : (c * q) ^+ 2 / (2%:R * lb) <= c ^+ 2 * q / 2%:R.
    rewrite exprMn ler_pdivr_mulr ?l2 // [X in _ <= X](_ : _ = c ^+ 2 * (q * lb)); last by rfield.
    by rewrite ler_pmul2l ?exprn_gt0 // expr2 ler_pmul2l.
  by have := ler_add h1 h2; rewrite -splitr.
rewrite mulrDr; apply: ler_add; last by rewrite exprMn -mulrA.
by rewrite ler_pemull ?divr_ge0 ?ler0n ?exprn_ege1 // ltW.
Qed.
Lemma hrho_mono q r : 0 <= q -> q <= r -> hrho q <= hrho r.
Proof.
move=> q0 qr; rewrite /hrho ler_pmul2l //; case: (leP q lb) => h; case: (leP r lb) => h' //.
- by apply: le_trans qr (hrho_gt h').
- by move: (lt_le_trans h qr); rewrite ltNge h'.
- rewrite ler_add2l ler_pmul2r ?invr_gt0 ?l2 // ler_pexpn2r ?nnegrE //; exact: le_trans qr.
Qed.
End Scalar.

Section Matrix.
Variable K : starField.
Local Notation ofR := (@ofR K).
Local Notation toR := (@toR K).
Local Notation "A ^H" := (adj A) (at level 8, format "A ^H").
Variables (lb b : R).
Hypotheses (l0 : 0 < lb) (b0 : 0 < b).
Local Notation u := (code_weight lb b).
Local Notation rho := (hrho lb b).
Variables (N p : nat) (X : 'M[K]_(N, p)).
Hypotheses (N0 : (0 < N)%N) (sp : spanning X).
Definition hub_w (q : R) : R := N%:R^-1 * u q.
Local Notation F := (mstep hub_w X).
Lemma NR : 0 < N%:R :> R. Proof. by rewrite ltr0n. Qed.
Lemma hub_w_gt0 q : 0 < hub_w q. Proof. by rewrite mulr_gt0 ?invr_gt0 ?NR // u_gt0. Qed.
Lemma hub_pd S : pd S -> pd (F S). Proof. by move=> pS; apply: wsum_pd => // i; exact: hub_w_gt0. Qed.
Lemma FN S : wsum (fun i => u (maha S (samp X i))) X = ofR N%:R *: F S.
Proof.
rewrite /mstep /wsum scaler_sumr; apply: eq_bigr => i _; rewrite scalerA -rmorphM /hub_w mulrA divff ?mul1r //.
by rewrite gt_eqF ?NR.
Qed.
Section Nonzero.
Hypothesis X0 : forall i, row i X != 0.
Lemma hub_min S T : pd S -> pd T -> F S = S -> mcost rho X S <= mcost rho X T.
Proof.
move=> pS pT fS; apply: (@fixed_point_min K N p _ u) => //; last by rewrite FN fS.
- by move=> q q' q0 q'0; have [] := hrho_logconvex l0 b0 q0 q'0.
- by move=> q _; apply/ltW/u_gt0.
Qed.
Lemma hub_unique S T : pd S -> pd T -> F S = S -> F T = T -> S = T.
Proof.
move=> pS pT fS fT; have le := hub_min pT pS fT.
have cvx q q' : 0 < q -> 0 < q' -> rho q + u q * q * (ln q' - ln q) <= rho q' by move=> q0 q'0; have [] := hrho_logconvex l0 b0 q0 q'0.
have [|B [d [_ _ _ _ H]]] := @fixed_point_min_eq K N p rho u X S T cvx X0 (fun q _ => u_gt0 l0 b0 q) pS pT _ le; first by rewrite FN fS.
rewrite -fS -fT; apply: eq_wsum => i; have [h _] := H i; congr hub_w.
have xi : samp X i != 0 by rewrite /samp trmx_eq0.
by have [_ e] := hrho_logconvex l0 b0 (maha_gt0 pS xi) (maha_gt0 pT xi); exact: e.
Qed.
End Nonzero.

(* a minimiser solves the equation *)
Lemma small_coef (E C t0 : R) : 0 <= C -> 0 < t0 -> (forall t : R, 0 < t -> t <= t0 -> E <= t * C) -> E <= 0.
Proof.
move=> C0 h0 h; rewrite leNgt; apply/negP => E0.
have c1 : 0 < C + 1 by rewrite ltr_spaddr ?ltr01.
pose t := Num.min t0 (E / (2%:R * (C + 1))).
have t1 : 0 < t by rewrite lt_minr h0 divr_gt0 // mulr_gt0 ?ltr0n.
have := h t t1; rewrite le_minl lexx => /(_ isT) le.
have : t * C <= E / (2%:R * (C + 1)) * C by apply: ler_wpmul2r => //; rewrite le_minl lexx orbT.
move/(le_trans le); rewrite -mulrA ler_pmulr // mulrC ler_pdivl_mulr ?mulr_gt0 ?ltr0n // mul1r leNgt => /negP; apply.
rewrite mulr_natl mulr2n; apply: (@lt_le_trans _ _ (C + 1)); first by rewrite ltr_addl ltr01.
by rewrite ler_addl ltW.
Qed.
Lemma ln_upper (x : R) : `|x| <= 1 / 2%:R -> - ln (1 + x) <= - x + 2%:R * x ^+ 2.
Proof.
rewrite ler_norml => /andP[x1 x2]; have h0 : 1 / 2%:R <= 1 + x.
  by rewrite [X in _ <= X + x](splitr 1) -addrA ler_addl -ler_subl_addl sub0r.
have z0 : 0 < 1 + x by apply: lt_le_trans h0; rewrite divr_gt0 ?ltr01 ?ltr0n.
rewrite -lnV //; apply: le_trans (ln_le_sub1 _) _; first by rewrite invr_gt0.
have -> : (1 + x)^-1 - 1 = - x + x ^+ 2 / (1 + x).
  by move: z0 => /RltP hz; rfield; apply: Rgt_not_eq; move: hz; rewrite -RplusE.
rewrite ler_add2l mulrC; apply: ler_wpmul2r; first exact: sqr_ge0.
by rewrite -(ler_pmul2r z0) mulVf ?gt_eqF // mulrC -ler_pdivr_mulr ?ltr0n.
Qed.
Lemma hub_stationary S : pd S -> (forall T, pd T -> mcost rho X S <= mcost rho X T) -> F S = S.
Proof.
move=> pS mn; have pT := hub_pd pS; have [B [d [uB eS eT d0]]] := simdiag pS pT.
pose y i := invmx B *m samp X i; pose e j : R := 1 - d 0 j.
pose a i := u (maha S (samp X i)).
have W j : \sum_i a i * sq (y i j 0) = N%:R * d 0 j.
  rewrite (@wsumB K N p X B uB _ (ofR N%:R *: dia K d)); last by rewrite FN eT -scalemxAr -scalemxAl.
  by rewrite mxE diaE eqxx mulr1n -rmorphM toRK.
pose m i := \sum_j sq (y i j 0) * e j.
pose C : R := b / (2%:R * lb) * (\sum_i m i ^+ 2) + 2%:R * N%:R * (\sum_j e j ^+ 2).
have C0 : 0 <= C.
  have sq0 n' (f : 'I_n' -> R) : 0 <= \sum_i f i ^+ 2 by apply: sumr_ge0 => i _; exact: sqr_ge0.
  have h1 : 0 <= b / (2%:R * lb) by apply: divr_ge0; [exact: ltW | exact/ltW/l2].
  by apply: addr_ge0; apply: mulr_ge0 => //; rewrite mulr_ge0 ?ler0n.
pose M := \sum_j `|e j|; have M0 : 0 <= M by apply: sumr_ge0 => j _; exact: normr_ge0.
pose t0 : R := 1 / (2%:R * (1 + M)); have M1 : 0 < 1 + M by rewrite ltr_spaddl ?ltr01.
have t00 : 0 < t0 by rewrite divr_gt0 ?ltr01 // mulr_gt0 ?ltr0n.
have key (t : R) : 0 < t -> t <= t0 -> N%:R * (\sum_j e j ^+ 2) <= t * C.
  move=> tp tl; have te j : `|t * e j| <= 1 / 2%:R.
    rewrite normrM gtr0_norm //; apply: (@le_trans _ _ (t0 * (1 + M))).
      apply: ler_pmul => //; first exact: ltW.
      by rewrite ler_paddl ?ler01 // /M (bigD1 j) //= ler_addl; apply: sumr_ge0 => k _; exact: normr_ge0.
    rewrite /t0 mul1r invfM -mulrA mulVf ?gt_eqF // mulr1 mul1r; exact: lexx.
  have z0 j : 0 < 1 + t * e j.
    have := te j; rewrite ler_norml => /andP[h _]; rewrite -ltr_subl_addl sub0r; apply: lt_le_trans h.
    by rewrite ltr_opp2 mul1r invf_lt1 ?ltr0n // ltr1n.
  pose dz : 'rV[R]_p := \row_j (1 + t * e j)^-1; have dzE j : dz 0 j = (1 + t * e j)^-1 by rewrite mxE.
  have dz0 j : 0 < dz 0 j by rewrite dzE invr_gt0.
  pose T := B *m dia K dz *m B^H.
  have pTz : pd T by apply: pd_congr => //; apply: pd_dia.
  have := mn T pTz; rewrite /mcost (detT uB eS (erefl T) dz0).
  have q i : maha T (samp X i) = maha S (samp X i) + t * m i.
    rewrite (mahaT X uB (erefl T) dz0) (mahaS X uB eS) /m mulr_sumr -big_split /=; apply: eq_bigr => j _.
    by rewrite dzE invrK mulrDr mulr1 mulrCA.
  have ln_s : \sum_j ln (dz 0 j) <= \sum_j (- (t * e j) + 2%:R * (t * e j) ^+ 2).
    by apply: ler_sum => j _; rewrite dzE lnV //; exact: ln_upper.
  have rs : \sum_i rho (maha T (samp X i)) <= \sum_i (rho (maha S (samp X i)) + a i * (t * m i) + b / (2%:R * lb) * (t * m i) ^+ 2).
    apply: ler_sum => i _; have := hrho_upper l0 b0 (maha_ge0 (samp X i) pS) (maha_ge0 (samp X i) pTz).
    by rewrite q [_ + t * m i - _]addrC addKr.
  move: rs ln_s; rewrite !big_split /= => rs ln_s.
  have s1 : \sum_i a i * (t * m i) = t * (N%:R * \sum_j d 0 j * e j).
    under eq_bigr => i _ do rewrite mulrCA /m mulr_sumr.
    rewrite -mulr_sumr exchange_big /=; congr (_ * _); rewrite mulr_sumr; apply: eq_bigr => j _; rewrite mulrA -W mulr_suml; apply: eq_bigr => i _; by rewrite mulrA.
  have s2 : \sum_i b / (2%:R * lb) * (t * m i) ^+ 2 = t ^+ 2 * (b / (2%:R * lb) * \sum_i m i ^+ 2).
    rewrite -mulr_sumr [RHS]mulrCA; congr (_ * _); rewrite mulr_sumr; apply: eq_bigr => i _; by rewrite exprMn.
  have s3 : \sum_j - (t * e j) = - (t * \sum_j e j) by rewrite sumrN mulr_sumr.
  have s4 : \sum_j 2%:R * (t * e j) ^+ 2 = t ^+ 2 * (2%:R * \sum_j e j ^+ 2).
    rewrite -mulr_sumr [RHS]mulrCA; congr (_ * _); rewrite mulr_sumr; apply: eq_bigr => i _; by rewrite exprMn.
  have s5 : \sum_j e j ^+ 2 = \sum_j e j - \sum_j d 0 j * e j.
    by rewrite -sumrB; apply: eq_bigr => j _; rewrite expr2 {1}/e mulrBl mul1r.
  rewrite s1 s2 in rs; rewrite s3 s4 in ln_s => cmp.
  have ln_s' := ler_wpmul2l (ltW NR) ln_s.
  by rewrite -(ler_pmul2l tp); exact: lin3 rs ln_s' cmp s5.
have E0 := small_coef C0 t00 key.
have {}E0 : \sum_j e j ^+ 2 = 0.
  apply/eqP; rewrite eq_le sumr_ge0 ?andbT => [|j _]; last exact: sqr_ge0.
  by move: E0; rewrite pmulr_rle0 // NR.
rewrite eT eS; have -> : d = const_mx 1; last by rewrite dia_const rmorph1 mulmx1.
apply/rowP => j; rewrite mxE; have /eqP := psumr_eq0P (fun j _ => sqr_ge0 (e j)) E0 isT (i := j).
by rewrite sqrf_eq0 subr_eq0 => /eqP.
Qed.

(* the cost is large away from a band around the sample covariance matrix *)
Lemma g_low (c d : R) : 0 < c -> 0 < d -> 1 + ln c <= c / d + ln d.
Proof.
move=> c0 d0; have := ln_le_sub1 (divr_gt0 c0 d0); rewrite lnD // ler_subr_addl => h.
by rewrite -ler_subl_addr -addrA.
Qed.
Lemma g_half (d : R) : 0 < d -> b / (2%:R * d) + (1 + ln (b / 2%:R)) <= b / d + ln d.
Proof.
move=> d0; have := @g_low (b / 2%:R) d (divr_gt0 b0 (ltr0n _ 2)) d0.
have -> : b / d = b / (2%:R * d) + b / 2%:R / d by move: d0 => /RltP hd; rfield; apply: Rgt_not_eq.
by rewrite -addrA ler_add2l.
Qed.
Let S0 := wsum (fun _ : 'I_N => N%:R^-1) X.
Lemma S0_pd : pd S0. Proof. by apply: wsum_pd => // i; rewrite invr_gt0 NR. Qed.
Lemma cost_low T B (d : 'rV[R]_p) : B \in unitmx -> S0 = B *m B^H -> T = B *m dia K d *m B^H -> (forall j, 0 < d 0 j) ->
  N%:R * (ln (toR (\det S0)) + \sum_j (b / d 0 j + ln (d 0 j))) <= mcost rho X T.
Proof.
move=> uB e0 eT d0; have pT : pd T by rewrite eT; apply: pd_congr => //; apply: pd_dia.
pose y i := invmx B *m samp X i.
have W j : \sum_i sq (y i j 0) = N%:R.
  have := (@wsumB K N p X B uB (fun=> N%:R^-1) 1%:M); rewrite mulmx1 -e0 => /(_ erefl j); rewrite -mulr_sumr mxE eqxx toR1 => h.
  by apply: (mulfI (invr_neq0 (lt0r_neq0 NR))); rewrite mulVf ?gt_eqF ?NR.
have bs : b * (\sum_i maha T (samp X i)) <= \sum_i rho (maha T (samp X i)).
  by rewrite mulr_sumr; apply: ler_sum => i _; apply: hrho_ge => //; exact: maha_ge0.
have es : \sum_i maha T (samp X i) = N%:R * \sum_j (d 0 j)^-1.
  under eq_bigr => i _ do rewrite (mahaT X uB eT d0).
  rewrite exchange_big /= mulr_sumr; apply: eq_bigr => j _; by rewrite -mulr_suml W.
rewrite /mcost (detT uB e0 eT d0) big_split /= !mulrDr addrCA; apply: ler_add; last exact: lexx.
apply: le_trans bs; rewrite es mulrCA -mulr_sumr; exact: lexx.
Qed.
Let G := 1 + ln (b / 2%:R).
Let H (c : R) := c / N%:R - ln (toR (\det S0)) - p%:R * G.
Lemma cost_band T B (d : 'rV[R]_p) c : B \in unitmx -> S0 = B *m B^H -> T = B *m dia K d *m B^H -> (forall j, 0 < d 0 j) ->
  mcost rho X T <= c -> forall j, b / (2%:R * d 0 j) <= H c /\ ln (d 0 j) <= H c + G.
Proof.
move=> uB e0 eT d0 le j; have := le_trans (cost_low uB e0 eT d0) le; rewrite -ler_pdivl_mull ?NR // mulrC => h.
have gj i : G <= b / d 0 i + ln (d 0 i).
  by apply: le_trans (g_half (d0 i)); rewrite ler_addr divr_ge0 ?ltW // mulr_gt0 ?ltr0n.
have pG : \sum_(i : 'I_p) G = p%:R * G by rewrite sumr_const card_ord mulr_natl.
have s : b / d 0 j + ln (d 0 j) - G <= H c.
  rewrite /H -pG (bigD1 j) //=; apply: lin4; apply: le_trans h.
  by rewrite ler_add2l [X in _ <= X](bigD1 j) //= ler_add2l; apply: ler_sum => i _; exact: gj.
split; first by apply: le_trans s; rewrite ler_subr_addr g_half.
by rewrite -ler_subl_addr; apply: le_trans s; rewrite ler_add2r ler_addr divr_ge0 ?ltW.
Qed.

Lemma le_exp (q B : R) : 0 < q -> ln q <= B -> q <= Rtrigo_def.exp B.
Proof.
move=> q0 h; rewrite -[q](exp_ln q); last exact/RltP.
case: (ltgtP (ln q) B) h => // [lt|->] _; last by rewrite lexx.
by apply/ltW/RltP/exp_increasing/RltP.
Qed.
Lemma band c : exists2 l : R, 0 < l & forall T, pd T -> mcost rho X T <= c -> loewner 1%:M (ofR l *: T) /\ loewner T (ofR l *: 1%:M).
Proof.
have [m [m1 h1 h2]] := pd_comparable (pd1 K p) S0_pd; have m0 := lt_le_trans ltr01 m1.
pose r1 := 2%:R * `|H c| / b + 1; pose r2 := Rtrigo_def.exp (H c + G).
have r10 : 0 < r1 by apply: ltr_paddl; rewrite ?ltr01 // divr_ge0 ?(ltW b0) // mulr_ge0 ?ler0n ?normr_ge0.
have r20 : 0 < r2 by exact/RltP/exp_pos.
pose l := m * (r1 + r2); exists l; first by rewrite mulr_gt0 // addr_gt0.
move=> T pT le; have [B [d [uB e0 eT d0]]] := simdiag S0_pd pT.
have E0 : S0 = B *m dia K (const_mx 1) *m B^H by rewrite dia_const rmorph1 mulmx1.
have hb := cost_band uB e0 eT d0 le.
have d1 j : 1 <= r1 * d 0 j.
  have [h _] := hb j; rewrite -ler_pdivr_mulr // div1r; apply: (@le_trans _ _ (2%:R * `|H c| / b)); last by rewrite ler_addl ler01.
  have : b / (2%:R * d 0 j) <= `|H c| by apply: le_trans h (ler_norm _).
  rewrite ler_pdivr_mulr ?mulr_gt0 ?ltr0n // => h'; rewrite ler_pdivl_mulr // mulrC ler_pdivr_mulr //.
  by rewrite -mulrA mulrCA.
have d2 j : d 0 j <= r2 by apply: le_exp => //; have [] := hb j.
have lo : loewner S0 (ofR r1 *: T).
  rewrite /loewner E0 eT scalemxAl scalemxAr dia_scale -mulmxBl -mulmxBr diaB; apply/psd_congr/psd_dia => j; by rewrite !mxE subr_ge0.
have up : loewner T (ofR r2 *: S0).
  rewrite /loewner E0 eT scalemxAl scalemxAr dia_scale -mulmxBl -mulmxBr diaB; apply/psd_congr/psd_dia => j; by rewrite !mxE mulr1 subr_ge0.
split.
- apply: loewner_trans (loewner_comp (ltW m0) h1 lo) _; apply: loewner_le; first exact: pd_psd.
  by rewrite ler_pmul2l // ler_addl ltW.
- apply: loewner_trans (loewner_comp (ltW r20) up h2) _; apply: loewner_le; first exact/pd_psd/pd1.
  by rewrite mulrC ler_pmul2l // ler_addr ltW.
Qed.
Lemma bounded : exists v : R, forall T, pd T -> v <= mcost rho X T.
Proof.
exists (N%:R * (ln (toR (\det S0)) + p%:R * (1 + ln b))) => T pT; have [B [d [uB e0 eT d0]]] := simdiag S0_pd pT.
apply: le_trans (cost_low uB e0 eT d0); rewrite ler_pmul2l ?NR // ler_add2l.
have -> : p%:R * (1 + ln b) = \sum_(j < p) (1 + ln b) by rewrite sumr_const card_ord mulr_natl.
by apply: ler_sum => j _; exact: g_low.
Qed.
(* the cost of a close matrix *)
Lemma cost_close L S e : pd L -> pd S -> 0 < e -> e <= 1 -> close e S L ->
  mcost rho X L <= mcost rho X S + e * (12%:R * (\sum_i rho (maha L (samp X i))) + N%:R * p%:R).
Proof.
move=> pL pS e0 e1 [a c]; have f0 : 1 <= 1 + e by rewrite ler_addl ltW.
have f1 : 0 < 1 + e by apply: lt_le_trans f0; exact: ltr01.
have r0 (q : R) : 0 <= q -> 0 <= rho q by exact: hrho_ge0.
have e3 : (1 + e) ^+ 2 <= 1 + 3%:R * e.
  have ee : e * e <= e by rewrite ler_pimulr // ltW.
  by move: ee; rewrite expr2; clear -e; move: e => e ee; rlra2.
have t1 : \sum_i rho (maha L (samp X i)) <= \sum_i rho (maha S (samp X i)) + e * (12%:R * (\sum_i rho (maha L (samp X i)))).
  rewrite !mulr_sumr -big_split /=; apply: ler_sum => i _; set x := samp X i.
  have q1 : maha L x <= (1 + e) * maha S x by exact: maha_loewner.
  have q2 : maha S x <= (1 + e) * maha L x by exact: maha_loewner.
  have mL := maha_ge0 x pL; have mS := maha_ge0 x pS.
  have h1 : rho (maha L x) <= (1 + e) ^+ 2 * rho (maha S x) by apply: le_trans (hrho_scale l0 b0 mS f0); exact: hrho_mono.
  have h2 : rho (maha S x) <= (1 + e) ^+ 2 * rho (maha L x) by apply: le_trans (hrho_scale l0 b0 mL f0); exact: hrho_mono.
  have f4 : (1 + e) ^+ 2 <= 4%:R by apply: le_trans e3 _; clear -e1; move: e e1 => e e1; rlra2.
  have h3 : rho (maha S x) <= 4%:R * rho (maha L x) by apply: le_trans h2 _; apply: ler_wpmul2r => //; exact: r0.
  have h4 : rho (maha L x) <= (1 + 3%:R * e) * rho (maha S x) by apply: le_trans h1 _; apply: ler_wpmul2r => //; exact: r0.
  apply: le_trans h4 _; rewrite mulrDl mul1r ler_add2l.
  have -> : e * (12%:R * rho (maha L x)) = 3%:R * e * (4%:R * rho (maha L x)) by rfield.
  by apply: ler_wpmul2l => //; rewrite mulr_ge0 ?ler0n // ltW.
have t2 : ln (toR (\det L)) <= ln (toR (\det S)) + p%:R * e.
  have h := det_loewner pL (pdZ _ pS) c; have {}h := toR_le (h (etrans (ofR_gt0 _ _) f1)).
  have dL := toR_gt0 (det_pd pL); have dS := toR_gt0 (det_pd pS).
  apply: le_trans (ln_le dL h) _; rewrite detZ -rmorphX toRZ lnM ?exprn_gt0 // lnX // addrC ler_add2l ler_wpmul2l ?ler0n //.
  by have := ln_le_sub1 f1; rewrite [1 + e - 1]addrC addKr.
have := ler_add t1 (ler_wpmul2l (ltW NR) t2); rewrite /mcost mulrDr.
by move: (\sum_i _) (\sum_i _) (ln _) (ln _) (N%:R) (p%:R) => A A' l1 l2' n q h; rlra2.
Qed.
Hypothesis cK : compactK K.
Lemma hub_attained : exists2 L, pd L & forall T, pd T -> mcost rho X L <= mcost rho X T.
Proof.
have [v0 hv0] := bounded; pose E y := exists2 T, pd T & y = - mcost rho X T.
have bE : bound E by exists (- v0) => y [T pT ->]; apply: (elimT (RleP _ _)); rewrite ler_opp2 hv0.
have nE : exists y, E y by exists (- mcost rho X 1%:M); exists 1%:M => //; exact: pd1.
have [v' [ub lub]] := completeness E bE nE; pose v := - v'.
have low T : pd T -> v <= mcost rho X T.
  by move=> pT; rewrite /v ler_oppl; apply/RleP/ub; exists T.
have ex k : exists T, pd T /\ mcost rho X T <= v + k.+1%:R^-1.
  apply: NNPP => no; have i0 : 0 < k.+1%:R^-1 :> R by rewrite invr_gt0 ltr0n.
  have : v' <= v' - k.+1%:R^-1.
    apply/RleP/lub => y [T pT ->]; apply: (elimT (RleP _ _)); rewrite ler_oppl opprB addrC.
    by apply/ltW; rewrite ltNge; apply/negP => h; apply: no; exists T.
  by rewrite ler_addl oppr_ge0 leNgt i0.
pose s k := proj1_sig (constructive_indefinite_description _ (ex k)).
have hs k : pd (s k) /\ mcost rho X (s k) <= v + k.+1%:R^-1 := proj2_sig (constructive_indefinite_description _ (ex k)).
have [l l_0 hb] := band (v + 1).
have i1 k : k.+1%:R^-1 <= 1 :> R by rewrite invf_le1 ?ltr0n // ler1n.
have bs k : loewner 1%:M (ofR l *: s k) /\ loewner (s k) (ofR l *: 1%:M).
  by have [ps le] := hs k; apply: hb => //; apply: le_trans le _; rewrite ler_add2l.
have [L pL hL] := cluster cK l_0 (fun k => pd_herm (hs k).1) (fun k => (bs k).1) (fun k => (bs k).2).
exists L => // T pT; apply: le_trans (low T pT); rewrite -subr_le0.
pose C : R := 12%:R * (\sum_i rho (maha L (samp X i))) + N%:R * p%:R + 1.
have C0 : 0 <= C.
  by rewrite addr_ge0 ?ler01 // addr_ge0 ?mulr_ge0 ?ler0n // sumr_ge0 // => i _; apply: hrho_ge0 => //; exact: maha_ge0.
apply: (small_coef C0 ltr01) => e e0 e1; have [k0 hk] := arch 1 e0; have [k kk cl] := hL e k0 e0.
have := cost_close pL (hs k).1 e0 e1 cl; have [_ le] := hs k.
have ke : k.+1%:R^-1 <= e.
  rewrite -div1r ler_pdivr_mulr ?ltr0n // mulrC; apply: le_trans (ltW hk) _; rewrite ler_pmul2r // ler_nat; exact: leqW.
by rewrite /C; exact: lin5 le ke.
Qed.
End Matrix.
