(* The solutions of Student's equation for many and for few degrees of freedom.  Nothing here models code. *)
From Coq Require Import Reals Lra.
From mathcomp Require Import all_ssreflect all_algebra.
From mathcomp Require Import zify.
From Verif Require Import RealsMC RealTac RealTac2 Star FunCalc Spec_covariance Spec_fixedpoint Spec_exist Spec_hubiter Proofs_mest Proofs_cost Proofs_unique Proofs_unique2
  Compact Proofs_estimators Proofs_converge Props_cost Props_robust Props_unique Props_converge Proofs_exist Proofs_exist2 Props_exist Spec_breakdown Proofs_breakdown Proofs_breakdown2
  Proofs_breakdown3 Proofs_breakdown4 Proofs_stable2 Proofs_tycont Props_natgrad Spec_df.
Set Implicit Arguments.
Unset Strict Implicit.
Unset Printing Implicit Defensive.
Local Open Scope ring_scope.
Import GRing.Theory Num.Theory Order.TTheory.

(* arithmetic *)
Lemma df_q (a P q n : R) : 0 <= P -> 0 <= q -> 2%:R * n <= a -> 0 < a -> (a + P) * q <= n * (a + q) -> q <= 2%:R * n.
Proof. by move=> P0 q0 na a0 h; rnra2. Qed.
Lemma df_up (a P q e : R) : 0 < a -> 0 <= P -> 0 <= q -> P <= e * a -> (a + P) <= (1 + e) * (a + q).
Proof. by move=> a0 P0 q0 h; rnra2. Qed.
Lemma df_lo (a P q e : R) : 0 < a -> 0 <= e -> 0 <= P -> q <= e * a -> (a + q) <= (1 + e) * (a + P).
Proof. by move=> a0 e0 P0 h; rnra2. Qed.
Lemma df_w (b n s q : R) : 0 < n -> 0 < s -> b / n / s * q <= 1 -> b * q <= n * s.
Proof.
move=> n0 s0; have -> : b / n / s * q = b * q / (n * s) by rewrite invfM; move: n^-1 s^-1 => u v; rring.
by rewrite ler_pdivr_mulr ?mulr_gt0 // mul1r.
Qed.
Lemma df_w1 (b n s e : R) : 0 < n -> 0 < s -> b <= e * s -> b / n / s <= e * n^-1.
Proof.
move=> n0 s0 h; have -> : b / n / s = b / s * n^-1 by rewrite mulrAC.
by rewrite ler_pmul2r ?invr_gt0 // ler_pdivr_mulr.
Qed.
Lemma df_w2 (b n s e : R) : 0 < n -> 0 < s -> s <= e * b -> n^-1 <= e * (b / n / s).
Proof.
move=> n0 s0 h; have -> : e * (b / n / s) = e * b / s * n^-1 by rewrite [b / n / s]mulrAC !mulrA.
by rewrite -{1}[n^-1]mul1r ler_pmul2r ?invr_gt0 // ler_pdivl_mulr // mul1r.
Qed.

Section Large.
Variable K : starField.
Local Notation ofR := (@ofR K).
Variables (N p : nat) (X : 'M[K]_(N, p.+1)) (a : R).
Hypothesis a0 : 0 < a.
Lemma large_condition : spanning X -> (p.+1 * N)%:R < a -> student_condition a X.
Proof.
move=> sp la V rV; have N0 := spanning_N sp; have cl : (count_in X V < N)%N.
  rewrite ltn_neqAle; apply/andP; split; last by rewrite -[X in (_ <= X)%N]card_ord max_card.
  apply/negP => /eqP e; have XV : (X <= V)%MS.
    apply/row_subP => i; have : i \in [set i | (row i X <= V)%MS].
      have /eqP -> : [set i | (row i X <= V)%MS] == [set: 'I_N] by rewrite eqEcard subsetT cardsT card_ord -/(count_in X V) e leqnn.
      by rewrite inE.
    by rewrite inE.
  by have := mxrankS XV; rewrite (rank_spanning sp) leqNgt rV.
have c1 : (count_in X V)%:R + 1 <= N%:R :> R by rewrite -[1]/(1%:R) -natrD ler_nat addn1.
have P0 : 0 <= p.+1%:R :> R by exact: ler0n.
have r0 : 0 <= (\rank V)%:R :> R by exact: ler0n.
have NR : 1 <= N%:R :> R by rewrite -[1]/(1%:R) ler_nat.
move: la c1 P0 r0 NR; rewrite natrM; move: (count_in X V)%:R (\rank V)%:R (N%:R) (p.+1%:R) => c r n P la c1 P0 r0 NR.
have c2 : c <= n - 1 by rewrite ler_subr_addr.
apply: (@le_lt_trans _ _ ((a + P) * (n - 1))); first by apply: ler_wpmul2l => //; rewrite addr_ge0 // ltW.
rnra2.
Qed.
Variable S : 'M[K]_p.+1.
Hypothesis sol : student_solution a X S.
Let N0 : (0 < N)%N. Proof. exact: spanning_N (student_spanning sol). Qed.
Let NR : 0 < N%:R :> R. Proof. by rewrite ltr0n N0. Qed.
Lemma student_maha i : (a + p.+1%:R) * maha S (samp X i) <= N%:R * (a + maha S (samp X i)).
Proof.
have [pS eS] := sol; have q0 j := maha_ge0 (samp X j) pS; have aq j : 0 < a + maha S (samp X j) by rewrite ltr_spaddl.
have b0 : 0 < a + p.+1%:R by rewrite ltr_spaddl ?ler0n.
pose w j := (a + p.+1%:R) / N%:R / (a + maha S (samp X j)); have w0 j : 0 < w j by rewrite !divr_gt0.
have := weight_above X i (fun j => ltW (w0 j)); rewrite -/w -eS => /(maha_above pS (w0 i)).
exact: df_w.
Qed.
Lemma large_close : (2 * N)%:R <= a -> close ((2 * N + p.+1)%:R / a) S (scm X).
Proof.
move=> la; have [pS eS] := sol; have q0 j := maha_ge0 (samp X j) pS; have aq j : 0 < a + maha S (samp X j) by rewrite ltr_spaddl.
have b0 : 0 < a + p.+1%:R by rewrite ltr_spaddl ?ler0n.
have P0 : 0 <= p.+1%:R :> R by exact: ler0n.
have q2 j : maha S (samp X j) <= (2 * N)%:R by rewrite natrM; apply: df_q (student_maha j) => //; rewrite -natrM.
set e := _ / a; have ea : e * a = (2 * N + p.+1)%:R by rewrite divfK ?gt_eqF.
have e0 : 0 <= e by rewrite divr_ge0 ?ler0n ?ltW.
split.
  rewrite {1}eS /scm; apply: wsum_loewner => i; apply: df_w1 => //; apply: df_up => //; by rewrite ea ler_nat leq_addl.
rewrite [X in ofR _ *: X]eS /scm; apply: wsum_loewner => i; apply: df_w2 => //; apply: df_lo => //.
by rewrite ea natrD; apply: le_trans (q2 i) _; rewrite ler_addl.
Qed.
End Large.
Lemma large_fro (K : starField) N p (X : 'M[K]_(N, p.+1)) a S : student_solution a X S -> 0 < a -> (2 * N)%:R <= a ->
  fro (S - scm X) <= (2 * N + p.+1)%:R / a * fro (scm X).
Proof.
move=> sol a0 la; have sp := student_spanning sol; have [h1 h2] := large_close a0 sol la.
apply: loewner_fro => //; [exact: sol.1 | | by rewrite divr_ge0 ?ler0n ?ltW].
by apply: wsum_pd => // i; rewrite invr_gt0 ltr0n (spanning_N sp).
Qed.
(* so are all the iterates started from the empirical covariance *)
Section Iterates.
Variable K : starField.
Variables (N p : nat) (X : 'M[K]_(N, p.+1)) (a : R).
Hypotheses (a0 : 0 < a) (sp : spanning X) (la : (2 * N)%:R <= a).
Local Notation F := (mstep (stu_w N p.+1 a) X).
Lemma iter_large_fro k : fro (iter k F (scm X) - scm X) <= (2 * N + p.+1)%:R / a * fro (scm X).
Proof.
have N0 := spanning_N sp; have NR : 0 < N%:R :> R by rewrite ltr0n.
have b0 : 0 < a + p.+1%:R by rewrite ltr_spaddl ?ler0n.
have P0 : 0 <= p.+1%:R :> R by exact: ler0n.
have pc : pd (scm X) by apply: wsum_pd => // i; rewrite invr_gt0.
set e := _ / a; have ea : e * a = (2 * N + p.+1)%:R by rewrite divfK ?gt_eqF.
have e0 : 0 <= e by rewrite divr_ge0 ?ler0n ?ltW.
case: k => [|k]; first by rewrite /= subrr fro0 mulr_ge0 // fro_ge0.
have qb j : qbound a N p j <= 2%:R * N%:R.
  elim: j => [|j IH] /=; first by rewrite mulr_natl mulr2n ler_addl ler0n.
  move: la; rewrite natrM => la'; rewrite ler_pdivr_mulr // -mulrA mulrCA ler_pmul2l //; move: (qbound _ _ _ _) IH (p.+1%:R) P0 => q IH P P0; rlra2.
have [pk _] := student_bounds a0 N0 sp k (Ordinal N0); have qk i := (student_bounds a0 N0 sp k i).2.
have pF : pd (F (iter k F (scm X))) by exact: student_mstep_pd.
set S := iter k _ _ in pk qk pF *; have q0 i := maha_ge0 (samp X i) pk; have aq i : 0 < a + maha S (samp X i) by rewrite ltr_spaddl.
rewrite iterS; apply: loewner_fro => //; apply: wsum_loewner => i.
  by apply: df_w1 => //; apply: df_up => //; rewrite ea ler_nat leq_addl.
apply: df_w2 => //; apply: df_lo => //; rewrite ea natrD natrM; apply: le_trans (qk i) _; apply: le_trans (qb k) _; by rewrite ler_addl.
Qed.
End Iterates.
(* ---------------------------------------------------------------- few degrees of freedom *)
Lemma df_jensen (b s : R) : 0 < b -> 0 < s -> ln b - ln s <= b / s - 1.
Proof. by move=> b0 s0; have := ln_le_sub1 (divr_gt0 b0 s0); rewrite lnM ?invr_gt0 // lnV. Qed.
Lemma df_cost (a P t : R) : 0 < a <= 1 -> 0 < t -> 0 <= P -> (a + P) * ln (a + t) <= P * ln t + a * (ln (1 + t) + P / t).
Proof.
move=> /andP[a0 a1] t0 P0; have at0 : 0 < a + t by rewrite addr_gt0.
have h1 : ln (a + t) <= ln (1 + t) by apply: ln_le => //; rewrite ler_add2r.
have h2 : ln (a + t) - ln t <= a / t.
  have -> : a / t = (a + t) / t - 1 by rewrite mulrDl divff ?gt_eqF // addrK.
  exact: df_jensen.
have h3 : a * ln (a + t) <= a * ln (1 + t) by rewrite ler_pmul2l.
have h4 : P * (ln (a + t) - ln t) <= P * (a / t) by apply: ler_wpmul2l.
have e : P * (a / t) = a * (P / t) by rewrite mulrCA.
move: h3 h4; rewrite e; move: (ln _) (ln _) (ln _) (P / t) => x y z w h3 h4; rlra2.
Qed.
Lemma df_c1 (a P H G c t : R) : 0 < a + P -> 0 < P -> 0 < H -> 0 < t -> c * G <= (1 + t) * H -> (a + P) * G = P * H -> a <= t * P -> c <= (1 + t) * (1 + t).
Proof.
move=> b0 P0 H0 t0 h e ap; have t1 : 0 < 1 + t by rewrite addr_gt0 ?ltr01.
have G0 : 0 < G by rewrite -(pmulr_rgt0 _ b0) e mulr_gt0.
have k : H <= (1 + t) * G.
  rewrite -(ler_pmul2l P0) -e mulrA ler_pmul2r // mulrDr mulr1 addrC ler_add2l mulrC; exact: ap.
rewrite -(ler_pmul2r G0); apply: le_trans h _; by rewrite -mulrA ler_pmul2l.
Qed.
Lemma df_c2 (a P H G k : R) : 0 < a -> 0 < P -> 0 < H -> 0 < k -> H <= k * G -> (a + P) * G = P * H -> 1 <= k.
Proof.
move=> a0 P0 H0 k0 h e; have b0 : 0 < a + P by rewrite addr_gt0.
have G0 : 0 < G by rewrite -(pmulr_rgt0 _ b0) e mulr_gt0.
have GH : G <= H by rewrite -(ler_pmul2l P0) -e ler_pmul2r // ler_addr ltW.
by rewrite -(ler_pmul2r G0) mul1r; exact: le_trans h.
Qed.

Section Small.
Variable K : starField.
Local Notation ofR := (@ofR K).
Hypothesis cK : compactK K.
Variables (N p : nat) (X : 'M[K]_(N, p.+1)).
Hypotheses (X0 : forall i, row i X != 0) (N0 : (0 < N)%N).
Let PR : 0 < p.+1%:R :> R. Proof. by rewrite ltr0n. Qed.
Let NR : 0 < N%:R :> R. Proof. by rewrite ltr0n. Qed.
Let x0 i : samp X i != 0. Proof. exact: samp_neq0. Qed.
(* the solutions almost minimise the cost of Tyler's equation *)
Definition gap_const (T : 'M[K]_p.+1) : R := \sum_i (ln (1 + maha T (samp X i)) + p.+1%:R / maha T (samp X i)).
Lemma student_excess a S T : 0 < a <= 1 -> student_solution a X S -> pd T -> tcost X S <= tcost X T + a * gap_const T.
Proof.
move=> a01 sol pT; have [a0 a1] := andP a01; have [pS eS] := sol; have q0 i := maha_gt0 pS (x0 i); have t0 i := maha_gt0 pT (x0 i).
have b0 : 0 < a + p.+1%:R by rewrite addr_gt0.
have J : N%:R * ln (a + p.+1%:R) <= \sum_i ln (a + maha S (samp X i)).
  have := student_total a0 N0 sol; rewrite mulr_sumr => tot.
  have : \sum_i (ln (a + p.+1%:R) - ln (a + maha S (samp X i))) <= \sum_i ((a + p.+1%:R) / (a + maha S (samp X i)) - 1).
    by apply: ler_sum => i _; apply: df_jensen => //; rewrite addr_gt0.
  by rewrite !sumrB tot !sumr_const card_ord subrr subr_le0 mulr_natl.
have J0 : 0 <= \sum_i ln (a + maha S (samp X i)).
  apply: le_trans J; apply: mulr_ge0; first exact: ler0n.
  rewrite -ln1; apply: ln_le; first exact: ltr01.
  by apply: (@le_trans _ _ p.+1%:R); [rewrite (ler_nat _ 1 p.+1) | rewrite ler_addr ltW].
have M : student_objective a X S <= student_objective a X T by rewrite -!student_mcost; apply: stu_min => //; rewrite -eS.
have h1 : tcost X S + a * (\sum_i ln (a + maha S (samp X i))) <= student_objective a X S.
  rewrite /tcost /student_objective addrAC ler_add2r mulrDl addrC ler_add2l; apply: ler_wpmul2l; first exact: ltW.
  by apply: ler_sum => i _; apply: ln_le => //; rewrite ler_addr ltW.
have h2 : student_objective a X T <= tcost X T + a * gap_const T.
  rewrite /tcost /student_objective addrAC ler_add2r /gap_const !mulr_sumr -big_split; apply: ler_sum => i _.
  by apply: df_cost => //; exact: ltW.
by apply: le_trans h2; apply: le_trans M; apply: le_trans h1; rewrite ler_addl; apply: mulr_ge0 => //; exact: ltW.
Qed.
(* Tyler's solutions are rescaled so that the mean of 1/q is 1/p *)
Lemma harmonicZ c S : 0 < c -> pd S -> p.+1%:R * (\sum_i (maha (ofR c *: S) (samp X i))^-1) = c * (p.+1%:R * (\sum_i (maha S (samp X i))^-1)).
Proof.
move=> c0 pS; rewrite mulrCA; congr (_ * _); rewrite mulr_sumr; apply: eq_bigr => i _; by rewrite maha_scale // invf_div.
Qed.
Lemma tyler_harmonic : tyler_condition X -> exists2 T, tyler_solution X T & harmonic X T.
Proof.
move=> cond; have [S sS] := tyler_exists cK X0 N0 cond; have q0 i := maha_gt0 sS.1 (x0 i).
pose h := p.+1%:R * (\sum_i (maha S (samp X i))^-1); have h0 : 0 < h.
  rewrite mulr_gt0 // (bigD1 (Ordinal N0)) //= ltr_spaddl ?invr_gt0 //; apply: sumr_ge0 => i _; by rewrite invr_ge0 ltW.
have c0 : 0 < N%:R / h by rewrite divr_gt0.
exists (ofR (N%:R / h) *: S); first exact: tyler_solution_scale.
by rewrite /harmonic (harmonicZ c0 sS.1) -/h divfK ?gt_eqF.
Qed.
Lemma harmonic_unique S T : tyler_condition X -> tyler_solution X S -> harmonic X S -> tyler_solution X T -> harmonic X T -> S = T.
Proof.
move=> cond sS hS sT hT; have [c c0 e] := tyler_unique N0 X0 (tyler_irreducible X0 N0 cond) sS sT.
move: hT; rewrite e /harmonic (harmonicZ c0 sS.1) hS.
by move=> /eqP; rewrite -{2}[N%:R]mul1r => /eqP /(mulIf (lt0r_neq0 NR)) ->; rewrite rmorph1 scale1r.
Qed.
Variable T : 'M[K]_p.+1.
Hypotheses (sT : tyler_solution X T) (hT : harmonic X T) (cond : tyler_condition X).
Lemma small_shape (t : R) : 0 < t -> exists2 a0 : R, 0 < a0 & forall a S, 0 < a <= a0 -> student_solution a X S ->
  exists2 c : R, 0 < c & close t (ofR c *: S) T.
Proof.
move=> t0; have [C hC] := near_coercive cK X0 N0 cond; have hX : forall T d U, pd T -> eigdec T d U -> forall l l', C + (ln (d 0 l) - ln (d 0 l')) <= tcost X T.
  by case: hC => d d0 h; apply: h; rewrite subrr -fro_sq fro0 expr0n ltW.
have g0 : 0 <= gap_const T.
  apply: sumr_ge0 => i _; have q0 := maha_gt0 sT.1 (x0 i); apply: addr_ge0; last by rewrite divr_ge0 ?ler0n ?ltW.
  by rewrite -ln1; apply: ln_le; rewrite ?ltr01 // ler_addl ltW.
pose M := Rtrigo_def.exp (tcost X T + gap_const T - C); have [eta e0 he] := excess_close cK X0 N0 sT cond M t0.
pose a0 := Num.min 1 (eta / (1 + gap_const T)); have g1 : 0 < 1 + gap_const T by rewrite ltr_spaddl ?ltr01.
exists a0; first by rewrite lt_minr ltr01 divr_gt0.
move=> a S /andP[aa]; rewrite le_minr => /andP[a1 ae] sol; have a01 : 0 < a <= 1 by rewrite aa a1.
have ex := student_excess a01 sol sT.1; apply: he; first exact: sol.1.
  have dec := specdecP (pd_herm sol.1); apply: (ratio_conditioned sol.1 dec) => l l'; rewrite ler_subr_addl.
  apply: le_trans (hX _ _ _ sol.1 dec l l') _; apply: le_trans ex _; rewrite ler_add2l; exact: ler_pimull.
apply: le_trans ex _; rewrite ler_add2l; move: ae; rewrite ler_pdivl_mulr // => ae; apply: le_trans ae.
by apply: ler_wpmul2l; [exact: ltW | rewrite ler_addr ler01].
Qed.
(* the factor tends to 1 *)
Lemma small_factor a S c (t : R) : 0 < t -> 0 < a -> 0 < c -> student_solution a X S -> close t (ofR c *: S) T ->
  a <= t * p.+1%:R -> (forall i, (1 + t) * a <= t * maha T (samp X i)) -> c <= (1 + t) * (1 + t) /\ 1 <= (1 + t) * (1 + t) * c.
Proof.
move=> t0 a0 c0 sol [cl1 cl2] ap aq; have tot := student_total a0 N0 sol; have t1 : 0 < 1 + t by rewrite addr_gt0 ?ltr01.
have pS := sol.1; have pT := sT.1; have q0 i := maha_gt0 pS (x0 i); have r0 i := maha_gt0 pT (x0 i).
have pcS : pd (ofR c *: S) by apply: pdZ; rewrite ?ofR_gt0.
have m1 i : c * maha T (samp X i) <= (1 + t) * maha S (samp X i).
  by have := maha_loewner (samp X i) pcS pT cl1; rewrite maha_scale // mulrA ler_pdivl_mulr // mulrC.
have m2 i : maha S (samp X i) <= (1 + t) * c * maha T (samp X i).
  by have := maha_loewner (samp X i) pT pcS cl2; rewrite maha_scale // ler_pdivr_mulr // mulrAC.
pose H : R := \sum_i (maha T (samp X i))^-1; have eH : p.+1%:R * H = N%:R by exact: hT.
have H0 : 0 < H by rewrite -(pmulr_rgt0 _ PR) eH.
pose G : R := \sum_i (a + maha S (samp X i))^-1; have eG : (a + p.+1%:R) * G = N%:R by exact: tot.
have b0 : 0 < a + p.+1%:R by rewrite addr_gt0.
have GH : (a + p.+1%:R) * G = p.+1%:R * H by rewrite eG eH.
split.
  have : c * G <= (1 + t) * H.
    rewrite /G /H !mulr_sumr; apply: ler_sum => i _; rewrite ler_pdivr_mulr ?addr_gt0 // mulrAC ler_pdivl_mulr //.
    by apply: le_trans (m1 i) _; rewrite ler_pmul2l // ler_addr ltW.
  by move=> h; apply: (df_c1 b0 PR H0 t0 h GH).
have h : H <= ((1 + t) * c + t / (1 + t)) * G.
  rewrite /G /H mulr_sumr; apply: ler_sum => i _; rewrite ler_pdivl_mulr ?addr_gt0 // mulrC ler_pdivr_mulr // (mulrDl ((1 + t) * c)) addrC.
  by apply: ler_add; [exact: m2 | rewrite mulrAC ler_pdivl_mulr // [a * _]mulrC].
have k0 : 0 < (1 + t) * c + t / (1 + t) by rewrite addr_gt0 ?mulr_gt0 ?invr_gt0.
have k1 : 1 <= (1 + t) * c + t / (1 + t) by apply: (df_c2 a0 PR H0 k0 h GH).
have -> : (1 + t) * (1 + t) * c = (1 + t) * ((1 + t) * c + t / (1 + t)) - t by rewrite (mulrDr (1 + t) ((1 + t) * c)) [(1 + t) * (t / _)]mulrC divfK ?gt_eqF // mulrA addrK.
by rewrite ler_subr_addr ler_pmulr.
Qed.
(* the solutions tend to T *)
Lemma small_close (e : R) : 0 < e -> exists2 a0 : R, 0 < a0 & forall a S, 0 < a <= a0 -> student_solution a X S -> close e S T.
Proof.
move=> e0; have [t t0 ht] := small3 e0; have [a1 a10 ha] := small_shape t0; have t1 : 0 < 1 + t by rewrite addr_gt0 ?ltr01.
have r0 i := maha_gt0 sT.1 (x0 i).
have [q qq hq] : exists2 q : R, 0 < q & forall i, q <= maha T (samp X i).
  exists (p.+1%:R / N%:R) => [|i]; first exact: divr_gt0.
  rewrite ler_pdivr_mulr // -ler_pdivr_mull // -[X in _ <= X](hT : _ = _) mulrC ler_pmul2l // (bigD1 i) //= ler_addl.
  by apply: sumr_ge0 => j _; rewrite invr_ge0 ltW.
exists (Num.min a1 (Num.min (t * p.+1%:R) (t * q / (1 + t)))); first by rewrite !lt_minr a10 !(mulr_gt0, invr_gt0).
move=> a S /andP[aa]; rewrite !le_minr => /and3P[aa1 ap aq] sol; have [|c c0 cl] := ha a S _ sol; first by rewrite aa.
have [||u l] := small_factor t0 aa c0 sol cl => //.
  by move=> i; rewrite mulrC -ler_pdivl_mulr // (le_trans aq) // ler_pmul2r ?invr_gt0 // ler_pmul2l.
have cc : close ((1 + t) * (1 + t) - 1) S (ofR c *: S).
  by rewrite /close addrCA subrr addr0; split; [rewrite scalerA -rmorphM -{1}[S]scale1r -(rmorph1 (@Star.ofR K))|]; apply: loewner_le => //; exact/pd_psd/sol.1.
have := close_trans _ (ltW t0) cc cl; rewrite [1 + (_ - 1)]addrCA subrr addr0 => h; apply: close_le (h _); [exact/pd_psd/sol.1 | exact/pd_psd/sT.1 | | ].
  by apply: le_trans ht; rewrite [1 + (_ - 1)]addrCA subrr addr0 mulrC.
by rewrite subr_ge0; apply: mulr_ege1; rewrite ler_addl ltW.
Qed.
End Small.
