(* The solutions of Tyler's equation for two sets of samples whose empirical distributions are close, and sets of samples
   that are close.  Nothing here models code. *)
From Coq Require Import Reals String Lra Classical_Prop.
From mathcomp Require Import all_ssreflect all_algebra.
From mathcomp Require Import zify.
From Verif Require Import RealsMC RealTac RealTac2 Star StarInst FunCalc Model_featurearray Model_covariance Spec_covariance Spec_fixedpoint Spec_exist
  Proofs_mest Proofs_cost Proofs_unique Proofs_unique2 Compact Proofs_estimators Proofs_converge Props_cost Props_robust Props_unique Props_converge
  Proofs_exist Proofs_exist2 Props_exist Spec_breakdown Proofs_breakdown Proofs_breakdown2 Proofs_stable Proofs_stable2 Proofs_tycont Proofs_tyrate Props_tyrate Proofs_tylip Spec_tv Proofs_tv.
Set Implicit Arguments.
Unset Strict Implicit.
Unset Printing Implicit Defensive.
Local Open Scope ring_scope.
Import GRing.Theory Num.Theory Order.TTheory.

Lemma tv_arith3 (D u v C m h B : R) : D <= u - C -> u <= v + m -> m <= h -> h + h = D + (2%:R * B + 1) -> u - C <= 2%:R * (v - C) + (2%:R * B + 1).
Proof. by rewrite -[2%:R]/(1 + 1) => h1 h2 h3 h4; have {}h4 : h + h <= D + ((1 + 1) * B + 1) by [rewrite h4]; rlra2. Qed.
Section Tyler.
Variable K : starField.
Local Notation ofR := (@ofR K).
Local Notation toR := (@toR K).
Local Notation "A ^H" := (adj A) (at level 8, format "A ^H").
Hypothesis cK : compactK K.
(* the proportion of the samples in a subspace *)
Lemma mean_count N p (X : 'M[K]_(N, p)) (V : 'M[K]_p) : mean X (fun x => ((x^T <= V)%MS)%:R) = (count_in X V)%:R / N%:R.
Proof.
rewrite /mean /count_in; congr (_ / _); rewrite -sum1_card natr_sum [RHS]big_mkcond; apply: eq_bigr => i _.
by rewrite inE /samp trmxK; case: (_ <= _)%MS.
Qed.
Variables (N p : nat) (X : 'M[K]_(N, p.+1)) (S : 'M[K]_p.+1).
Hypotheses (X0 : forall i, row i X != 0) (N0 : (0 < N)%N) (cond : tyler_condition X) (sol : tyler_solution X S).
Lemma tv_count N' (Y : 'M[K]_(N', p.+1)) (e : R) V : tv_le e X Y -> (count_in Y V)%:R / N'%:R <= (count_in X V)%:R / N%:R + e.
Proof.
move=> /(_ (fun x => ((x^T <= V)%MS)%:R)); rewrite !mean_count => h; have {}h := h _; rewrite addrC -ler_subl_addr.
by apply: le_trans (ler_norm _) (h _) => x; case: (_ <= _)%MS; rewrite ?lexx ?ler01.
Qed.
Lemma tv_condition N' (Y : 'M[K]_(N', p.+1)) (e : R) : (0 < N')%N -> tv_le e X Y -> e * (N%:R * p.+1%:R) < 1 -> tyler_condition Y.
Proof.
move=> N'0 tv small V rV; have h := tv_count V tv; have c1 := cond rV.
have {}c1 : p.+1%:R * (count_in X V)%:R + 1 <= N%:R * (\rank V)%:R :> R by rewrite -!natrM -[1]/(1%:R) -natrD ler_nat addn1.
have n0 : 0 < N%:R :> R by rewrite ltr0n.
have n'0 : 0 < N'%:R :> R by rewrite ltr0n.
have p0 : 0 < p.+1%:R :> R by rewrite ltr0n.
rewrite -(ltr_nat [numDomainType of R]) !natrM; move: small c1 n0 n'0 p0 h; move: (count_in X V)%:R (count_in Y V)%:R (\rank V)%:R (N%:R) (N'%:R) (p.+1%:R) => x y r n n' P small c1 n0 n'0 p0 h.
have {}h : y * n <= (x + e * n) * n'.
  move: h; rewrite ler_pdivr_mulr // => /(ler_wpmul2r (ltW n0)) /le_trans; apply.
  by rewrite [X in X <= _]mulrAC [(x / n + e) * n]mulrDl divfK ?gt_eqF.
rewrite -(ltr_pmul2r n0) -mulrA; apply: le_lt_trans (ler_wpmul2l (ltW p0) h) _.
rewrite mulrA [X in _ < X]mulrC mulrA [X in _ < X]mulrAC; rewrite -subr_gt0 -mulrBl; apply: mulr_gt0 => //; rewrite subr_gt0.
by apply: lt_le_trans c1; rewrite mulrDr ltr_add2l mulrCA [P * n]mulrC.
Qed.
(* the excess of cost, for the samples X, of the solutions for the samples Y *)
Lemma tv_cost N' (Y : 'M[K]_(N', p.+1)) (e : R) T (lo w : R) : (0 < N')%N -> (forall i, row i Y != 0) -> tv_le e X Y -> tyler_solution Y T -> 0 < w ->
  (forall x, x != 0 -> lo <= ln (maha T x) - ln (maha S x) <= lo + w) -> tcost X T <= tcost X S + N%:R * (p.+1%:R * (e * w)).
Proof.
move=> N'0 Y0 tv [pT eT] w0 hx; have pS := sol.1; have := tyler_min N'0 Y0 pT pS eT.
pose g (x : 'cV[K]_p.+1) : R := if x == 0 then 0 else (ln (maha T x) - ln (maha S x) - lo) / w.
have g01 x : 0 <= g x <= 1.
  rewrite /g; case: eqP => [_|/eqP x0]; first by rewrite lexx ler01.
  have /andP[l1 l2] := hx x x0; rewrite divr_ge0 ?subr_ge0 ?(ltW w0) //= ler_pdivr_mulr // mul1r ler_subl_addl //.
have := tv g g01; rewrite distrC ler_norml => /andP[_].
have E n (Z : 'M[K]_(n, p.+1)) : (0 < n)%N -> (forall i, row i Z != 0) -> tcost Z T - tcost Z S = n%:R * (p.+1%:R * (mean Z g * w + lo) + (ln (toR (\det T)) - ln (toR (\det S)))).
  move=> n0 Z0; have nn : n%:R != 0 :> R by rewrite pnatr_eq0 -lt0n.
  have -> : mean Z g * w + lo = (\sum_i (ln (maha T (samp Z i)) - ln (maha S (samp Z i)))) / n%:R.
    have -> : \sum_i (ln (maha T (samp Z i)) - ln (maha S (samp Z i))) = \sum_i (g (samp Z i) * w + lo).
      apply: eq_bigr => i _; rewrite /g (negbTE (samp0 Z0 i)) divfK ?gt_eqF // subrK //.
    rewrite big_split /= sumr_const card_ord -mulr_suml mulrDl -[lo *+ n]mulr_natl [n%:R * lo]mulrC mulfK //.
    by rewrite /mean [_ * w]mulrAC.
  rewrite /tcost sumrB; move: (\sum_i ln (maha T _)) (\sum_i ln (maha S _)) (ln (toR (\det T))) (ln (toR (\det S))) n%:R nn => A B c d m mm.
  have -> : m * (p.+1%:R * ((A - B) / m) + (c - d)) = p.+1%:R * (A - B) * (m / m) + m * (c - d) by move: m^-1 => m'; rring.
  by rewrite divff // mulr1; rring.
move=> h1; rewrite -subr_le0 E //; have n'0 : 0 < N'%:R :> R by rewrite ltr0n.
rewrite pmulr_rle0 // => h2; rewrite -ler_subl_addl E //; apply: ler_wpmul2l; first exact: ler0n.
move: h1 h2; move: (mean X g) (mean Y g) (ln _ - ln _) => x y c h1 h2.
have h3 : p.+1%:R * ((x - y) * w) <= p.+1%:R * (e * w) by apply: ler_wpmul2l; [exact: ler0n | apply: ler_wpmul2r => //; exact: ltW].
move: h2 h3; move: (p.+1%:R) => P; clear; move=> *; rlra2.
Qed.
(* bounds of the logarithms *)
Lemma tv_logs : exists2 B : R, 0 <= B & forall T d U, pd T -> eigdec T d U -> exists l l', forall x, x != 0 ->
  - ln (d 0 l) - B <= ln (maha T x) - ln (maha S x) <= - ln (d 0 l') + B.
Proof.
have pS := sol.1; have [b [b1 s1 s2]] := pd_comparable pS (pd1 K p.+1); have b0 := lt_le_trans ltr01 b1.
have B0 : 0 <= ln b by rewrite -ln1; apply: ln_le; rewrite ?ltr01.
exists (ln b) => // T d U pT dec; have d0 := eigdec_pos pT dec.
have [l hl] := arg_ord (fun j => - d 0 j); have [l' hl'] := arg_ord (fun j => d 0 j); exists l, l' => x x0.
have mT := maha_gt0 pT x0; have mS := maha_gt0 pS x0; have n0 : 0 < nv x by rewrite -maha_nv; exact: maha_gt0 (pd1 _ _) x0.
have lT : loewner T (ofR (d 0 l) *: 1%:M) by apply: (eig_up dec) => j; rewrite -ler_opp2; exact: hl.
have lT' : loewner (1%:M : 'M[K]_p.+1) (ofR (d 0 l')^-1 *: T).
  have i0 : 0 <= (d 0 l')^-1 by rewrite invr_ge0 ltW.
  have := loewnerZ i0 (eig_low dec hl'); by rewrite scalerA -rmorphM mulVf ?gt_eqF // rmorph1 scale1r.
have u1 := maha_loewner x pT (pd1 K p.+1) lT; have u2 := maha_loewner x (pd1 K p.+1) pT lT'.
have u3 := maha_loewner x pS (pd1 K p.+1) s1; have u4 := maha_loewner x (pd1 K p.+1) pS s2; rewrite !maha_nv in u1 u2 u3 u4.
have i0 : 0 < (d 0 l')^-1 by rewrite invr_gt0.
have := ln_le n0 u1; have := ln_le mT u2; have := ln_le n0 u3; have := ln_le mS u4; rewrite !lnM // lnV // ; clear.
move: (ln (maha T x)) (ln (maha S x)) (ln (nv x)) (ln b) (ln (d 0 l)) (ln (d 0 l')) => t s n bb dl dl' h1 h2 h3 h4; apply/andP; split; rlra2.
Qed.
Lemma tv_tyler_close (t : R) : 0 < t -> exists2 e0 : R, 0 < e0 & forall N' (Y : 'M[K]_(N', p.+1)) e T, (forall i, row i Y != 0) -> tv_le e X Y -> e <= e0 ->
  tyler_condition Y /\ (tyler_solution Y T -> exists2 c : R, 0 < c & close t (ofR c *: T) S).
Proof.
move=> t0; have [B B0 hB] := tv_logs; have [C hC] := near_coercive cK X0 N0 cond; have {}hC := near_at hC.
pose D0 := 2%:R * (tcost X S - C) + (2%:R * B + 1).
have [eta eta0 he] := excess_close cK X0 N0 sol cond (Rtrigo_def.exp D0) t0.
have n0 : 0 < N%:R * p.+1%:R :> R by rewrite mulr_gt0 ?ltr0n.
have n1 : 1 <= N%:R * p.+1%:R :> R by rewrite -natrM ler1n muln_gt0 N0.
pose W := `|D0| + (2%:R * B + 1); have W0 : 0 < W by rewrite ltr_paddl // ltr_spaddr ?ltr01 // mulr_ge0 ?ler0n.
exists (Num.min (2%:R * (N%:R * p.+1%:R))^-1 (eta / (N%:R * p.+1%:R * W))).
  by rewrite lt_minr invr_gt0 mulr_gt0 ?ltr0n //= divr_gt0 // mulr_gt0.
move=> N' Y e T Y0 tv; rewrite le_minr => /andP[e1 e2]; have ep := tv_ge0 tv.
have e1' : 2%:R * (N%:R * p.+1%:R) * e <= 1 by rewrite mulrC -ler_pdivl_mulr ?mulr_gt0 ?ltr0n // div1r.
have half : e * (N%:R * p.+1%:R) < 1.
  by move: e1' ep; rewrite -[2%:R]/(1 + 1); move: (N%:R * p.+1%:R) => n; clear; move=> *; rlra2.
have N'0 : (0 < N')%N by apply: (tv_nonempty N0 tv); apply: le_lt_trans half; rewrite ler_pemulr.
split; first exact: tv_condition tv half.
move=> sT; have pT := sT.1; have dec := specdecP (pd_herm pT); have [l [l' hl]] := hB T _ _ pT dec.
pose D := ln ((specdec T).1 0 l) - ln ((specdec T).1 0 l').
have hx x : x != 0 -> - ln ((specdec T).1 0 l) - B <= ln (maha T x) - ln (maha S x) <= - ln ((specdec T).1 0 l) - B + (D + (2%:R * B + 1)).
  move=> /hl /andP[-> /=] /le_trans; apply; rewrite /D -[2%:R]/(1 + 1); move: (ln _) (ln _) B0 => u v B0; rlra2.
have w0 : 0 < D + (2%:R * B + 1).
  have v0 : (const_mx 1 : 'cV[K]_p.+1) != 0 by apply/eqP => /matrixP /(_ 0 0) /eqP; rewrite !mxE oner_eq0.
  case/andP: (hl _ v0); rewrite /D -[2%:R]/(1 + 1); move: (ln (maha T _) - ln (maha S _)) (ln (_ 0 l)) (ln (_ 0 l')) => w u v; clear -B0; move=> *; rlra2.
have cost := tv_cost N'0 Y0 tv sT w0 hx.
have all_D l1 l2 : ln ((specdec T).1 0 l1) - ln ((specdec T).1 0 l2) <= tcost X T - C by rewrite ler_subr_addl; exact: (hC T _ _ pT dec).
have costD := all_D l l'; rewrite -/D in costD.
have e1w : N%:R * (p.+1%:R * (e * (D + (2%:R * B + 1)))) <= (D + (2%:R * B + 1)) / 2%:R.
  have -> : N%:R * (p.+1%:R * (e * (D + (2%:R * B + 1)))) = 2%:R * (N%:R * p.+1%:R) * e * ((D + (2%:R * B + 1)) / 2%:R).
    move: (N%:R) (p.+1%:R) (D + _) => n P w; rfield.
  by apply: ler_pimull => //; rewrite divr_ge0 ?ler0n // ltW.
have half2 : (D + (2%:R * B + 1)) / 2%:R + (D + (2%:R * B + 1)) / 2%:R = D + (2%:R * B + 1) by rfield.
have cT : tcost X T - C <= D0.
  exact: tv_arith3 costD cost e1w half2.
have cdn : conditioned (Rtrigo_def.exp D0) T by apply: (ratio_conditioned pT dec) => l1 l2; exact: le_trans (all_D l1 l2) cT.
apply: he => //; apply: le_trans cost _; rewrite ler_add2l.
have DW : D + (2%:R * B + 1) <= W by rewrite /W ler_add2r; apply: le_trans (ler_norm _); exact: le_trans costD cT.
have -> : N%:R * (p.+1%:R * (e * (D + (2%:R * B + 1)))) = e * (N%:R * p.+1%:R * (D + (2%:R * B + 1))).
  by move: (N%:R) (p.+1%:R) (D + _) => n P w; rring.
apply: le_trans (_ : e * (N%:R * p.+1%:R * W) <= _); last by rewrite -ler_pdivl_mulr // mulr_gt0.
by apply: ler_wpmul2l => //; apply: ler_wpmul2l => //; exact: ltW.
Qed.
Lemma tv_tyler : exists2 e0 : R, 0 < e0 & exists2 C : R, 0 <= C & forall N' (Y : 'M[K]_(N', p.+1)) e, (forall i, row i Y != 0) -> tv_le e X Y -> e <= e0 ->
  [/\ (0 < N')%N, tyler_condition Y & forall T nrm, scaling_norm nrm -> tyler_solution Y T -> fro (normalised nrm T - normalised nrm S) <= C * e * fro (normalised nrm S)].
Proof.
have irr := tyler_irreducible X0 N0 cond; have pS := sol.1.
have [t0 [M [t00 t01 M0 hM]]] := tyl_resid cK X0 irr sol; have [e0 e00 he] := tv_tyler_close t00.
have fS := fro_ge0 S; pose C1 := M * (p.+1%:R * (2%:R * fro S)).
have C10 : 0 <= C1 by rewrite !mulr_ge0 ?ler0n.
exists (Num.min e0 2%:R^-1); first by rewrite lt_minr e00 invr_gt0 ltr0n.
exists (2%:R * C1 + C1 * C1 * 1); first by rewrite addr_ge0 ?mulr_ge0 ?ler0n ?ler01.
move=> N' Y e Y0 tv; rewrite le_minr => /andP[ee e1]; have ep := tv_ge0 tv.
have el : e < 1 by apply: le_lt_trans e1 _; rewrite invf_lt1 ?ltr0n // ltr1n.
have N'0 := tv_nonempty N0 tv el; split=> //; first by have [] := he _ _ _ 1%:M Y0 tv ee.
move=> T nrm hn sT; have [_ /(_ sT) [c c0 cl]] := he _ _ _ T Y0 tv ee; have sv := tyler_solution_scale c0 sT.
have -> : normalised nrm T = normalised nrm (ofR c *: T) by rewrite (same_normalised hn sT.1 (T := ofR c *: T)) //; exists c.
move: (ofR c *: T) cl sv => v cl [pv ev].
have wE n q : p.+1%:R / n%:R / q = ratio (p.+1%:R / n%:R) 0 q by rewrite /ratio add0r.
have fY : mstep (ratio (p.+1%:R / N'%:R) 0) Y v = v by rewrite {2}ev; apply: eq_wsum => i; rewrite wE.
have fX : mstep (tyl_w N p.+1) X v = mstep (ratio (p.+1%:R / N%:R) 0) X v by apply: eq_wsum => i; rewrite -wE.
have pp : 0 <= p.+1%:R :> R by exact: ler0n.
have d1 := tv_step pv pp (lexx 0) tv; have d2 := tv_step pv pp (lexx 0) (tv_sym tv); rewrite fY -fX in d1 d2.
have pe : 0 <= p.+1%:R * e by rewrite mulr_ge0.
have dist : fro (mstep (tyl_w N p.+1) X v - v) <= p.+1%:R * e * fro v.
  rewrite -froZ //; apply/RleP; apply: R_sqrt.sqrt_le_1_alt; apply/RleP; apply: fro2_loewner.
  - by apply: hermZR; exact: pd_herm.
  - by apply: hermB; [exact: wsum_hermg | exact: pd_herm].
  - by move: d2; rewrite /loewner opprB addrA [ofR _ *: v + v]addrC.
  - by move: d1; rewrite /loewner addrA [ofR _ *: v + _]addrC.
have t0' : 0 <= t0 <= 1 by rewrite ltW.
have [l l0 cl2] := hM v pv cl; have pl : pd (ofR l *: S) by apply: pdZ => //; rewrite ofR_gt0.
have -> : normalised nrm S = normalised nrm (ofR l *: S) by rewrite (same_normalised hn pS (T := ofR l *: S)) //; exists l.
have cl3 : close (C1 * e) v (ofR l *: S).
  apply: close_le (pd_psd pv) (pd_psd pl) _ cl2; rewrite /C1 -mulrA; apply: ler_wpmul2l => //; apply: le_trans dist _.
  rewrite [X in _ <= X]mulrAC; apply: ler_wpmul2l => //; exact: (close_froS pv pS t0' cl).
apply: near_le (close_near nrm _ pv pl cl3); last by rewrite mulr_ge0.
apply: quad_bound => //; exact: ltW.
Qed.
End Tyler.

(* ------------------------------------------------------------------ sets of samples that are close *)
Section Sets.
Variables (K : starField) (p : nat).
(* replacing k of the samples *)
Lemma tv_replace N (X Y : 'M[K]_(N, p)) k : (#|[set i | row i Y != row i X]| <= k)%N -> tv_le (k%:R / N%:R) X Y.
Proof.
move=> hk g hg; rewrite /mean -mulrBl -sumrB normrM normfV [`|N%:R|]ger0_norm ?ler0n //; apply: ler_wpmul2r; first by rewrite invr_ge0 ler0n.
apply: le_trans (ler_norm_sum _ _ _) _; apply: le_trans (_ : (#|[set i | row i Y != row i X]|)%:R <= _); last by rewrite ler_nat.
rewrite -sum1_card natr_sum [X in _ <= X]big_mkcond; apply: ler_sum => i _; rewrite inE /samp; case: eqP => [->|_].
  by rewrite subrr normr0.
have /andP[a b] := hg (row i Y)^T; have /andP[c d] := hg (row i X)^T; move: (g _) (g _) a b c d => u v a b c d.
by rewrite ler_norml; apply/andP; split; clear -a b c d; rlra2.
Qed.
(* adding k samples *)
Lemma samp_col_mx N k (X : 'M[K]_(N, p)) (Z : 'M[K]_(k, p)) (g : 'cV[K]_p -> R) :
  \sum_i g (samp (col_mx X Z) i) = \sum_i g (samp X i) + \sum_i g (samp Z i).
Proof.
by rewrite big_split_ord /=; congr (_ + _); apply: eq_bigr => i _; rewrite /samp ?rowKu ?rowKd.
Qed.
Lemma sum01 N (X : 'M[K]_(N, p)) (g : 'cV[K]_p -> R) : (forall x, 0 <= g x <= 1) -> 0 <= \sum_i g (samp X i) <= N%:R.
Proof.
move=> hg; apply/andP; split; first by apply: sumr_ge0 => i _; case/andP: (hg (samp X i)).
by rewrite -[X in _ <= X%:R]card_ord -sumr_const; apply: ler_sum => i _; case/andP: (hg (samp X i)).
Qed.
Lemma tv_add N k (X : 'M[K]_(N, p)) (Z : 'M[K]_(k, p)) : (0 < N)%N -> tv_le (k%:R / (N + k)%:R) X (col_mx X Z).
Proof.
move=> N0 g hg; rewrite /mean samp_col_mx; have := sum01 X hg; have := sum01 Z hg; move: (\sum_i g (samp Z i)) (\sum_i g (samp X i)) => z x /andP[z0 z1] /andP[x0 x1].
have n0 : 0 < N%:R :> R by rewrite ltr0n. have k0 : 0 <= k%:R :> R by exact: ler0n.
rewrite natrD; move: (N%:R) (k%:R) n0 k0 x1 z1 => n q n0 q0 x1 z1; have s0 : 0 < n + q by rewrite ltr_spaddl.
have -> : (x + z) / (n + q) - x / n = (z - q * (x / n)) / (n + q).
  have n1 : n <> 0 by [apply/eqP; rewrite gt_eqF]; have s1 : n + q <> 0 by [apply/eqP; rewrite gt_eqF].
  by move: n1 s1; clear; move=> n1 s1; rfield; split.
have u : 0 <= x / n <= 1 by rewrite divr_ge0 ?(ltW n0) //= ler_pdivr_mulr // mul1r.
rewrite normrM normfV [`|n + q|]gtr0_norm // ; apply: ler_wpmul2r; first by rewrite invr_ge0 ltW.
move: (x / n) u => r /andP[r0 r1]; have h1 : 0 <= q * r by rewrite mulr_ge0. have h2 : q * r <= q by rewrite ler_pimulr.
by rewrite ler_norml; apply/andP; split; clear -h1 h2 z0 z1; move: (q * r) h1 h2 => w h1 h2; rlra2.
Qed.
(* taking every sample m times, in any order *)
Lemma tv_repeat N N' (X : 'M[K]_(N, p)) (Y : 'M[K]_(N', p)) (f : 'I_N' -> 'I_N) m : (0 < m)%N -> (forall i, row i Y = row (f i) X) ->
  (forall j, #|[set i | f i == j]| = m) -> tv_le 0 X Y.
Proof.
move=> m0 hY hf g hg; have e : \sum_i g (samp Y i) = m%:R * \sum_j g (samp X j).
  rewrite (partition_big f xpredT) //= mulr_sumr; apply: eq_bigr => j _; rewrite (eq_bigr (fun=> g (samp X j))) => [|i /eqP <-]; last by rewrite /samp hY.
  by rewrite sumr_const mulr_natl -(hf j); congr (_ *+ _); apply: eq_card => i; rewrite !inE.
have n : N' = (m * N)%N.
  rewrite -[LHS]card_ord -sum1_card (partition_big f xpredT) //= (eq_bigr (fun=> m)) => [|j _]; last first.
    by rewrite sum1_card -(hf j); apply: eq_card => i; rewrite !inE.
  by rewrite sum_nat_const card_ord mulnC.
rewrite /mean e; have -> : N'%:R = m%:R * N%:R :> R by rewrite n natrM.
have m1 : m%:R != 0 :> R by rewrite pnatr_eq0 -lt0n.
by rewrite -mulf_div divff // mul1r subrr normr0.
Qed.
End Sets.
