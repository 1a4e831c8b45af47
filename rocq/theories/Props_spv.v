(* Theorems about the manifold of strictly positive vectors: C47. *)
From Coq Require Import Reals.
From mathcomp Require Import all_ssreflect all_algebra.
From Verif Require Import RealsMC RealTac RealTac2 Star Model_linalg Model_manifolds.
Set Implicit Arguments.
Unset Strict Implicit.
Unset Printing Implicit Defensive.
Local Open Scope ring_scope.
Import GRing.Theory Num.Theory Order.TTheory.
Local Notation sqrt := R_sqrt.sqrt.
Local Notation ln := Rpower.ln.
Local Notation exp := Rtrigo_def.exp.

Lemma expR_gt0 (x : R) : 0 < exp x. Proof. by apply/RltP/exp_pos. Qed.
Lemma lnRK (x : R) : 0 < x -> exp (ln x) = x. Proof. by move=> /RltP h; apply: exp_ln. Qed.
Lemma expRK (x : R) : ln (exp x) = x. Proof. exact: ln_exp. Qed.
Lemma lnRM (x y : R) : 0 < x -> 0 < y -> ln (x * y) = ln x + ln y.
Proof. by move=> /RltP x0 /RltP y0; rewrite -RmultE ln_mult. Qed.
Lemma lnRV (x : R) : 0 < x -> ln x^-1 = - ln x.
Proof. by move=> /RltP x0; rewrite -Rinv_E ln_Rinv. Qed.
Lemma lnR_inj (x y : R) : 0 < x -> 0 < y -> ln x = ln y -> x = y.
Proof. by move=> /RltP x0 /RltP y0; apply: ln_inv. Qed.
Lemma sqrtR_sqr' (x : R) : 0 <= x -> sqrt x ^+ 2 = x. Proof. by move=> h; rewrite expr2 sqrtR_sqr. Qed.
Lemma sqrtR_of (x y : R) : 0 <= y -> y ^+ 2 = x -> sqrt x = y.
Proof. by move=> /RleP y0 <-; rewrite expr2 -RmultE sqrt_square. Qed.
Lemma sqrtR_eq0 (x : R) : 0 <= x -> (sqrt x == 0) = (x == 0).
Proof. by move=> h; rewrite -[x in RHS]sqrtR_sqr' // expf_eq0. Qed.
Lemma sqrtR_mono (x y : R) : x <= y -> sqrt x <= sqrt y.
Proof. by move=> /RleP h; apply/RleP; apply: sqrt_le_1_alt. Qed.

Lemma cs_alg (A B S : R) : A ^+ 2 * B - (A * S + A * S) * S + S ^+ 2 * A = A * (A * B - S ^+ 2).
Proof. by r2R; rring. Qed.
Lemma retr_alg (a b : R) : 0 < a -> a + b + 2%:R^-1 * a^-1 * b ^+ 2 = 2%:R^-1 * a^-1 * ((a + b) ^+ 2 + a ^+ 2).
Proof. by move=> /RltP h; rfield; move=> e; move: h; rewrite e; apply: Rlt_irrefl. Qed.
Section CS.
Variable I : finType.
Variables a b : I -> R.
Lemma sumsq_ge0 (c : I -> R) : 0 <= \sum_i c i ^+ 2. Proof. by apply: sumr_ge0 => i _; apply: sqr_ge0. Qed.
Lemma sumsq_eq0 (c : I -> R) : \sum_i c i ^+ 2 = 0 -> forall i, c i = 0.
Proof.
move=> /eqP; rewrite psumr_eq0; last by move=> i _; apply: sqr_ge0.
by move=> /allP h i; have := h i (mem_index_enum _); rewrite /= sqrf_eq0 => /eqP.
Qed.
Lemma cauchy_schwarz : (\sum_i a i * b i) ^+ 2 <= (\sum_i a i ^+ 2) * (\sum_i b i ^+ 2).
Proof.
set A := \sum_i a i ^+ 2; set B := \sum_i b i ^+ 2; set S := \sum_i a i * b i.
have : 0 <= A := sumsq_ge0 a; rewrite le_eqVlt => /orP [/eqP A0|A0].
  have -> : S = 0 by apply: big1 => i _; rewrite (sumsq_eq0 (esym A0)) mul0r.
  by rewrite -A0 mul0r expr0n.
have : 0 <= \sum_i (A * b i - S * a i) ^+ 2 := sumsq_ge0 _.
have -> : \sum_i (A * b i - S * a i) ^+ 2 = A * (A * B - S ^+ 2).
  have -> : \sum_i (A * b i - S * a i) ^+ 2 = \sum_i (A ^+ 2 * b i ^+ 2 - (A * S *+ 2) * (a i * b i) + S ^+ 2 * a i ^+ 2).
    apply: eq_bigr => i _; rewrite sqrrB !exprMn; congr (_ - _ + _).
    by rewrite mulrACA [b i * _]mulrC mulrnAl.
  rewrite big_split sumrB -!mulr_sumr -/A -/B -/S /= mulr2n; move: (A) (B) (S) => A' B' S'; exact: cs_alg.
by rewrite pmulr_rge0 // subr_ge0.
Qed.
Lemma norm_triangle : sqrt (\sum_i (a i + b i) ^+ 2) <= sqrt (\sum_i a i ^+ 2) + sqrt (\sum_i b i ^+ 2).
Proof.
have cs := cauchy_schwarz; have A0 := sumsq_ge0 a; have B0 := sumsq_ge0 b.
have -> : \sum_i (a i + b i) ^+ 2 = \sum_i a i ^+ 2 + (\sum_i a i * b i) *+ 2 + \sum_i b i ^+ 2.
  rewrite -sumrMnl -!big_split /=; apply: eq_bigr => i _; exact: sqrrD.
move: (\sum_i a i ^+ 2) (\sum_i b i ^+ 2) (\sum_i a i * b i) cs A0 B0 => A B S cs A0 B0.
have h : S <= sqrt A * sqrt B.
  case: (lerP S 0) => S0; first by apply: le_trans S0 _; rewrite mulr_ge0 ?sqrtR_ge0.
  by rewrite -(@ler_pexpn2r _ 2) ?nnegrE ?mulr_ge0 ?sqrtR_ge0 // ?(ltW S0) // exprMn !sqrtR_sqr'.
have -> : sqrt A + sqrt B = sqrt ((sqrt A + sqrt B) ^+ 2).
  by apply/esym/sqrtR_of => //; rewrite addr_ge0 ?sqrtR_ge0.
by apply: sqrtR_mono; rewrite sqrrD !sqrtR_sqr' // ler_add2r ler_add2l ler_muln2r.
Qed.
End CS.

(* every entry is positive *)
Definition positive n k (x : 'M[R]_(n, k)) := forall i j, 0 < x i j.

Section C47.
Variables n k : nat.
Implicit Types x y z u v g : 'M[R]_(n, k).

Theorem C47_exp_positive x u : positive x -> positive (spv_exp x u).
Proof. by move=> px i j; rewrite mxE mulr_gt0 ?expR_gt0. Qed.
Theorem C47_retr_positive x u : positive x -> positive (spv_retr x u).
Proof.
move=> px i j; rewrite mxE; have x0 := px i j; move: (x i j) (u i j) x0 => a b a0.
rewrite retr_alg //.
rewrite mulr_gt0 //; first by rewrite mulr_gt0 ?invr_gt0 ?ltr0n.
by apply: ltr_paddl; [apply: sqr_ge0|apply: exprn_gt0].
Qed.
Theorem C47_log_exp x u : positive x -> spv_log x (spv_exp x u) = u.
Proof.
move=> px; apply/matrixP => i j; have x0 : x i j != 0 by rewrite gt_eqF.
by rewrite !mxE mulKf // expRK mulrA divff // mul1r.
Qed.
Theorem C47_exp_log x y : positive x -> positive y -> spv_exp x (spv_log x y) = y.
Proof.
move=> px py; apply/matrixP => i j; have x0 : x i j != 0 by rewrite gt_eqF.
by rewrite !mxE mulKf // lnRK ?mulr_gt0 ?invr_gt0 // mulrA divff // mul1r.
Qed.
Lemma inner_log x y j : positive x -> positive y ->
  spv_inner x (spv_log x y) (spv_log x y) 0 j = \sum_i (ln (x i j) - ln (y i j)) ^+ 2.
Proof.
move=> px py; rewrite mxE; apply: eq_bigr => i _; have x0 : x i j != 0 by rewrite gt_eqF.
rewrite !mxE -!mulrA !mulKf // lnRM ?invr_gt0 // lnRV // -expr2 -sqrrN; congr (_ ^+ 2).
by rewrite opprD opprK.
Qed.
Theorem C47_dist_is_norm_of_log x y : positive x -> positive y -> spv_dist x y = spv_norm x (spv_log x y).
Proof. by move=> px py; apply/matrixP => i j; rewrite (ord1 i) [LHS]mxE [RHS]mxE inner_log. Qed.
(* a metric, on each column *)
Theorem C47_dist_nonnegative x y j : 0 <= spv_dist x y 0 j.
Proof. by rewrite mxE sqrtR_ge0. Qed.
Theorem C47_dist_symmetric x y : spv_dist x y = spv_dist y x.
Proof.
by apply/matrixP => i j; rewrite !mxE; congr (sqrt _); apply: eq_bigr => l _; rewrite -sqrrN opprB.
Qed.
Theorem C47_dist_separates x y : positive x -> positive y -> (spv_dist x y = 0 <-> x = y).
Proof.
move=> px py; split=> [e|->].
  apply/matrixP => i j; have /matrixP/(_ 0 j)/eqP := e; rewrite !mxE sqrtR_eq0 ?sumsq_ge0 // => /eqP/sumsq_eq0/(_ i)/eqP.
  by rewrite subr_eq0 => /eqP/lnR_inj; apply.
apply/matrixP => i j; rewrite !mxE; apply/eqP; rewrite sqrtR_eq0 ?sumsq_ge0 //; apply/eqP.
by apply: big1 => l _; rewrite subrr expr0n.
Qed.
Theorem C47_dist_triangle x y z j : spv_dist x z 0 j <= spv_dist x y 0 j + spv_dist y z 0 j.
Proof.
rewrite !mxE; have -> : \sum_i (ln (x i j) - ln (z i j)) ^+ 2 =
    \sum_i ((ln (x i j) - ln (y i j)) + (ln (y i j) - ln (z i j))) ^+ 2.
  by apply: eq_bigr => i _; rewrite addrA subrK.
exact: norm_triangle.
Qed.
Theorem C47_transp_isometry x1 x2 u v : positive x1 -> positive x2 ->
  spv_inner x2 (spv_transp x1 x2 u) (spv_transp x1 x2 v) = spv_inner x1 u v.
Proof.
move=> p1 p2; apply/matrixP => i j; rewrite !mxE; apply: eq_bigr => l _; rewrite !mxE.
have n2 : x2 l j != 0 by rewrite gt_eqF.
by rewrite !mulrA mulVf // mul1r -!mulrA mulKf.
Qed.
Theorem C47_gradient x g v j : positive x -> spv_inner x (spv_egrad2rgrad x g) v 0 j = \sum_i g i j * v i j.
Proof.
move=> px; rewrite mxE; apply: eq_bigr => i _; rewrite mxE; have n0 : x i j != 0 by rewrite gt_eqF.
by rewrite expr2 !mulrA [_^-1 * g i j]mulrC -[g i j * _ * _]mulrA mulVf // mulr1 -[g i j * _ / _]mulrA divff // mulr1.
Qed.
(* the inner product is a symmetric positive definite bilinear form on each column *)
Theorem C47_inner_product x u v w (c : R) j : positive x ->
  [/\ spv_inner x u v = spv_inner x v u,
      spv_inner x (u + c *: v) w = spv_inner x u w + c *: spv_inner x v w,
      0 <= spv_inner x u u 0 j &
      (spv_inner x u u = 0 <-> u = 0)].
Proof.
move=> px; have sq m : spv_inner x u u 0 m = \sum_i ((x i m)^-1 * u i m) ^+ 2.
  by rewrite mxE; apply: eq_bigr => i _; rewrite expr2 !mulrA.
split.
- apply/matrixP => i m; rewrite !mxE; apply: eq_bigr => l _; by rewrite -!mulrA [u l m * _]mulrCA [v l m * _]mulrCA [u l m * _]mulrC.
- apply/matrixP => i m; rewrite !mxE mulr_sumr -big_split /=; apply: eq_bigr => l _; rewrite !mxE mulrDr !mulrDl; congr (_ + _).
  by rewrite !mulrA [_^-1 * c]mulrC -!mulrA.
- by rewrite sq sumsq_ge0.
- split=> [h|->]; last by apply/matrixP => i m; rewrite !mxE big1 // => l _; rewrite !mxE !mulr0.
  apply/matrixP => i m; have /matrixP/(_ 0 m) := h; rewrite sq [RHS]mxE => /sumsq_eq0/(_ i)/eqP.
  by rewrite mulf_eq0 invr_eq0 gt_eqF // => /eqP ->; rewrite mxE.
Qed.
End C47.
(* the hypotheses are met, and the statements are not trivial: x = 1, y = e in dimension 1 *)
Example C47_ex : positive (const_mx 1 : 'M[R]_(1, 1)) /\ positive (const_mx (exp 1) : 'M[R]_(1, 1))
  /\ spv_dist (const_mx 1 : 'M[R]_(1, 1)) (const_mx (exp 1)) = const_mx 1.
Proof.
split; [|split]; try by move=> i j; rewrite mxE ?ltr01 ?expR_gt0.
apply/matrixP => i j; rewrite !mxE big_ord1 !mxE expRK; have -> : ln 1 = 0 :> R by exact: ln_1.
by apply: sqrtR_of; rewrite ?ler01 // sub0r sqrrN.
Qed.

Print Assumptions C47_exp_positive.
Print Assumptions C47_retr_positive.
Print Assumptions C47_log_exp.
Print Assumptions C47_exp_log.
Print Assumptions C47_dist_is_norm_of_log.
Print Assumptions C47_dist_nonnegative.
Print Assumptions C47_dist_symmetric.
Print Assumptions C47_dist_separates.
Print Assumptions C47_dist_triangle.
Print Assumptions C47_transp_isometry.
Print Assumptions C47_gradient.
Print Assumptions C47_inner_product.
