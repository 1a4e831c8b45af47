(* Stable samples: the cost is bounded below, the passes of the MM algorithm converge to the minimiser. *)
From Coq Require Import Reals Lra Classical_Prop Epsilon.
From mathcomp Require Import all_ssreflect all_algebra.
From mathcomp Require Import mxtens.
From Verif Require Import RealsMC RealTac RealTac2 Star FunCalc Spec_covariance Proofs_mest Proofs_cost Proofs_unique Proofs_unique2 Model_structured Proofs_structured Props_structured
  Compact Proofs_converge Props_converge Proofs_exist2 Spec_kron Proofs_kron Proofs_kron1 Proofs_kron2 Proofs_kron3 Proofs_kron4 Proofs_kron5.
Set Implicit Arguments.
Unset Strict Implicit.
Unset Printing Implicit Defensive.
Local Open Scope ring_scope.
Import GRing.Theory Num.Theory Order.TTheory.

Lemma exp_lnR (x : R) : 0 < x -> exp (ln x) = x. Proof. by move=> /RltP; exact: exp_ln. Qed.
Lemma exp_addR (x y : R) : exp (x + y) = exp x * exp y. Proof. by rewrite -RplusE exp_plus RmultE. Qed.
Lemma exp0R : exp 0 = 1. Proof. exact: exp_0. Qed.
Lemma exp_leR (x y : R) : x <= y -> exp x <= exp y.
Proof. by rewrite le_eqVlt => /orP[/eqP->|/RltP h] //; apply/ltW/RltP; exact: exp_increasing. Qed.
Lemma karith9 (n N u v w : R) : n * (u - N * v) + N * (n * v + w) = n * u + N * w. Proof. rring. Qed.
Section Scale.
Variable K : starField.
Local Notation ofR := (@ofR K).
Local Notation toR := (@toR K).
Local Notation "A ^H" := (adj A) (at level 8, format "A ^H").
Lemma tens_scl m n (P : 'M[K]_m) (B : 'M[K]_n) c d : (c *: P) *t (d *: B) = (c * d) *: (P *t B).
Proof.
apply/matrixP => i j; case: (mxtens_indexP i) => i1 i2; case: (mxtens_indexP j) => j1 j2.
by rewrite tensmxE !mxE !mxtens_indexK mulrACA.
Qed.
Lemma kcost_scl N a b (X : 'M[K]_(N, a * b)) (P : 'M[K]_a) (B : 'M[K]_b) (c d : R) : nonzero_samples X -> 0 < c -> 0 < d -> pd P -> pd B ->
  kron_cost X (ofR c *: P) (ofR d *: B) = kron_cost X P B.
Proof.
move=> nz c0 d0 pP pB; have pS := tens_pd pP pB; have cd : 0 < c * d by rewrite mulr_gt0.
rewrite /kron_cost tens_scl -rmorphM detZ -rmorphX toRZ lnM ?exprn_gt0 ?toR_gt0 ?det_pd // lnX //.
have -> : \sum_i ln (maha (ofR (c * d) *: (P *t B)) (samp X i)) = \sum_i ln (maha (P *t B) (samp X i)) - N%:R * ln (c * d).
  rewrite (eq_bigr (fun i => ln (maha (P *t B) (samp X i)) - ln (c * d))) => [|i _].
    by rewrite sumrB sumr_const card_ord mulr_natl.
  by rewrite maha_scale // lnD //; exact/maha_gt0/nz.
by rewrite karith9.
Qed.
Lemma spec_of n (P : 'M[K]_n) : (0 < n)%N -> pd P -> exists (U : 'M[K]_n) (al : 'rV[R]_n) (c : R),
  [/\ unitary U, \sum_j al 0 j = 0, P = ofR (exp c) *: spec U al, ln (toR (\det P)) = n%:R * c &
      forall l : R, (forall j, `|al 0 j| <= l) -> loewner P (ofR (exp (c + l)) *: 1%:M) /\ loewner 1%:M (ofR (exp (l - c)) *: P)].
Proof.
move=> n0 pP; have [d [U dec]] := spectral (pd_herm pP); have [uU eP] := dec.
have d0 j : 0 < d 0 j by apply: (eigval_gt0 pP); apply: eigdec_eigval dec.
have n1 : n%:R != 0 :> R by rewrite pnatr_eq0 -lt0n.
pose c := (\sum_j ln (d 0 j)) / n%:R; exists U, (\row_j (ln (d 0 j) - c)), c; split=> //.
- rewrite (eq_bigr (fun j => ln (d 0 j) - c)) => [|j _]; last by rewrite mxE.
  by rewrite sumrB sumr_const card_ord -[c *+ n]mulr_natl /c mulrCA divff // mulr1 subrr.
- rewrite /spec scalemxAl scalemxAr dia_scale {1}eP; congr (_ *m dia K _ *m _); apply/rowP => j; rewrite !mxE.
  by rewrite -RmultE -exp_plus RplusE addrC subrK exp_ln //; apply/RltP.
- by rewrite (eigdec_det dec) toRK ln_prod // /c mulrCA divff // mulr1.
move=> l hl; have b j : c - l <= ln (d 0 j) <= c + l.
  by have := hl j; rewrite mxE ler_norml ler_subl_addl ler_subr_addl.
split; [apply: (eig_up dec) => j|apply: (eig_lo dec) => j].
  case/andP: (b j) => _ h; rewrite -[d 0 j]exp_lnR //; exact: exp_leR.
case/andP: (b j) => h _; rewrite -[d 0 j]exp_lnR // -exp_addR -exp0R; apply: exp_leR.
by rewrite -ler_subl_addl sub0r opprB.
Qed.
End Scale.

Lemma karith10 (n u l : R) : 0 <= n -> - l <= u -> n * - l <= n * u. Proof. by move=> h1 h2; apply: ler_wpmul2l. Qed.
Lemma karith11 (c D : R) n : (0 < n)%N -> `|n%:R * c| <= D -> `|c| <= D.
Proof.
move=> n0; rewrite normrM normr_nat; apply: le_trans; rewrite ler_pemull ?normr_ge0 // ler1n; exact: n0.
Qed.
Lemma karith12 (x0 xk y0 yk c0 ck m : R) : x0 - xk + (y0 - yk) <= c0 - ck -> xk <= x0 -> yk <= y0 -> m <= ck ->
  `|xk| <= `|x0| + `|y0| + (c0 - m) /\ `|yk| <= `|x0| + `|y0| + (c0 - m).
Proof.
move=> h1 h2 h3 h4; have := ler_norm x0; have := ler_norm y0; have := ler_norm (- x0); have := ler_norm (- y0); rewrite !normrN.
by move: `|x0| `|y0| (normr_ge0 x0) (normr_ge0 y0) => u v u0 v0 h5 h6 h7 h8; rewrite !ler_norml; split; apply/andP; split; rlra2.
Qed.
Lemma karith13 (n : nat) (x y z t f : R) : x <= n%:R * f + y -> y <= z -> z <= n%:R * f + t -> x <= t + 2%:R * n%:R * f.
Proof. by move: n%:R => m h1 h2 h3; rlra2. Qed.
Lemma karith14 (x y u v : R) : v + v <= x - y -> u <= v -> x <= y + u -> x - y <= 0. Proof. move=> h1 h2 h3; rlra2. Qed.
Lemma le_eps (x y c : R) : 0 <= c -> (forall f : R, 0 < f -> x <= y + c * f) -> x <= y.
Proof.
move=> c0 h; rewrite leNgt; apply/negP => lt; have c1 : 0 < c + 1 by rewrite ltr_spaddr ?ltr01.
have := h ((x - y) / 2%:R / (c + 1)) (divr_gt0 (divr_gt0 (etrans (subr_gt0 _ _) lt) (ltr0Sn _ _)) c1).
move=> hh; have xy : 0 < x - y by rewrite subr_gt0.
have : c * ((x - y) / 2%:R / (c + 1)) <= (x - y) / 2%:R.
  rewrite mulrCA -[X in _ <= X]mulr1; apply: ler_wpmul2l; first by rewrite divr_ge0 ?ltW ?ltr0Sn.
  by rewrite ler_pdivr_mulr // mul1r ler_addl ler01.
have : (x - y) / 2%:R + (x - y) / 2%:R <= x - y by rewrite -splitr.
by move=> h1 h2; have := karith14 h1 h2 hh; rewrite leNgt xy.
Qed.

Section Limit.
Variable K : starField.
Local Notation ofR := (@ofR K).
Local Notation toR := (@toR K).
Local Notation "A ^H" := (adj A) (at level 8, format "A ^H").
Hypothesis cK : compactK K.
Variables (N a b : nat) (X : 'M[K]_(N, a * b)).
Hypotheses (nz : nonzero_samples X) (N0 : (0 < N)%N) (a0 : (0 < a)%N) (b0 : (0 < b)%N).
Hypothesis st : kron_stable X.
Lemma size_coord (al : 'rV[R]_a) (be : 'rV[R]_b) (l : R) : size al be <= l -> (forall j, `|al 0 j| <= l) /\ (forall k, `|be 0 k| <= l).
Proof.
have sa : 0 <= \sum_j `|al 0 j| by apply: sumr_ge0 => *; exact: normr_ge0.
have sb : 0 <= \sum_k `|be 0 k| by apply: sumr_ge0 => *; exact: normr_ge0.
move=> h; split=> j; apply: le_trans h; rewrite /size.
  apply: ler_paddr => //; rewrite (bigD1 j) //=; apply: ler_paddr => //; by apply: sumr_ge0.
apply: ler_paddl => //; rewrite (bigD1 j) //=; apply: ler_paddr => //; by apply: sumr_ge0.
Qed.
Lemma bounded_below : exists m : R, forall P B, pd P -> pd B -> m <= kron_cost X P B.
Proof.
have [l hl] := coercive cK a0 b0 0 st.
pose m : R := (a * b)%:R * \sum_i (ln (maha (1%:M *t 1%:M : 'M[K]_(a * b)) (samp X i)) - (l + l)).
exists (Num.min 0 m) => P B pP pB.
have [U [al [c [hU sa eP _ _]]]] := spec_of a0 pP; have [W [be [d [hW sb eB _ _]]]] := spec_of b0 pB.
have E : kron_cost X P B = kron_cost X (spec U al) (spec W be).
  rewrite eP eB kcost_scl ?expR_gt0 //; apply: pd_congr; rewrite ?unitary_unit //; apply: pd_dia => j; exact: ex_gt0.
rewrite E le_minl; case: (lerP 0 (kron_cost X (spec U al) (spec W be))) => //= /ltW h0.
have [ha hb] := size_coord (hl _ _ _ _ hU hW sa sb h0).
have uU := unitary_unit hU; have uW := unitary_unit hW.
rewrite /spec kcostT //; try exact: ex_gt0.
have -> : \sum_j ln (ex al 0 j) = 0 by rewrite -[RHS]sa; apply: eq_bigr => j _; rewrite mxE ln_expR.
have -> : \sum_k ln (ex be 0 k) = 0 by rewrite -[RHS]sb; apply: eq_bigr => j _; rewrite mxE ln_expR.
rewrite !unitaryV // tens_one det1 /= -(rmorph1 (@Star.ofR K)) toRK ln1 !mulr0 !addr0 mulr0 addr0.
apply: ler_wpmul2l; first exact: ler0n.
apply: ler_sum => i _; have q0 := ksum_gt0 nz uU uW i.
have -> : maha (1%:M *t 1%:M) (samp X i) = \sum_j \sum_k sq (kcoord X U W i j k) by rewrite -kmaha // !unitaryV.
have -> : ln (\sum_j \sum_k sq (kcoord X U W i j k)) - (l + l) = ln ((\sum_j \sum_k sq (kcoord X U W i j k)) / (exp l * exp l)).
  by rewrite lnD ?mulr_gt0 ?expR_gt0 // lnM ?expR_gt0 // ln_expR.
apply: ln_le; first by rewrite divr_gt0 ?mulr_gt0 ?expR_gt0.
rewrite mulr_suml; apply: ler_sum => j _; rewrite mulr_suml; apply: ler_sum => k _; apply: ler_wpmul2l; first exact: sq_ge0.
rewrite lef_pinv ?posrE ?mulr_gt0 ?expR_gt0 ?ex_gt0 // !mxE; apply: ler_pmul; rewrite ?(ltW (expR_gt0 _)) //; apply: exp_leR.
  exact: le_trans (ler_norm _) (ha j).
exact: le_trans (ler_norm _) (hb k).
Qed.
Lemma stable_spans : span_columns X /\ span_rows X.
Proof.
have [m hm] := bounded_below; split; apply: NNPP => h.
  have [A' [pA' lt]] := unspanned_columns N0 (kron_cost X 1%:M^T 1%:M - m) b0 (pd1 _ _) (pd1 _ _) h.
  move: lt; rewrite opprB addrCA subrr addr0 ltNge hm //; [exact: tr_pd|exact: pd1].
have [B' [pB' lt]] := unspanned_rows N0 (kron_cost X 1%:M^T 1%:M - m) a0 (pd1 _ _) (pd1 _ _) h.
move: lt; rewrite opprB addrCA subrr addr0 ltNge hm //; exact/tr_pd/pd1.
Qed.
Lemma psd_tr n (A : 'M[K]_n) : psd A -> psd A^T.
Proof.
move=> pA; have [d [U dec]] := spectral (psd_herm pA); have [_ eA] := dec.
have -> : A^T = (U^H)^T *m dia K d *m ((U^H)^T)^H.
  rewrite eA !trmx_mul mulmxA; congr (_ *m _ *m _); first by rewrite tr_diag_mx.
  by apply/matrixP => i j; rewrite !mxE cjK.
by apply/psd_congr/psd_dia => j; apply: (eigval_ge0 pA); apply: eigdec_eigval dec.
Qed.
Lemma loewner_tr n (A B : 'M[K]_n) : loewner A B -> loewner A^T B^T.
Proof. by rewrite /loewner -linearB /=; exact: psd_tr. Qed.
Definition inband n (l : R) (A : 'M[K]_n) := loewner 1%:M (ofR l *: A) /\ loewner A (ofR l *: 1%:M).
Lemma bands (c D : R) : exists2 l : R, 0 < l & forall A B, pd A -> pd B -> kron_cost X A^T B <= c ->
  `|ln (toR (\det A))| <= D -> `|ln (toR (\det B))| <= D -> inband l A /\ inband l B.
Proof.
have [l hl] := coercive cK a0 b0 c st; exists (exp (D + l)); first exact: expR_gt0.
move=> A B pA pB hc dA dB.
have [U [al [u [hU sa eP du loA]]]] := spec_of a0 (tr_pd pA); have [W [be [d [hW sb eB dd loB]]]] := spec_of b0 pB.
have E : kron_cost X A^T B = kron_cost X (spec U al) (spec W be).
  rewrite eP eB kcost_scl ?expR_gt0 //; apply: pd_congr; rewrite ?unitary_unit //; apply: pd_dia => j; exact: ex_gt0.
rewrite E in hc; have [ha hb] := size_coord (hl _ _ _ _ hU hW sa sb hc).
rewrite det_tr in du; rewrite du in dA; rewrite dd in dB; have uD := karith11 a0 dA; have dD := karith11 b0 dB.
have wk n (M : 'M[K]_n) (x : R) : psd M -> `|x| <= D -> loewner M (ofR (exp (x + l)) *: 1%:M) -> loewner 1%:M (ofR (exp (l - x)) *: M) -> inband (exp (D + l)) M.
  move=> pM; rewrite ler_norml => /andP[x1 x2] h1 h2; split; apply: loewner_trans; first exact: h2.
  - apply: loewner_le => //; apply: exp_leR; move: x1 x2; clear; move=> x1 x2; rlra2.
  - exact: h1.
  apply: loewner_le; first exact/pd_psd/pd1.
  by apply: exp_leR; rewrite ler_add2r.
have [h1 h2] := loA _ ha; have [h3 h4] := loB _ hb; split; last exact: (wk _ _ d (pd_psd pB)).
apply: (wk _ _ u (pd_psd pA)) => //.
  by have := loewner_tr h1; rewrite linearZ /= trmx1 trmxK.
by have := loewner_tr h2; rewrite linearZ /= trmx1 trmxK.
Qed.
End Limit.
