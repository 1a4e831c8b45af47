(* The retractions follow the exponential maps to the second order: C107. *)
From Coq Require Import Reals Epsilon.
From mathcomp Require Import all_ssreflect all_algebra.
From Verif Require Import RealsMC RealTac RealTac2 Star StarInst FunCalc Model_linalg Proofs_linalg Props_linalg Proofs_cost Model_manifolds Proofs_hpd
  Props_spv Props_hpd Proofs_gconvex Props_shpd Proofs_major RetrNum.
Set Implicit Arguments.
Unset Strict Implicit.
Unset Printing Implicit Defensive.
Local Open Scope ring_scope.
Import GRing.Theory Num.Theory Order.TTheory.
Local Notation "A ^H" := (adj A) (at level 8, format "A ^H").
Local Notation sqrt := R_sqrt.sqrt.
Local Notation ln := Rpower.ln.
Local Notation exp := Rtrigo_def.exp.

(* 1 + s + s^2/2 *)
Definition taylor (s : R) : R := 1 + s + 2%:R^-1 * s ^+ 2.
Lemma taylor_gt0 s : 0 < taylor s.
Proof.
have /RleP h := q_ge s; apply: lt_le_trans (_ : 0 < 2%:R^-1) _; first by rewrite invr_gt0 ltr0n.
move: h; rewrite /taylor -RpowE; r2R => h; congr (_ <= _): h; by rfield.
Qed.
Lemma taylor_ln s : (ln (taylor s) - s) ^+ 2 <= 9%:R^-1 * s ^+ 6.
Proof.
have e : taylor s = Rplus (Rplus (IZR 1) s) (Rmult (Rinv (IZR 2)) (pow s 2)) by rewrite /taylor; r2R; rring.
rewrite e; have h := ln_retr s; apply/RleP; r2R; move: h; move: (ln _) => l h.
by apply: (Rle_trans _ _ _ _ (Rle_trans _ _ _ h _)); apply: Req_le; [ring|field].
Qed.
Lemma cubes (I : finType) (w : I -> R) : \sum_i w i ^+ 6 <= (\sum_i w i ^+ 2) ^+ 3.
Proof.
set S := \sum_i w i ^+ 2; have S0 : 0 <= S := sumsq_ge0 w.
have le i : w i ^+ 2 <= S by rewrite /S (bigD1 i) //= ler_addl sumr_ge0 // => j _; exact: sqr_ge0.
have -> : S ^+ 3 = \sum_i S ^+ 2 * w i ^+ 2 by rewrite -mulr_sumr -/S -exprSr.
apply: ler_sum => i _; rewrite -[6%N]/(2 * 3)%N exprM [_ ^+ 3]exprSr.
by apply: ler_wpmul2r; [exact: sqr_ge0|rewrite ler_pexpn2r ?nnegrE ?sqr_ge0].
Qed.
Lemma bound (I : finType) (f w : I -> R) : (forall i, f i ^+ 2 <= 9%:R^-1 * w i ^+ 6) ->
  sqrt (\sum_i f i ^+ 2) <= 3%:R^-1 * sqrt (\sum_i w i ^+ 2) ^+ 3.
Proof.
move=> h; set S := \sum_i w i ^+ 2; have S0 : 0 <= S := sumsq_ge0 w.
have p : 0 <= 3%:R^-1 * sqrt S ^+ 3 by rewrite mulr_ge0 ?invr_ge0 ?ler0n // exprn_ge0 // sqrtR_ge0.
have -> : 3%:R^-1 * sqrt S ^+ 3 = sqrt ((3%:R^-1 * sqrt S ^+ 3) ^+ 2) by apply/esym/sqrtR_of.
apply: sqrtR_mono; rewrite exprMn exprAC sqrtR_sqr' // exprVn -natrX.
by apply: le_trans (ler_sum _ (fun i _ => h i)) _; rewrite -mulr_sumr ler_wpmul2l ?cubes // invr_ge0 ler0n.
Qed.
(* removing the mean does not increase a sum of squares *)
Lemma centred n (f : 'I_n -> R) : \sum_i (f i - n%:R^-1 * \sum_j f j) ^+ 2 <= \sum_i f i ^+ 2.
Proof.
case: n f => [|n] f; first by rewrite !big_ord0.
set m := _ * _; have e : \sum_i f i = n.+1%:R * m by rewrite /m mulVKf // pnatr_eq0.
have -> : \sum_i (f i - m) ^+ 2 = \sum_i f i ^+ 2 - n.+1%:R * m ^+ 2.
  have -> : \sum_i (f i - m) ^+ 2 = \sum_i (f i ^+ 2 + (- (2%:R * m) * f i + m ^+ 2)).
    by apply: eq_bigr => i _; rewrite sqrrB mulNr mulrAC -mulr_natl mulrA addrA.
  rewrite !big_split /= -mulr_sumr e sumr_const card_ord -[_ ^+ 2 *+ _]mulr_natl; congr (_ + _).
  move: (n.+1%:R : R) m {e} => N m; rfield.
by rewrite ler_subl_addr ler_addl mulr_ge0 ?ler0n ?sqr_ge0.
Qed.

Lemma eq_leR (x y : R) : x = y -> x <= y. Proof. by move=> ->. Qed.
Lemma dev_alg (a b c : R) : (a - (- b + c)) ^+ 2 = (c - a - b) ^+ 2. Proof. rfield. Qed.
Lemma dev_alg2 (a b c : R) : (a + b - (a + c)) ^+ 2 = (b - c) ^+ 2. Proof. rfield. Qed.
Lemma pick_fun (T U : Type) (P : T -> U -> Prop) : (forall t, exists u, P t u) -> exists f, forall t, P t (f t).
Proof.
move=> h; exists (fun t => epsilon (let: ex_intro u _ := h t in inhabits u) (P t)) => t; apply: epsilon_spec; exact: h.
Qed.
Section Matrices.
Variables (K : starField) (eigh : eigsolver K) (cholesky : forall n, 'M[K]_n -> 'M[K]_n).
Hypotheses (eighP : eigh_ok eigh) (cholP : chol_ok cholesky).
Local Notation ofR := (@ofR K).
Local Notation toR := (@toR K).
Section Basis.
Variables (n : nat) (G : 'M[K]_n).
Hypothesis uG : G \in unitmx.
Lemma dia_factor (a : 'rV[R]_n) : (forall j, 0 < a 0 j) -> factor (G *m dia K (map_mx sqrt a)) (G *m dia K a *m G^H).
Proof.
move=> a0; have e : map_mx sqrt a = \row_j sqrt (a 0 j) by apply/rowP => j; rewrite !mxE.
split.
  rewrite unitmx_mul uG /=; apply/pd_unit/pd_dia => j; by rewrite mxE sqrtR_gt0.
rewrite adjM adj_dia mulmxA -(mulmxA G) diaM; congr (_ *m dia K _ *m _); apply/rowP => j.
by rewrite !mxE sqrtR_sqr // ltW.
Qed.
Lemma dia_dist (a b : 'rV[R]_n) : (forall j, 0 < a 0 j) -> (forall j, 0 < b 0 j) ->
  fro2 (fmx ln (wh (G *m dia K (map_mx sqrt a)) (G *m dia K b *m G^H))) = \sum_j (ln (b 0 j) - ln (a 0 j)) ^+ 2.
Proof.
move=> a0 b0; have [uF _] := dia_factor a0.
have -> : G *m dia K b *m G^H = (G *m dia K (map_mx sqrt a)) *m dia K (\row_j (b 0 j / a 0 j)) *m (G *m dia K (map_mx sqrt a))^H.
  have e (D E : 'M[K]_n) : G *m D *m E *m (D *m G^H) = G *m (D *m E *m D) *m G^H by rewrite !mulmxA.
  rewrite adjM adj_dia e !diaM; congr (_ *m dia K _ *m _); apply/rowP => j; rewrite !mxE mulrAC sqrtR_sqr; last exact: ltW.
  by rewrite mulrC mulfVK // gt_eqF.
rewrite unwhK // (@fro2_fmx K n _ (\row_j (b 0 j / a 0 j)) 1%:M).
  by apply: eq_bigr => j _; rewrite mxE lnRM ?invr_gt0 // lnRV.
by split; [rewrite /unitary adj1 mulmx1|rewrite adj1 mulmx1 mul1mx].
Qed.
Lemma retr_dia (w : 'rV[R]_n) : hretr1 (G *m G^H) (G *m dia K w *m G^H) = G *m dia K (map_mx taylor w) *m G^H.
Proof.
rewrite /hretr1 /solve invmxM' ?unitmx_adj // -!scalemxAl !mulmxA -(mulmxA _ G^H) mulmxV ?unitmx_adj // mulmx1 mulmxKV //.
rewrite -(mulmxA G (dia K w) (dia K w)) diaM scalemxAl scalemxAr -{1}[G]mulmx1 -!mulmxDl -!mulmxDr; congr (_ *m _ *m _).
apply/matrixP => i j; rewrite !mxE; case: eqP => [->|_]; last by rewrite !mulr0n mulr0 !addr0.
by rewrite !mulr1n /taylor expr2 !rmorphD rmorph1 !rmorphM fmorphV rmorph_nat.
Qed.
End Basis.

Section Stack.
Variables n k : nat.
Implicit Types x y u v : stack K n k.
Local Notation norm := (@hpd_norm K cholesky n k).
Local Notation hdist := (@hpd_dist K eigh cholesky n k).
Lemma bases x u : all_pd x -> all_herm u -> exists G w, forall i, [/\ G i \in unitmx, x i = G i *m (G i)^H,
  u i = G i *m dia K (w i) *m (G i)^H, hexp1 eigh (x i) (u i) = G i *m dia K (map_mx exp (w i)) *m (G i)^H &
  hretr1 (x i) (u i) = G i *m dia K (map_mx taylor (w i)) *m (G i)^H].
Proof.
move=> px hu.
have h i : exists Gw : 'M[K]_n * 'rV[R]_n, [/\ Gw.1 \in unitmx, x i = Gw.1 *m Gw.1^H,
    u i = Gw.1 *m dia K Gw.2 *m Gw.1^H, hexp1 eigh (x i) (u i) = Gw.1 *m dia K (map_mx exp Gw.2) *m Gw.1^H &
    hretr1 (x i) (u i) = Gw.1 *m dia K (map_mx taylor Gw.2) *m Gw.1^H].
  have [G [w [uG ex eu eg]]] := hexp_curve eighP (px i) (hu i); exists (G, w); split=> //=.
    have := eg 1; rewrite rmorph1 scale1r => ->; congr (_ *m dia K _ *m _); apply/rowP => j; by rewrite !mxE mul1r.
  by rewrite ex eu retr_dia.
have [f hf] := pick_fun h; by exists (fun i => (f i).1), (fun i => (f i).2).
Qed.
Lemma norm_bases x u (G : 'I_k -> 'M[K]_n) w : all_pd x -> (forall i, [/\ G i \in unitmx, x i = G i *m (G i)^H &
  u i = G i *m dia K (w i) *m (G i)^H]) -> norm x u = sqrt (\sum_(p : 'I_k * 'I_n) w p.1 0 p.2 ^+ 2).
Proof.
move=> px h; rewrite (normE eighP cholP u px) -(pair_big xpredT xpredT (fun i j => w i 0 j ^+ 2)) /=; congr sqrt.
apply: eq_bigr => i _; have [uG ex eu] := h i.
have fG : factor (G i) (x i) by split.
rewrite (fro2_wh (u i) (factor_sqrt eighP (px i)) fG) eu unwhK //.
have hW : herm (dia K (w i)) := adj_dia _ _.
by rewrite -{1}(fmx_id hW) (@fro2_fmx K n _ (w i) 1%:M) //; split; [rewrite /unitary adj1 mulmx1|rewrite adj1 mulmx1 mul1mx].
Qed.
Theorem C107_hermitian x u : all_pd x -> all_herm u ->
  hdist (hpd_retr x u) (hpd_exp eigh x u) <= 3%:R^-1 * norm x u ^+ 3.
Proof.
move=> px hu; have [G [w h]] := bases px hu.
rewrite (@norm_bases x u G w) // => [|i]; last by have [? ? ? _ _] := h i.
have p0 i j : 0 < (map_mx taylor (w i)) 0 j by rewrite mxE taylor_gt0.
have e0 i j : 0 < (map_mx exp (w i)) 0 j by rewrite mxE expR_gt0.
have fR i : factor (G i *m dia K (map_mx sqrt (map_mx taylor (w i)))) (hpd_retr x u i).
  by have [uG _ _ _ er] := h i; rewrite /hpd_retr er; apply: dia_factor.
have hE : all_herm (hpd_exp eigh x u) by move=> i; apply: pd_herm; apply: hexp_pd.
rewrite (distE eighP cholP hE fR).
have -> : \sum_i fro2 (fmx ln (wh (G i *m dia K (map_mx sqrt (map_mx taylor (w i)))) (hpd_exp eigh x u i))) =
  \sum_(p : 'I_k * 'I_n) (ln (taylor (w p.1 0 p.2)) - w p.1 0 p.2) ^+ 2.
  rewrite -(pair_big xpredT xpredT (fun i j => (ln (taylor (w i 0 j)) - w i 0 j) ^+ 2)) /=.
  apply: eq_bigr => i _; have [uG _ _ ee _] := h i; rewrite /hpd_exp ee dia_dist //; apply: eq_bigr => j _.
  by rewrite !mxE expRK -sqrrN opprB.
by apply: bound => p; exact: taylor_ln.
Qed.
Theorem C107_special x u : special x -> tangent x u ->
  hdist (shpd_retr x u) (shpd_exp eigh x u) <= 3%:R^-1 * norm x u ^+ 3.
Proof.
move=> sx tu; have px : all_pd x by move=> i; case: (sx i).
have hu : all_herm u by move=> i; case: (tu i).
have [G [w h]] := bases px hu.
rewrite (@norm_bases x u G w) // => [|i]; last by have [? ? ? _ _] := h i.
have p0 i j : 0 < (map_mx taylor (w i)) 0 j by rewrite mxE taylor_gt0.
have e0 i j : 0 < (map_mx exp (w i)) 0 j by rewrite mxE expR_gt0.
pose m i := n%:R^-1 * \sum_j (ln (taylor (w i 0 j)) - w i 0 j).
pose d i : 'rV[R]_n := \row_j (exp (- m i) * taylor (w i 0 j)).
have d0 i j : 0 < d i 0 j by rewrite mxE mulr_gt0 ?expR_gt0 ?taylor_gt0.
have er i : shpd_retr x u i = G i *m dia K (d i) *m (G i)^H.
  have [uG ex eu _ e] := h i; have [_ dx] := sx i; have [_ tr0] := tu i.
  have w0 : \sum_j w i 0 j = 0.
    have fG : factor (G i) (x i) by split.
    have := tr_wh (u i) fG; rewrite tr0 eu unwhK // mxtrace_diag => s0.
    apply: (@ofR_inj K); rewrite rmorph_sum rmorph0 -[RHS]s0; apply: eq_bigr => j _; by rewrite !mxE.
  rewrite /shpd_retr /normalize /hpd_retr e.
  have -> : (Rpower.Rpower (toR (\det (G i *m dia K (map_mx taylor (w i)) *m (G i)^H))) n%:R^-1)^-1 = exp (- m i).
    rewrite /Rpower.Rpower det_simdiag // -ex dx toR1 ln1 add0r -RoppE exp_Ropp Rinv_E; congr (exp _)^-1.
    rewrite /m sumrB w0 subr0; congr (_ * _); apply: eq_bigr => j _; by rewrite mxE.
  rewrite scalemxAl scalemxAr; congr (_ *m _ *m _); apply/matrixP => a b; rewrite !mxE.
  by rewrite rmorphM mulrnAr.
have fR i : factor (G i *m dia K (map_mx sqrt (d i))) (shpd_retr x u i).
  by have [uG _ _ _ _] := h i; rewrite er; apply: dia_factor.
have eE i : shpd_exp eigh x u i = hexp1 eigh (x i) (u i) by rewrite (C52_exp_geodesic eighP i sx tu).
have hE : all_herm (shpd_exp eigh x u) by move=> i; rewrite eE; apply: pd_herm; apply: hexp_pd.
rewrite (distE eighP cholP hE fR).
have le : \sum_i fro2 (fmx ln (wh (G i *m dia K (map_mx sqrt (d i))) (shpd_exp eigh x u i))) <=
  \sum_(p : 'I_k * 'I_n) (ln (taylor (w p.1 0 p.2)) - w p.1 0 p.2) ^+ 2.
  rewrite -(pair_big xpredT xpredT (fun i j => (ln (taylor (w i 0 j)) - w i 0 j) ^+ 2)) /=.
  apply: ler_sum => i _; have [uG _ _ ee _] := h i; rewrite eE ee dia_dist //.
  apply: le_trans (centred (fun j => ln (taylor (w i 0 j)) - w i 0 j)); rewrite -/(m i); apply/eq_leR/eq_bigr => j _.
  by rewrite !mxE expRK lnRM ?expR_gt0 ?taylor_gt0 // expRK; exact: dev_alg.
apply: le_trans (sqrtR_mono le) _; by apply: bound => p; exact: taylor_ln.
Qed.
End Stack.
End Matrices.

(* positive vectors: column by column *)
Theorem C107_vectors n k (x u : 'M[R]_(n, k)) j : positive x ->
  spv_dist (spv_retr x u) (spv_exp x u) 0 j <= 3%:R^-1 * spv_norm x u 0 j ^+ 3.
Proof.
move=> px; rewrite !mxE; pose w i := (x i j)^-1 * u i j.
have -> : \sum_i (x i j)^-1 * u i j * (x i j)^-1 * u i j = \sum_i w i ^+ 2.
  by apply: eq_bigr => i _; rewrite /w expr2 !mulrA.
have -> : \sum_i (ln (spv_retr x u i j) - ln (spv_exp x u i j)) ^+ 2 = \sum_i (ln (taylor (w i)) - w i) ^+ 2.
  apply: eq_bigr => i _; have x0 := px i j; have xn : x i j != 0 by rewrite gt_eqF.
  have -> : spv_retr x u i j = x i j * taylor (w i).
    rewrite !mxE /taylor /w; move: (x i j) (u i j) xn => a b /eqP a0; by rfield.
  by rewrite [X in _ - ln X]mxE !lnRM ?taylor_gt0 ?expR_gt0 // expRK -/(w i) dev_alg2.
by apply: bound => i; exact: taylor_ln.
Qed.

(* From 1 in the direction 1 the two maps reach 5/2 and e, and the bound is 1/3. *)
Example C107_ex : let x : 'M[R]_1 := 1%:M in positive x /\ spv_retr x x 0 0 = 5%:R / 2%:R /\ spv_exp x x 0 0 = exp 1 /\ spv_norm x x 0 0 = 1.
Proof.
have e : (1%:M : 'M[R]_1) 0 0 = 1 by rewrite mxE.
split; first by move=> i j; rewrite (ord1 i) (ord1 j) e ltr01.
rewrite !mxE !(e, eqxx, big_ord1) /= ?mulr1n invr1 !mul1r ?mulr1 expr1n; split; first by rfield.
split=> //; apply: sqrtR_of; rewrite ?ler01 ?expr1n //.
Qed.
Example C107_ex2 (K : starField) : exists eigh cholesky, [/\ @eigh_ok K eigh, @chol_ok K cholesky,
  @special K 2 1 (fun _ => dia K (two 2%:R 2%:R^-1)) &
  @tangent K 2 1 (fun _ => dia K (two 2%:R 2%:R^-1)) (fun _ => dia K (two (3%:R * 2%:R) (- 3%:R * 2%:R^-1)))].
Proof.
have [e he] := C61_eigensolver_exists K; have [c hc] := C50_cholesky_exists K; exists e, c.
have [|h1 h2] := @C52_ex K 2%:R 3%:R; first by rewrite ltr0n.
by split.
Qed.

Print Assumptions C107_hermitian.
Print Assumptions C107_special.
Print Assumptions C107_vectors.
