(* How much the updates of Tyler's and Student's iterations change with the samples, and the distance between a matrix that
   is almost fixed and the solution: proofs of C109. *)
From Coq Require Import Reals String Lra Classical_Prop.
From mathcomp Require Import all_ssreflect all_algebra.
From mathcomp Require Import complex zify.
From Verif Require Import RealsMC RealTac RealTac2 Star StarInst FunCalc Model_featurearray Model_linalg Proofs_linalg Props_linalg
  Model_covariance Spec_covariance Spec_fixedpoint Spec_exist Model_estimators Proofs_mest Proofs_loop Proofs_covariance Proofs_estimators
  Props_covariance Proofs_cost Props_cost Props_robust Proofs_unique Proofs_unique2 Props_unique Compact Proofs_converge Props_converge
  Proofs_exist Proofs_exist2 Props_exist Spec_breakdown Proofs_breakdown
  Proofs_stable Proofs_stable2 Proofs_tycont Proofs_tyrate.
Set Implicit Arguments.
Unset Strict Implicit.
Unset Printing Implicit Defensive.
Local Open Scope ring_scope.
Import GRing.Theory Num.Theory Order.TTheory.

Section Step.
Variable K : starField.
Local Notation ofR := (@ofR K).
Local Notation toR := (@toR K).
Local Notation "A ^H" := (adj A) (at level 8, format "A ^H").
Lemma froZn m n c (A : 'M[K]_(m, n)) : fro (ofR c *: A) = `|c| * fro A.
Proof.
have [c0|c0] := leP 0 c; first by rewrite froZ // ger0_norm.
by rewrite -[c]opprK rmorphN scaleNr froN froZ ?oppr_ge0 ?ltW // normrN [in RHS]ger0_norm // oppr_ge0 ltW.
Qed.
Lemma fro_sum m n (I : finType) (f : I -> 'M[K]_(m, n)) : fro (\sum_i f i) <= \sum_i fro (f i).
Proof.
elim/big_ind2: _ => [|A u B v hA hB|i _]; rewrite ?fro0 //.
by apply: le_trans (froD _ _) _; exact: ler_add.
Qed.
Lemma froH m n (A : 'M[K]_(m, n)) : fro A^H = fro A. Proof. by rewrite /fro fro2H. Qed.
Lemma outerB n (x y : 'cV[K]_n) (q dl : R) : fro x <= q -> fro y <= q + 1 -> fro (y - x) = dl -> fro (outer x - outer y) <= (q + (q + 1)) * dl.
Proof.
move=> hx hy <-; have -> : outer x - outer y = - (x *m (y - x)^H + (y - x) *m y^H).
  by rewrite /outer adjB mulmxBr mulmxBl [X in _ = - X]addrC [X in _ = - X]addrA subrK opprB.
rewrite froN; apply: le_trans (froD _ _) _; rewrite mulrDl; apply: ler_add; apply: le_trans (fro_mul _ _) _; rewrite froH.
  by apply: ler_wpmul2r => //; exact: fro_ge0.
by rewrite mulrC; apply: ler_wpmul2r => //; exact: fro_ge0.
Qed.
Lemma fro_outer n (y : 'cV[K]_n) (q : R) : fro y <= q -> fro (outer y) <= q * q.
Proof. by move=> h; apply: le_trans (fro_mul _ _) _; rewrite froH; apply: ler_pmul => //; exact: fro_ge0. Qed.
Lemma split_arith (mx my d M : R) : 0 < d -> d <= 1 -> 0 <= M -> my <= (1 + d) * mx + (1 + d^-1) * (M * d ^+ 2) -> my - mx <= (mx + 2%:R * M) * d.
Proof.
move=> d0 d1 M0; have -> : (1 + d^-1) * (M * d ^+ 2) = M * d * d + M * d.
  by have dn : d <> 0 by [apply/eqP; rewrite gt_eqF]; rewrite expr2; rfield.
have : M * d * d <= M * d by rewrite ler_pimulr // mulr_ge0 // ltW.
rewrite !mulrDl !mul1r [d * mx]mulrC; move: (M * d * d) (M * d) (mx * d) => u v w; clear; move=> *; rlra2.
Qed.
(* w(q) = c / (a + q) *)
Lemma weight_arith (c a k mx my z : R) : 0 <= c -> 0 <= a -> 0 < k -> k <= mx -> k <= my -> `|my - mx| <= z ->
  `|c / (a + mx) - c / (a + my)| <= c * z / (k * k) /\ `|c / (a + mx)| <= c / k.
Proof.
move=> c0 a0 k0 hx hy hz; have ax : k <= a + mx by rewrite ler_paddl. have ay : k <= a + my by rewrite ler_paddl.
have x0 := lt_le_trans k0 ax; have y0 := lt_le_trans k0 ay; split.
  have -> : c / (a + mx) - c / (a + my) = c * (my - mx) / ((a + mx) * (a + my)).
    have x1 : a + mx <> 0 by [apply/eqP; rewrite gt_eqF]; have y1 : a + my <> 0 by [apply/eqP; rewrite gt_eqF].
    have -> : my - mx = (a + my) - (a + mx) by rewrite opprD addrACA subrr add0r.
    by move: (a + mx) (a + my) x1 y1; clear; move=> u v u1 v1; rfield.
  rewrite !normrM normfV (ger0_norm c0) (gtr0_norm (mulr_gt0 x0 y0)); apply: ler_pmul.
  - by rewrite mulr_ge0.
  - by rewrite invr_ge0 mulr_ge0 // ltW.
  - exact: ler_wpmul2l.
  - by rewrite lef_pinv ?posrE ?mulr_gt0 //; apply: ler_pmul => //; exact: ltW.
by rewrite ger0_norm ?divr_ge0 // ?(ltW x0) //; apply: ler_wpmul2l => //; rewrite lef_pinv ?posrE.
Qed.
Variables (N p : nat).
Implicit Types (X Y : 'M[K]_(N, p.+1)).
Definition ratio (c a q : R) : R := c / (a + q).
Section Sample.
Variables (S : 'M[K]_p.+1) (b n q c a : R).
Hypotheses (pS : pd S) (b1 : 1 <= b) (s1 : loewner S (ofR b *: 1%:M)) (s2 : loewner 1%:M (ofR b *: S)).
Hypotheses (n0 : 0 < n) (q0 : 0 <= q) (c0 : 0 <= c) (a0 : 0 <= a).
Let b0 : 0 < b. Proof. exact: lt_le_trans ltr01 b1. Qed.
Let k := n / (b * 2%:R).
Let z := b * 2%:R * (q + 1) ^+ 2 + 2%:R * (b * 2%:R).
Definition lipc : R := c / k * (q + (q + 1)) + c * z / (k * k) * ((q + 1) * (q + 1)).
Lemma lipc_ge0 : 0 <= lipc.
Proof.
have k0 : 0 <= k by rewrite divr_ge0 ?mulr_ge0 ?ler0n // ltW.
have q1 : 0 <= q + 1 by rewrite addr_ge0 ?ler01.
have z0 : 0 <= z by rewrite addr_ge0 ?mulr_ge0 ?ler0n ?exprn_ge0 // ltW.
by apply: addr_ge0; [apply: mulr_ge0; [exact: divr_ge0 | exact: addr_ge0] | apply: mulr_ge0; [apply: divr_ge0; exact: mulr_ge0 | exact: mulr_ge0]].
Qed.
Lemma sample_lip T x y (dl : R) : pd T -> close 1 T S -> n <= nv x -> n <= nv y -> fro x <= q -> fro y <= q + 1 -> fro (y - x) = dl -> dl <= 1 ->
  fro (ofR (ratio c a (maha T x)) *: outer x - ofR (ratio c a (maha T y)) *: outer y) <= lipc * dl.
Proof.
move=> pT [t1 t2] nx ny qx qy ed d1; have d0 : 0 <= dl by rewrite -ed fro_ge0.
case: (eqVneq dl 0) => [e|dn].
  have -> : y = x by apply/eqP; rewrite -subr_eq0; apply/eqP/fro_eq0; rewrite ed.
  by rewrite subrr fro0 mulr_ge0 // lipc_ge0.
have {dn}d0 : 0 < dl by rewrite lt_def dn.
have up v : maha T v <= b * 2%:R * nv v.
  have h1 := maha_loewner v pS pT t2; have h2 := maha_loewner v (pd1 K p.+1) pS s2; rewrite maha_nv in h2.
  apply: le_trans h1 _; rewrite -[1 + 1]/(2%:R) [b * _]mulrC -mulrA; apply: ler_wpmul2l h2; exact: ler0n.
have lo v : nv v <= b * 2%:R * maha T v.
  have h1 := maha_loewner v pT pS t1; have h2 := maha_loewner v pS (pd1 K p.+1) s1; rewrite maha_nv in h2.
  apply: le_trans h2 _; rewrite -mulrA; apply: ler_wpmul2l h1; exact: ltW.
have b2 : 0 < b * 2%:R by rewrite mulr_gt0 ?ltr0n.
have kx : k <= maha T x by rewrite ler_pdivr_mulr // mulrC; exact: le_trans nx (lo x).
have ky : k <= maha T y by rewrite ler_pdivr_mulr // mulrC; exact: le_trans ny (lo y).
have k0 : 0 < k by rewrite divr_gt0.
have nd : nv (y - x) = dl ^+ 2 by rewrite -ed fro_sq.
have zx : maha T x + 2%:R * (b * 2%:R) <= z.
  rewrite ler_add2r; apply: le_trans (up x) _; apply: ler_wpmul2l; first exact: ltW.
  by rewrite -[nv x]fro_sq ler_sqr ?nnegrE ?fro_ge0 ?addr_ge0 ?ler01 // (le_trans qx) // ler_addl ler01.
have zy : maha T y + 2%:R * (b * 2%:R) <= z.
  rewrite ler_add2r; apply: le_trans (up y) _; apply: ler_wpmul2l; first exact: ltW.
  by rewrite -[nv y]fro_sq ler_sqr ?nnegrE ?fro_ge0 ?addr_ge0 ?ler01.
have dm : `|maha T y - maha T x| <= z * dl.
  rewrite ler_norml ler_oppl opprB; apply/andP; split.
    apply: le_trans (_ : (maha T y + 2%:R * (b * 2%:R)) * dl <= _); last by apply: ler_wpmul2r zy; exact: ltW.
    apply: split_arith => //; first exact: ltW.
    have := maha_split y (x - y) pT d0; rewrite addrCA subrr addr0 => /le_trans; apply; rewrite ler_add2l.
    apply: ler_wpmul2l; first by rewrite addr_ge0 ?ler01 // invr_ge0 ltW.
    by rewrite -nd; apply: le_trans (up _) _; rewrite -opprB /nv fro2N.
  apply: le_trans (_ : (maha T x + 2%:R * (b * 2%:R)) * dl <= _); last by apply: ler_wpmul2r zx; exact: ltW.
  apply: split_arith => //; first exact: ltW.
  have := maha_split x (y - x) pT d0; rewrite addrCA subrr addr0 => /le_trans; apply; rewrite ler_add2l.
  apply: ler_wpmul2l; first by rewrite addr_ge0 ?ler01 // invr_ge0 ltW.
  by rewrite -nd; exact: up.
have [w1 w2] := weight_arith c0 a0 k0 kx ky dm.
have -> : ofR (ratio c a (maha T x)) *: outer x - ofR (ratio c a (maha T y)) *: outer y =
    ofR (ratio c a (maha T x)) *: (outer x - outer y) + ofR (ratio c a (maha T x) - ratio c a (maha T y)) *: outer y.
  by rewrite rmorphB scalerBr scalerBl addrA subrK.
apply: le_trans (froD _ _) _; rewrite !froZn mulrDl; apply: ler_add.
  by rewrite -[X in _ <= X]mulrA; apply: ler_pmul => //; [exact: fro_ge0 | exact: outerB].
have -> : c * z / (k * k) * ((q + 1) * (q + 1)) * dl = c * (z * dl) / (k * k) * ((q + 1) * (q + 1)).
  by rewrite mulrAC; congr (_ * _); rewrite mulrAC mulrA.
by apply: ler_pmul => //; [exact: fro_ge0 | exact: fro_outer].
Qed.
End Sample.
(* the update is a Lipschitz function of the samples, uniformly for the matrices near S *)
Lemma step_lip X (S : 'M[K]_p.+1) (c a : R) : (forall i, row i X != 0) -> pd S -> 0 <= c -> 0 <= a ->
  exists2 d : R, 0 < d & exists2 C : R, 0 <= C & forall Y T, fro (Y - X) <= d -> pd T -> close 1 T S ->
    fro (mstep (ratio c a) X T - mstep (ratio c a) Y T) <= C * fro (Y - X).
Proof.
move=> X0 pS c0 a0; have [b [b1 s1 s2]] := pd_comparable pS (pd1 K p.+1).
have [n n0 hn] : exists2 n : R, 0 < n & forall i, n <= fro (samp X i).
  apply: (@fin_min [finType of 'I_N] (fun i n => n <= fro (samp X i))) => [i|i u v _ vu]; last exact: le_trans.
  exists (fro (samp X i)) => //; rewrite lt_def fro_ge0 andbT; apply/eqP => /fro_eq0 /eqP; apply/negP; exact: samp0.
pose q : R := \sum_i fro (samp X i); have q0 : 0 <= q by apply: sumr_ge0 => i _; exact: fro_ge0.
have hq i : fro (samp X i) <= q by rewrite /q (bigD1 i) //= ler_addl; apply: sumr_ge0 => j _; exact: fro_ge0.
have n2 : 0 < (n / 2%:R) ^+ 2 by rewrite exprn_gt0 // divr_gt0 ?ltr0n.
have L0 := @lipc_ge0 b ((n / 2%:R) ^+ 2) q c b1 n2 q0 c0.
exists (Num.min 1 (n / 2%:R)); first by rewrite lt_minr ltr01 divr_gt0 ?ltr0n.
exists (N%:R * lipc b ((n / 2%:R) ^+ 2) q c); first by rewrite mulr_ge0 ?ler0n.
move=> Y T; rewrite le_minr => /andP[dl1 dln] pT cl.
have di i : fro (samp Y i - samp X i) <= fro (Y - X).
  rewrite -ler_sqr ?nnegrE ?fro_ge0 // !fro_sq; by have := nrm2_le_fro2 X Y i; rewrite /nrm2 -nvE.
have yn i : n / 2%:R <= fro (samp Y i).
  have : fro (samp X i) <= fro (samp Y i) + fro (samp Y i - samp X i).
    have {1}-> : samp X i = samp Y i - (samp Y i - samp X i) by rewrite opprB addrC subrK.
    by apply: le_trans (froD _ _) _; rewrite froN.
  have := hn i; have := le_trans (di i) dln; move: (fro _) (fro _) (fro _) => u v w; clear.
  have e : n / 2%:R + n / 2%:R = n by rfield.
  by rewrite -{2}e; move: (n / 2%:R) => m; move=> *; rlra2.
rewrite /mstep /wsum -sumrB; apply: le_trans (fro_sum _) _.
apply: le_trans (_ : \sum_(i < N) lipc b ((n / 2%:R) ^+ 2) q c * fro (Y - X) <= _); last first.
  by rewrite sumr_const card_ord -mulr_natl mulrA.
apply: ler_sum => i _; apply: le_trans (_ : _ * fro (samp Y i - samp X i) <= _); last exact: (ler_wpmul2l L0).
have h2 : 0 <= n / 2%:R by rewrite divr_ge0 ?ler0n // ltW.
apply: (sample_lip pS b1 s1 s2 n2 q0 c0 a0) => //.
- rewrite -[nv _]fro_sq ler_sqr ?nnegrE ?fro_ge0 //; apply: le_trans (hn i); rewrite ler_pdivr_mulr ?ltr0n //; apply: ler_pemulr; [exact: ltW | by rewrite ler1n].
- by rewrite -[nv _]fro_sq ler_sqr ?nnegrE ?fro_ge0.
- have -> : samp Y i = samp X i + (samp Y i - samp X i) by rewrite addrC subrK.
  by apply: le_trans (froD _ _) _; apply: ler_add => //; exact: le_trans (di i) dl1.
- exact: le_trans (di i) dl1.
Qed.
End Step.

(* ------------------------------------------------------------------ matrices that are almost fixed *)
Section Residual.
Variable K : starField.
Local Notation ofR := (@ofR K).
Local Notation toR := (@toR K).
Local Notation "A ^H" := (adj A) (at level 8, format "A ^H").
Lemma fro_close p (s v : 'M[K]_p) (b e : R) : herm s -> herm v -> 0 <= e -> loewner 1%:M (ofR b *: s) -> loewner 1%:M (ofR b *: v) -> fro (s - v) <= e ->
  close (b * e) s v.
Proof.
move=> hs hv e0 ls lv he; have h2 : fro2 (s - v) <= e ^+ 2 by rewrite -fro_sq ler_sqr ?nnegrE ?fro_ge0.
have [q1 q2] := herm_le_fro (hermB hs hv) e0 h2.
have g (x y : 'M[K]_p) : loewner 1%:M (ofR b *: y) -> psd (ofR e *: 1%:M - (x - y)) -> loewner x (ofR (1 + b * e) *: y).
  move=> ly q; have := loewnerZ e0 ly; rewrite scalerA -rmorphM mulrC => h.
  by have := psdD q h; rewrite addrC addrA subrK opprB addrA rmorphD (rmorph1 (@Star.ofR K)) scalerDl scale1r [y + _]addrC.
by split; [exact: g | apply: g => //; rewrite opprB].
Qed.
Lemma close_fro_sum p (s t S : 'M[K]_p) (e : R) : pd s -> pd t -> pd S -> 0 <= e -> close e s S -> close e t S -> fro (s - t) <= 2%:R * e * fro S.
Proof.
move=> ps pt pS e0 [a b] [c d]; have h1 := loewner_fro ps pS e0 a b; have h2 := loewner_fro pt pS e0 c d.
have -> : s - t = (s - S) - (t - S) by rewrite opprB addrA subrK.
apply: le_trans (froD _ _) _; rewrite froN -[2%:R]/(1 + 1) !mulrDl !mul1r; exact: ler_add.
Qed.
Lemma close_froS p (s S : 'M[K]_p) (e : R) : pd s -> pd S -> 0 <= e <= 1 -> close e s S -> fro s <= 2%:R * fro S.
Proof.
move=> ps pS /andP[e0 e1] [a b]; have h := loewner_fro ps pS e0 a b; rewrite -[s](subrK S); apply: le_trans (froD _ _) _.
rewrite -[2%:R]/(1 + 1) mulrDl mul1r ler_add2r; apply: le_trans h _; apply: ler_pimull => //; exact: fro_ge0.
Qed.
Variables (N p : nat).
Implicit Types (X Y : 'M[K]_(N, p.+1)) (S T v s : 'M[K]_p.+1).
(* the distance of a matrix near S to the multiples of S by a factor satisfying P is at most proportional to the change made by an update *)
Definition resid (P : R -> Prop) (w : R -> R) X S := exists t0 M : R, [/\ 0 < t0, t0 <= 1, 0 <= M & forall v, pd v -> close t0 v S ->
  exists2 l : R, P l & close (M * fro (mstep w X v - v)) v (ofR l *: S)].
Section Tyler.
Variables (X : 'M[K]_(N, p.+1)) (Sol : 'M[K]_p.+1).
Hypothesis (cK : compactK K) (X0 : forall i, row i X != 0) (irr : irreducible X) (sol : tyler_solution X Sol).
Let F := mstep (tyl_w N p.+1) X.
Lemma tyl_resid : resid (fun l => 0 < l) (tyl_w N p.+1) X Sol.
Proof.
have [A [d [uA eA _ _]]] := simdiag sol.1 sol.1; pose B := invmx A; pose Y := X *m B^T.
have Y0 := wY0 X0 uA; have sY := wsol sol uA eA; have iY := wirr irr uA.
have [g g01 gapP] := gap Y0 sY iY cK; have [r0 r1 rr] := rate01 g01; have /andP[rt0 rt1] := rt01 g01.
have p0 : 0 < p.+1%:R :> R by rewrite ltr0n.
have [f f0 hf] := normalised_fro "trace" (pd1 K p.+1) (divr_gt0 rr p0).
have [b [b1 s1 s2]] := pd_comparable sol.1 (pd1 K p.+1); have b0 := lt_le_trans ltr01 b1.
pose c : R := 2%:R / (1 - rt g); have c0 : 0 < c by rewrite divr_gt0 ?ltr0n // subr_gt0.
pose M := b * 2%:R * (fro A * fro A * (c * (fro B * fro B))).
have fA := fro_ge0 A; have fB := fro_ge0 B.
have M1 : 0 <= fro A * fro A * (c * (fro B * fro B)) by apply: mulr_ge0; [exact: mulr_ge0 | apply: mulr_ge0; [exact: ltW | exact: mulr_ge0]].
have M0 : 0 <= M by apply: mulr_ge0 => //; rewrite mulr_ge0 ?ler0n // ltW.
exists (Num.min f 1), M; split=> //; [by rewrite lt_minr f0 ltr01 | by rewrite le_minl lexx orbT |].
move=> v pv cl0; have m1 : Num.min f 1 <= 1 by rewrite le_minl lexx orbT.
have cl : close 1 v Sol by apply: close_le m1 cl0; apply: pd_psd => //; exact: sol.1.
have eB : B *m Sol *m B^H = 1%:M by rewrite eA; have := BA uA 1%:M; rewrite mulmx1.
set v' := B *m v *m B^H; have pv' : pd v' by apply: pd_congr => //; exact: uB.
have cl' e : close e v Sol -> close e v' 1%:M by move=> h; have := close_congr B h; rewrite eB.
have nE (T : 'M[K]_p.+1) : normalised "trace" T = ofR (sc T)^-1 *: T by rewrite /normalised /get_normalisation_function /= /norm_trace fmorphV.
have scN T : toR (get_normalisation_function "trace" T) = sc T :> R by rewrite /get_normalisation_function /= /norm_trace toRK.
have sc1 : sc (1%:M : 'M[K]_p.+1) = 1 by rewrite /sc mxtrace1 -(rmorph_nat (@Star.ofR K)) toRK divff // pnatr_eq0.
have dvr : dv v' <= radius g.
  have cf : close f v' 1%:M by apply: cl'; apply: close_le cl0; try (apply: pd_psd => //; exact: sol.1); rewrite le_minl lexx.
  have := hf _ pv' cf; rewrite !nE sc1 invr1 (rmorph1 (@Star.ofR K)) scale1r -/(dv v') => /le_trans; apply.
  by rewrite mulrAC ler_pdivr_mulr // ler_pmul2l // fro1.
have [_ _ _ u4] := update Y0 sY g01 gapP pv' dvr.
pose l := sc v'; have l0 : 0 < l := sc_gt0 pv'.
have l2 : 1 <= 2%:R * l.
  have /norm_loewner : loewner 1%:M (ofR 2%:R *: v') by have [_] := cl' _ cl.
  move=> /(_ "trace"%string (pd1 _ _) (pdZ _ pv')); rewrite ofR_gt0 ltr0n !scN sc1 => /(_ isT).
  by rewrite /sc mxtraceZ toRZ -mulrA.
have [H [hH tH dH eH]] := dvE pv'.
have e1 : v - ofR l *: Sol = A *m (v' - ofR l *: 1%:M) *m A^H.
  by rewrite mulmxBr mulmxBl AB // -scalemxAr -scalemxAl mulmx1 -eA.
have e2 : v' - ofR l *: 1%:M = ofR l *: H by rewrite {1}eH scalerDr addrC addKr.
have e3 : mstep (tyl_w N p.+1) Y v' - v' = B *m (F v - v) *m B^H.
  by rewrite mulmxBr mulmxBl; congr (_ - _); exact: mstep_congr (uB uA) (pd_unit pv).
have key : fro (v - ofR l *: Sol) <= fro A * fro A * (c * (fro B * fro B)) * fro (F v - v).
  rewrite e1; apply: le_trans (fro_mul _ _) _; rewrite froH; apply: le_trans (ler_wpmul2r (fro_ge0 _) (fro_mul _ _)) _.
  rewrite mulrAC -[X in _ <= X]mulrA; apply: ler_wpmul2l; first by rewrite mulr_ge0 ?fro_ge0.
  rewrite e2 froZ ?(ltW l0) // -dH.
  have : fro (mstep (tyl_w N p.+1) Y v' - v') <= fro B * fro B * fro (F v - v).
    rewrite e3; apply: le_trans (fro_mul _ _) _; rewrite froH; apply: le_trans (ler_wpmul2r (fro_ge0 _) (fro_mul _ _)) _.
    by rewrite mulrAC.
  move/(le_trans u4); rewrite -/l; have -> : (1 - rt g) / 2%:R = c^-1 by rewrite /c invf_div.
  rewrite mulrC ler_pdivr_mulr // => h; apply: le_trans h _; by rewrite [X in X <= _]mulrC !mulrA.
exists l => //; have -> : M * fro (F v - v) = b * 2%:R * (fro A * fro A * (c * (fro B * fro B)) * fro (F v - v)) by exact: esym (mulrA _ _ _).
apply: fro_close.
- exact: pd_herm.
- by apply: hermZR; apply: pd_herm; exact: sol.1.
- by apply: mulr_ge0 => //; exact: fro_ge0.
- apply: (@loewner_comp _ _ b 2%:R 1%:M Sol v); [exact: ltW | exact: s2 | by have [_] := cl].
- rewrite scalerA -rmorphM; apply: loewner_trans s2 _; apply: loewner_le; first exact: pd_psd sol.1.
  by rewrite -mulrA ler_pmulr.
- exact: key.
Qed.
End Tyler.
Section Student.
Variables (a : R) (X : 'M[K]_(N, p.+1)) (Sol : 'M[K]_p.+1).
Hypothesis (cK : compactK K) (X0 : forall i, row i X != 0) (a0 : 0 < a) (sol : student_solution a X Sol).
Let F := mstep (stu_w N p.+1 a) X.
Let sp : spanning X := student_spanning sol.
Let N0 : (0 < N)%N := spanning_N sp.
Let Fpd v : pd v -> pd (F v). Proof. exact: student_mstep_pd. Qed.
Lemma stu_fix : F Sol = Sol. Proof. by case: sol => _ {2}->. Qed.
Lemma post_arith (Q e : R) : 0 <= Q -> 0 <= e -> e * Q <= a / 2%:R -> post a Q e <= 2%:R * (a + Q) / a * e.
Proof.
move=> Q0 e0 eQ; have h2 : a / 2%:R + a / 2%:R = a by rfield.
have den : a / 2%:R <= a - e * Q by rewrite -{2}h2 -addrA ler_addl subr_ge0.
have a2 : 0 < a / 2%:R by rewrite divr_gt0 ?ltr0n.
rewrite /post; have -> : 2%:R * (a + Q) / a * e = e * (a + Q) / (a / 2%:R).
  by have an : a <> 0 by [apply/eqP; rewrite gt_eqF]; rfield.
apply: ler_wpmul2l; first by rewrite mulr_ge0 // addr_ge0 // ltW.
by rewrite lef_pinv ?posrE //; exact: lt_le_trans den.
Qed.
Lemma stu_resid : resid (fun l => l = 1) (stu_w N p.+1 a) X Sol.
Proof.
have pS := sol.1; have [b [b1 _ s2]] := pd_comparable pS (pd1 K p.+1); have b0 := lt_le_trans ltr01 b1.
pose Q : R := 2%:R * \sum_i maha Sol (samp X i).
have mS i : maha Sol (samp X i) <= \sum_i maha Sol (samp X i).
  by rewrite [X in _ <= X](bigD1 i) //= ler_addl; apply: sumr_ge0 => j _; exact: maha_ge0.
have Q0 : 0 <= Q by rewrite mulr_ge0 ?ler0n //; apply: sumr_ge0 => j _; exact: maha_ge0.
have fS : 0 <= fro Sol := fro_ge0 _.
pose t0 := Num.min 1 (a / 2%:R / (b * 2%:R * (2%:R * fro Sol) * Q + 1)).
have b20 : 0 <= b * 2%:R by rewrite mulr_ge0 ?ler0n // ltW.
have D1 : 0 <= b * 2%:R * (2%:R * fro Sol) * Q by apply: mulr_ge0 => //; apply: mulr_ge0 => //; rewrite mulr_ge0 ?ler0n.
have D0 : 0 < b * 2%:R * (2%:R * fro Sol) * Q + 1 by rewrite ltr_spaddr ?ltr01.
have t00 : 0 < t0 by rewrite lt_minr ltr01 !divr_gt0 ?ltr0n.
pose M := 2%:R * (a + Q) / a * (b * 2%:R).
exists t0, M; split=> //; first by rewrite le_minl lexx.
  apply: mulr_ge0 => //; apply: divr_ge0; [apply: mulr_ge0; [exact: ler0n | apply: addr_ge0 => //; exact: ltW] | exact: ltW].
move=> v pv cl0; have cl : close 1 v Sol by apply: close_le cl0; try exact: pd_psd; rewrite le_minl lexx.
exists 1 => //.
rewrite (rmorph1 (@Star.ofR K)) scale1r; have pF := Fpd pv.
have clF : close t0 (F v) Sol by rewrite -stu_fix; apply: (F_close X0 (@stu_subhom N p a a0 N0)) => //; exact: ltW.
have clF1 : close 1 (F v) Sol by apply: close_le clF; try exact: pd_psd; rewrite le_minl lexx.
have lo s : close 1 s Sol -> loewner 1%:M (ofR (b * 2%:R) *: s).
  by move=> [_ h]; apply: loewner_comp s2 h; exact: ltW.
pose e := b * 2%:R * fro (F v - v).
have e0 : 0 <= e by rewrite mulr_ge0 ?fro_ge0.
have res : close e (F v) v by apply: fro_close => //; try exact: pd_herm; try exact: lo; exact: fro_ge0.
have bQ i : maha v (samp X i) <= Q.
  have [_ h] := cl; apply: le_trans (maha_loewner (samp X i) pS pv h) _.
  by rewrite -[1 + 1]/(2%:R); apply: ler_wpmul2l => //; exact: ler0n.
have eQ2 : e * Q <= a / 2%:R.
  have := close_fro_sum pF pv pS (ltW t00) clF cl0 => h.
  apply: le_trans (_ : b * 2%:R * (2%:R * t0 * fro Sol) * Q <= _); first by apply: ler_wpmul2r => //; exact: ler_wpmul2l.
  have -> : b * 2%:R * (2%:R * t0 * fro Sol) * Q = t0 * (b * 2%:R * (2%:R * fro Sol) * Q).
    by move: (t0) (fro Sol) (Q) (b) => t f q b'; clear; rfield.
  apply: le_trans (_ : t0 * (b * 2%:R * (2%:R * fro Sol) * Q + 1) <= _).
    by apply: ler_wpmul2l; [exact: ltW | rewrite ler_addl ler01].
  by rewrite -ler_pdivl_mulr // le_minl lexx orbT.
have eQ : e * Q < a.
  by apply: le_lt_trans eQ2 _; rewrite ltr_pdivr_mulr ?ltr0n // ltr_pmulr // ltr1n.
have [T sT cT] := post_exists N0 a0 pv bQ e0 res eQ cK X0.
have eT : T = Sol by exact: (C78_unique a0 N0 X0 sT sol).
have := close_sym cT; rewrite eT; apply: close_le; try exact: pd_psd.
by apply: le_trans (post_arith Q0 e0 eQ2) _; rewrite /M /e mulrA.
Qed.
(* the iterates from starting points that depend continuously on the samples *)
Lemma student_start_runs (t : R) (s0 : 'M[K]_(N, p.+1) -> 'M[K]_p.+1) : 0 < t -> start X s0 ->
  exists n, near_data X (fun Y => forall k, (n <= k)%N -> close t (iter k (mstep (stu_w N p.+1 a) Y) (s0 Y)) Sol).
Proof.
move=> t0 st; have p0 := near_at st.1; have pS := sol.1; have t2 : 0 < t / 2%:R by rewrite divr_gt0 ?ltr0n.
have [Q [e [Q0 e0 eQ pE h]]] := student_near_res a0 X0 sol t2; have [l [l1 h1 h2]] := pd_comparable p0 pS.
have l0' := le_trans ler01 l1; have l2 : 1 <= l * (1 + 1) by apply: le_trans (l1) _; rewrite mulrDr mulr1 ler_addl.
have l0 : 0 <= l * (1 + 1) - 1 by rewrite subr_ge0.
have r : 0 <= (1 + e) * Q / (a + Q) < 1.
  have [bQ _ _] := near_at h; exact: (rate1 N0 a0 pS bQ (ltW e0) eQ).
have [r0 r1] := andP r; have [n hn] := geometric r0 r1 l0 t2; exists n.
apply: near_imp (near_and h (near_and st.1 (st.2 1 ltr01))) => Y [[bQ Y0 res] [pY [g1 g2]]] k nk.
have spY : spanning Y := spanning_res pS (ltW e0) res.
have pk : pd (iter k (mstep (stu_w N p.+1 a) Y) (s0 Y)) by elim: k {nk} => //= k; exact: student_mstep_pd.
have cl : close (l * (1 + 1) - 1) (s0 Y) Sol.
  have n0 : 0 <= 1 + 1 :> R by rewrite addr_ge0 ?ler01.
  rewrite /close addrC subrK; split.
    rewrite mulrC; exact: (@loewner_comp _ _ (1 + 1) l (s0 Y) (s0 X) Sol).
  apply: (@loewner_comp _ _ l (1 + 1) Sol (s0 X) (s0 Y)) => //; exact: le_trans ler01 l1.
apply: close_le (pd_psd pk) (pd_psd pS) _ (post_iter N0 a0 pS bQ (ltW e0) res eQ pY l0 cl k).
rewrite pE; apply: le_trans (_ : t / 2%:R + t / 2%:R <= _); first by rewrite ler_add2l; exact: hn.
by rewrite le_eqVlt; apply/orP; left; apply/eqP; rfield.
Qed.
End Student.
(* samples near X *)
Lemma lip_generic (P : R -> Prop) (w : R -> R) (c a : R) X Sol : (forall q, w q = ratio c a q) -> 0 <= c -> 0 <= a -> subhom w -> (forall i, row i X != 0) -> pd Sol ->
  (forall l, P l -> 0 < l) -> resid P w X Sol -> exists t0 C : R, [/\ 0 < t0, t0 <= 1, 0 <= C & near_data X (fun Y => forall v s, pd v -> pd s -> close t0 v Sol -> close t0 s Sol ->
    s = mstep w Y v -> exists2 l : R, P l & close (C * (fro (Y - X) + fro (s - v) / fro v)) s (ofR l *: Sol))].
Proof.
move=> ew c0 a0 sh X0 pS hP [t0 [M [t00 t01 M0 hM]]]; have [d d0 [C C0 hC]] := step_lip X0 pS c0 a0.
have [b [b1 _ s2]] := pd_comparable pS (pd1 K p.+1); have b0 := lt_le_trans ltr01 b1.
have fS : 0 <= fro Sol := fro_ge0 _.
have mE Y T : mstep w Y T = mstep (ratio c a) Y T by rewrite /mstep; apply: eq_wsum => i; exact: ew.
pose C' := C + b * 2%:R * (2%:R * fro Sol) * (2%:R * fro Sol).
have b2 : 0 <= b * 2%:R by rewrite mulr_ge0 ?ler0n // ltW.
have C2 : 0 <= b * 2%:R * (2%:R * fro Sol) * (2%:R * fro Sol) by rewrite !mulr_ge0 ?ler0n // ltW.
have C'0 : 0 <= C' by rewrite addr_ge0.
exists t0, (M * C'); split=> //; first exact: mulr_ge0.
have nd : near_data X (fun Y => fro (Y - X) <= d).
  exists (d ^+ 2); first by rewrite exprn_gt0.
  by move=> Y; rewrite -fro_sq ler_sqr ?nnegrE ?fro_ge0 // ltW.
apply: near_imp (near_and nd (near_nonzero X0)) => Y [hd Y0] v s pv ps clv cls es.
have c1 u : pd u -> close t0 u Sol -> close 1 u Sol by move=> pu; apply: close_le => //; exact: pd_psd.
have lo u : pd u -> close t0 u Sol -> loewner 1%:M (ofR (b * 2%:R) *: u).
  by move=> pu h; have [_ h'] := c1 u pu h; apply: loewner_comp s2 h'; exact: ltW.
have t0' : 0 <= t0 <= 1 by rewrite ltW.
have fv : 0 < fro v by rewrite lt_def (pd_fro pv) fro_ge0.
have [l Pl cl] := hM s ps cls; have l0 := hP l Pl; exists l => //; apply: close_le cl; first exact: pd_psd.
  by apply: pd_psd; apply: pdZ => //; rewrite ofR_gt0.
rewrite -mulrA; apply: ler_wpmul2l => //.
pose x := fro (s - v) / fro v; have x0 : 0 <= x by rewrite divr_ge0 ?fro_ge0.
have e0 : 0 <= b * 2%:R * fro (s - v) by rewrite mulr_ge0 ?fro_ge0.
have csv : close (b * 2%:R * fro (s - v)) s v by apply: fro_close => //; try exact: pd_herm; try exact: lo; exact: fro_ge0.
have [h1 h2] : close (b * 2%:R * fro (s - v)) (mstep w Y s) s by rewrite [X in close _ _ X]es; apply: (F_close Y0 sh).
have fYs : fro (mstep w Y s - s) <= b * 2%:R * fro (s - v) * fro s.
  apply: loewner_fro => //; apply: loewner_pd h2 => //.
  by rewrite ltr_spaddl ?ltr01.
have -> : mstep w X s - s = (mstep w X s - mstep w Y s) + (mstep w Y s - s) by rewrite addrA subrK.
apply: le_trans (froD _ _) _; rewrite -/x mulrDr; apply: ler_add.
  rewrite !mE; apply: le_trans (hC Y s hd ps (c1 s ps cls)) _; apply: ler_wpmul2r; [exact: fro_ge0 | by rewrite ler_addl].
apply: le_trans fYs _; have -> : fro (s - v) = x * fro v by rewrite /x divfK // gt_eqF.
apply: le_trans (_ : b * 2%:R * (2%:R * fro Sol) * (2%:R * fro Sol) * x <= _); last by apply: ler_wpmul2r => //; rewrite ler_addr.
have -> : b * 2%:R * (2%:R * fro Sol) * (2%:R * fro Sol) * x = b * 2%:R * (x * (2%:R * fro Sol)) * (2%:R * fro Sol).
  by move: (b * 2%:R) (x) (2%:R * fro Sol) => u1 v1 w1; clear; rring.
apply: ler_pmul; [by rewrite mulr_ge0 // mulr_ge0 // ltW | exact: fro_ge0 | | exact: (close_froS ps pS t0' cls)].
by apply: ler_wpmul2l => //; apply: ler_wpmul2l => //; exact: (close_froS pv pS t0' clv).
Qed.
End Residual.
