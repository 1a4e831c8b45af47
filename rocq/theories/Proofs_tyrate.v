(* The derivative of Tyler's iteration at a solution is a contraction of the matrices of trace zero.  Nothing here models code. *)
From Coq Require Import Reals Lra Classical_Prop ClassicalEpsilon String.
From mathcomp Require Import all_ssreflect all_algebra.
From mathcomp Require Import zify.
From Verif Require Import RealsMC RealTac RealTac2 Star FunCalc Spec_covariance Spec_fixedpoint Spec_exist Model_covariance Proofs_mest Proofs_cost Proofs_unique Proofs_unique2
  Compact Proofs_estimators Proofs_converge Props_covariance Props_cost Props_robust Props_unique Props_converge Proofs_exist Proofs_exist2 Proofs_stable Proofs_stable2.
Set Implicit Arguments.
Unset Strict Implicit.
Unset Printing Implicit Defensive.
Local Open Scope ring_scope.
Import GRing.Theory Num.Theory Order.TTheory.

Section Vectors.
Variable K : starField.
Local Notation ofR := (@ofR K).
Local Notation toR := (@toR K).
Local Notation cj := (@cj K).
Local Notation "A ^H" := (adj A) (at level 8, format "A ^H").
Variable n : nat.
Implicit Types (x y : 'cV[K]_n) (A H : 'M[K]_n).
Definition nv x : R := fro2 x.
Definition rq H x : R := toR (qf H x).
Lemma nvE x : nv x = \sum_j sq (x j 0).
Proof. by rewrite /nv fro2E; apply: eq_bigr => j _; rewrite big_ord_recl big_ord0 addr0. Qed.
Lemma nv_ge0 x : 0 <= nv x. Proof. exact: fro2_ge0. Qed.
Lemma nv_gt0 x : x != 0 -> 0 < nv x.
Proof. by move=> x0; rewrite lt_def nv_ge0 andbT; apply: contra x0 => /eqP /fro2_eq0 ->. Qed.
Lemma maha_nv x : maha 1%:M x = nv x. Proof. by rewrite maha1 nvE. Qed.
Lemma ofR_nv x : ofR (nv x) = (x^H *m x) 0 0.
Proof. by rewrite nvE normcol rmorph_sum; apply: eq_bigr => j _; exact: ofR_sq. Qed.
Lemma tr_qf A x : \tr (A *m outer x) = qf A x.
Proof. by rewrite /outer mulmxA mxtrace_mulC mulmxA trace_mx11. Qed.
Lemma qf_HH H x : herm H -> qf (H *m H) x = ofR (nv (H *m x)).
Proof. by move=> hH; rewrite ofR_nv /qf /sesq adjM hH !mulmxA. Qed.
Lemma rq_CS H x : herm H -> rq H x ^+ 2 <= nv x * nv (H *m x).
Proof.
move=> hH; have := CS x (H *m x); rewrite -!nvE mulmxA -/(sesq H x x) -/(qf H x).
suff -> : sq (qf H x) = rq H x ^+ 2 by [].
by rewrite -(herm_qfE x hH) -/(rq H x) /sq cj_ofR -rmorphM toRK.
Qed.
Lemma nv_resid H x h : herm H -> nv (H *m x - ofR h *: x) = nv (H *m x) - 2%:R * h * rq H x + h ^+ 2 * nv x.
Proof.
move=> hH; have e : H *m x - ofR h *: x = (H - ofR h *: 1%:M) *m x by rewrite mulmxBl -scalemxAl mul1mx.
have hB : herm (H - ofR h *: 1%:M) by apply: hermB => //; apply: hermZR; exact: herm1.
apply: (@ofR_inj K); rewrite e -qf_HH // mulmxBl !mulmxBr -!scalemxAl -!scalemxAr !mulmx1 mul1mx opprB scalerA !qfD -!scaleN1r !qfZ qf_HH // qf1 -ofR_nv.
rewrite -(herm_qfE x hH : ofR (rq H x) = _) -(rmorph1 (@Star.ofR K)) -rmorphN -!rmorphM -!rmorphD; congr (ofR _).
by move: (nv _) (nv _) (rq _ _) => u v w; rfield.
Qed.
Lemma rqD A H x : rq (A + H) x = rq A x + rq H x. Proof. by rewrite /rq qfD raddfD. Qed.
Lemma rqZ c A x : rq (ofR c *: A) x = c * rq A x. Proof. by rewrite /rq qfZ toRZ. Qed.
Lemma rq1 x : rq 1%:M x = nv x. Proof. by rewrite /rq qf1 -ofR_nv toRK. Qed.
Lemma nvD x y : nv (x + y) <= 2%:R * (nv x + nv y). Proof. exact: fro2D. Qed.
Lemma rq_psd A x : psd A -> 0 <= rq A x. Proof. by move=> pA; apply: toR_ge0; apply: pA.2. Qed.
(* 1 / (x^H S^-1 x) <= x^H S x / |x|^4 *)
Lemma quad_inv (S : 'M[K]_n) x : pd S -> x != 0 -> nv x / maha S x <= rq S x / nv x.
Proof.
move=> pS x0; have q0 := maha_gt0 pS x0; have n0 := nv_gt0 x0.
have := rq_psd x (outer_le x pS); rewrite rqD rqZ -scaleN1r -(rmorph1 (@Star.ofR K)) -rmorphN rqZ mulN1r subr_ge0.
have -> : rq (outer x) x = nv x ^+ 2 by rewrite /rq qf_outer -ofR_nv cj_ofR -rmorphM toRK expr2.
by rewrite ler_pdivl_mulr // mulrAC ler_pdivr_mulr // expr2 mulrC [X in _ <= X]mulrC.
Qed.
(* S^-1 = 1 - H + H S^-1 H  for  S = 1 + H *)
Lemma inv_second H : herm H -> pd (1%:M + H) -> invmx (1%:M + H) = 1%:M - H + H *m invmx (1%:M + H) *m H.
Proof.
move=> hH pS; have uS := pd_unit pS; apply: (can_inj (mulKmx uS)); rewrite mulmxV //.
have e : (1%:M + H) *m H = H *m (1%:M + H) by rewrite mulmxDl mulmxDr mul1mx mulmx1.
rewrite mulmxDr !mulmxA e -(mulmxA H) mulmxV // mulmx1 mulmxBr mulmx1 mulmxDl mul1mx.
by rewrite opprD addrA addrK subrK.
Qed.
Lemma maha_second H x : herm H -> pd (1%:M + H) -> maha (1%:M + H) x = nv x - rq H x + maha (1%:M + H) (H *m x).
Proof.
move=> hH pS; rewrite /maha -/(sesq (invmx (1%:M + H)) x x) -/(qf _ x) {1}inv_second //.
have e : H *m invmx (1%:M + H) *m H = H *m invmx (1%:M + H) *m H^H by rewrite hH.
rewrite e !qfD qf_congr -scaleN1r qfZ mulN1r qf1 -ofR_nv !raddfD raddfN /= toRK hH; congr (_ + _).
Qed.
Lemma small_pd H : herm H -> fro H <= 2%:R^-1 -> loewner (ofR 2%:R^-1 *: 1%:M) (1%:M + H).
Proof.
move=> hH h; have e0 : 0 <= 2%:R^-1 :> R by rewrite invr_ge0 ler0n.
have h2 : fro2 H <= 2%:R^-1 ^+ 2 by rewrite -fro_sq ler_sqr ?nnegrE ?fro_ge0.
have [_] := herm_le_fro hH e0 h2.
rewrite /loewner; suff -> : 1%:M + H - ofR 2%:R^-1 *: 1%:M = ofR 2%:R^-1 *: 1%:M + H by [].
have {1}-> : 1%:M = ofR 2%:R^-1 *: 1%:M + ofR 2%:R^-1 *: 1%:M :> 'M[K]_n.
  have e : 2%:R^-1 + 2%:R^-1 = 1 :> R by rfield.
  by rewrite -scalerDl -rmorphD e rmorph1 scale1r.
by rewrite addrAC addrK.
Qed.
Lemma small_maha H x : herm H -> fro H <= 2%:R^-1 -> pd (1%:M + H) /\ maha (1%:M + H) x <= 2%:R * nv x.
Proof.
move=> hH h; have lo := small_pd hH h; have e0 : 0 < 2%:R^-1 :> R by rewrite invr_gt0 ltr0n.
have pc : pd (ofR 2%:R^-1 *: 1%:M : 'M[K]_n) by apply: pdZ; rewrite ?ofR_gt0 //; exact: pd1.
have pS : pd (1%:M + H) by have := pdD pc lo; rewrite addrC subrK.
split=> //; rewrite -maha_nv; apply: maha_loewner => //; first exact: pd1.
by have := loewnerZ (ler0n _ 2) lo; rewrite scalerA -rmorphM mulfV ?pnatr_eq0 // rmorph1 scale1r.
Qed.
(* the second order term is between 0 and a multiple of |H x|^2 *)
Lemma second_order H x : herm H -> fro H <= 2%:R^-1 -> x != 0 ->
  let d := 1 + rq H x / nv x - nv x / maha (1%:M + H) x in 0 <= d /\ d * nv x <= 2%:R * nv (H *m x).
Proof.
move=> hH h x0; have [pS _] := small_maha x hH h; have n0 := nv_gt0 x0; have q0 := maha_gt0 pS x0; split.
  by have := quad_inv pS x0; rewrite rqD rq1 mulrDl mulfV ?gt_eqF // subr_ge0.
have := (small_maha (H *m x) hH h).2; have := maha_second x hH pS.
move: (maha _ x) (maha _ (H *m x)) (nv x) (nv (H *m x)) (rq H x) q0 n0 => m m' v v' r m0 v0 em le.
have m1 : m <> 0 by apply/eqP; rewrite gt_eqF.
have v1 : v <> 0 by apply/eqP; rewrite gt_eqF.
have e : (1 + r / v - v / m) * v = (v + r) - v * v / m by rfield.
have : v * v / m >= 2%:R * v - m.
  rewrite ler_pdivl_mulr // -subr_ge0; have -> : v * v - (2%:R * v - m) * m = (v - m) ^+ 2 by rfield.
  exact: sqr_ge0.
rewrite e => g; apply: le_trans (_ : v + r - (2%:R * v - m) <= _); first by rewrite ler_add2l ler_opp2.
have -> : v + r - (2%:R * v - m) = m' by rewrite em; rfield.
exact: le.
Qed.
End Vectors.

(* ------------------------------------------------------------------ samples for which the identity is a solution *)
Lemma amgm (a u v : R) : 0 <= a -> a * (u * v) + a * (u * v) <= a * u ^+ 2 + a * v ^+ 2.
Proof.
move=> a0; rewrite -subr_ge0; have -> : a * u ^+ 2 + a * v ^+ 2 - (a * (u * v) + a * (u * v)) = a * (u - v) ^+ 2 by rfield.
by rewrite mulr_ge0 ?sqr_ge0.
Qed.
Lemma mono4 (a b c d e : R) : 0 <= a -> 0 <= b -> a <= c -> b <= e * d -> 4%:R * a * b <= 4%:R * c * d * e.
Proof.
by move=> a0 b0 ac be; rewrite -!(mulrA 4%:R) -(mulrA c) ler_pmul2l ?ltr0n //; apply: ler_pmul => //; rewrite mulrC.
Qed.
Section Isotropic.
Variable K : starField.
Local Notation ofR := (@ofR K).
Local Notation toR := (@toR K).
Local Notation cj := (@cj K).
Local Notation "A ^H" := (adj A) (at level 8, format "A ^H").
Variables (N n : nat) (Y : 'M[K]_(N, n.+1)).
Hypothesis (Y0 : forall i, row i Y != 0).
Hypothesis (sol : tyler_solution Y 1%:M).
Implicit Types (H G : 'M[K]_n.+1).
Let y i := samp Y i.
Let a : R := n.+1%:R / N%:R.
Let c i : R := a / nv (y i).
Let h H i : R := rq H (y i) / nv (y i).
Let y0 i : 0 < nv (y i). Proof. apply: nv_gt0; exact: samp0. Qed.
Let N0 : (0 < N)%N. Proof. exact: spanning_N (tyler_spanning sol). Qed.
Let a0 : 0 < a. Proof. by rewrite divr_gt0 ?ltr0n. Qed.
Let c0 i : 0 < c i. Proof. by rewrite divr_gt0. Qed.
Lemma iso : wsum c Y = 1%:M.
Proof. by rewrite [RHS](sol.2); apply: eq_wsum => i; rewrite /c -maha_nv. Qed.
Lemma tr_wsum (A : 'M[K]_n.+1) (b : 'I_N -> R) : \tr (A *m wsum b Y) = \sum_i ofR (b i) * qf A (y i).
Proof. by rewrite /wsum mulmx_sumr raddf_sum; apply: eq_bigr => i _; rewrite /= -scalemxAr mxtraceZ tr_qf. Qed.
Lemma fro2_iso H : herm H -> fro2 H = \sum_i c i * nv (H *m y i).
Proof.
move=> hH; apply: (@ofR_inj K); rewrite fro2_tr hH -[H *m H]mulmx1 -iso tr_wsum rmorph_sum.
by apply: eq_bigr => i _; rewrite qf_HH // rmorphM.
Qed.
Definition energy H : R := \sum_i a * h H i ^+ 2.
Definition defect H : R := \sum_i c i * nv (H *m y i - ofR (h H i) *: y i).
Lemma defectE H : herm H -> fro2 H = energy H + defect H.
Proof.
move=> hH; rewrite fro2_iso // -big_split; apply: eq_bigr => i _; rewrite nv_resid //= /c /h.
move: (nv (H *m _)) (nv (y i)) (rq _ _) (y0 i) => u v r v0; have v1 : v <> 0 by apply/eqP; rewrite gt_eqF.
by clear -v1; move: a => b; rfield.
Qed.
Lemma defect_ge0 H : 0 <= defect H.
Proof. by apply: sumr_ge0 => i _; apply: mulr_ge0; [exact: ltW | exact: nv_ge0]. Qed.
Lemma energy_le H : herm H -> energy H <= fro2 H.
Proof. by move=> hH; rewrite (defectE hH) ler_addl defect_ge0. Qed.
Lemma energy_ge0 H : 0 <= energy H. Proof. by apply: sumr_ge0 => i _; apply: mulr_ge0; [exact: ltW | exact: sqr_ge0]. Qed.
Lemma defect_le H : herm H -> defect H <= fro2 H.
Proof. by move=> hH; rewrite (defectE hH) ler_addr energy_ge0. Qed.
Lemma defectD H G : defect (H + G) <= 2%:R * (defect H + defect G).
Proof.
rewrite /defect -big_split mulr_sumr; apply: ler_sum => i _; rewrite /= -mulrDr mulrCA; apply: ler_wpmul2l; first exact: ltW.
have -> : (H + G) *m y i - ofR (h (H + G) i) *: y i = (H *m y i - ofR (h H i) *: y i) + (G *m y i - ofR (h G i) *: y i).
  by rewrite /h rqD mulrDl rmorphD scalerDl mulmxDl opprD addrACA.
exact: nvD.
Qed.
(* the derivative *)
Definition deriv H := wsum (fun i => c i * h H i) Y.
Lemma wsum_herm (b : 'I_N -> R) : herm (wsum b Y).
Proof.
rewrite /herm /wsum adj_sum; apply: eq_bigr => i _; rewrite adjZR; congr (_ *: _); exact: psd_herm (psd_outer _).
Qed.
Lemma deriv_herm H : herm (deriv H). Proof. exact: wsum_herm. Qed.
Lemma deriv_fro H : fro2 (deriv H) <= energy H.
Proof.
have hD := deriv_herm H.
have e : fro2 (deriv H) = \sum_i a * (h H i * h (deriv H) i).
  apply: (@ofR_inj K); rewrite fro2_tr hD {2}/deriv tr_wsum rmorph_sum; apply: eq_bigr => i _.
  rewrite -(herm_qfE _ hD) -/(rq _ _) -rmorphM; congr (ofR _); rewrite /c /h.
  move: (nv (y i)) (y0 i) (rq _ _) (rq _ _) => v v0 r s; have v1 : v <> 0 by apply/eqP; rewrite gt_eqF.
  by clear -v1; move: a => b; rfield.
have le : fro2 (deriv H) + fro2 (deriv H) <= energy H + energy (deriv H).
  rewrite e /energy -!big_split; apply: ler_sum => i _; exact: amgm (ltW a0).
have := energy_le hD; move: (energy _) (energy _) (fro2 _) le => u v w; clear; move=> *; rlra2.
Qed.
Lemma deriv_tr H : herm H -> \tr (deriv H) = \tr H.
Proof.
move=> hH; have -> : \tr H = \tr (H *m wsum c Y) by rewrite iso mulmx1.
rewrite -[deriv H]mul1mx !tr_wsum; apply: eq_bigr => i _.
rewrite qf1 -ofR_nv -(herm_qfE _ hH) -/(rq _ _) -!rmorphM; congr (ofR _); rewrite /h -mulrA divfK // gt_eqF //.
Qed.
Lemma tr_wsum1 b : \tr (wsum b Y) = ofR (\sum_i b i * nv (y i)).
Proof. by rewrite -[wsum b Y]mul1mx tr_wsum rmorph_sum; apply: eq_bigr => i _; rewrite qf1 -ofR_nv rmorphM. Qed.
Lemma fro_wsum b : (forall i, 0 <= b i) -> fro (wsum b Y) <= \sum_i b i * nv (y i).
Proof.
move=> b0; rewrite /wsum; elim/big_ind2: _ => [|A u B v hA hB|i _]; first by rewrite fro0.
  by apply: le_trans (froD _ _) _; exact: ler_add.
rewrite froZ //; apply: ler_wpmul2l => //; rewrite -ler_sqr ?nnegrE ?fro_ge0 ?nv_ge0 // fro_sq expr2.
by have := @fro2_mul K 1 n.+1 n.+1 (y i)^H (y i)^H; rewrite adjK !fro2H.
Qed.
(* no direction is kept when the samples do not split *)
Hypothesis irr : irreducible Y.
Lemma defect0 H : herm H -> \tr H = 0 -> defect H = 0 -> H = 0.
Proof.
move=> hH tH dH; have ev i : H *m y i = ofR (h H i) *: y i.
  have /(_ i isT) := psumr_eq0P (fun i _ => mulr_ge0 (ltW (c0 i)) (nv_ge0 _)) dH.
  by move/eqP; rewrite mulf_eq0 gt_eqF //= => /eqP /fro2_eq0 /eqP; rewrite subr_eq0 => /eqP.
have [uV eH] := specdecP hH; move: (specdec H) uV eH => [d V] /= uV eH.
pose ind : 'rV[R]_n.+1 := \row_j (d 0 j == d 0 0)%:R.
pose P := V *m dia K ind *m V^H.
have PP : P *m P = P.
  rewrite /P !mulmxA -(mulmxA _ V^H V) uV mulmx1 -(mulmxA V) diaM; congr (_ *m dia K _ *m _).
  by apply/rowP => j; rewrite !mxE; case: (_ == _); rewrite ?mulr1 ?mulr0.
have sp i : P *m y i = 0 \/ P *m y i = y i.
  have := ev i; rewrite {1}eH /P => e.
  have {e} e j : ofR (d 0 j) * (V^H *m y i) j 0 = ofR (h H i) * (V^H *m y i) j 0.
    have := congr1 (mulmx V^H) e; rewrite !mulmxA uV mul1mx -scalemxAr -mulmxA => /matrixP /(_ j 0).
    by rewrite mul_dia_mx => ->; rewrite !mxE.
  have dj j : (V^H *m y i) j 0 != 0 -> d 0 j = h H i by move=> z; apply: (@ofR_inj K); apply: (mulIf z).
  rewrite -mulmxA; case: (eqVneq (h H i) (d 0 0)) => r.
    right; have -> : V *m dia K ind *m (V^H *m y i) = V *m (V^H *m y i); last by rewrite mulmxA unitaryV // mul1mx.
    rewrite -mulmxA; congr (_ *m _); apply/colP => j; rewrite mul_dia_mx [ind _ _]mxE; case: (eqVneq ((V^H *m y i) j 0) 0) => [->|z]; first by rewrite mulr0.
    by rewrite (dj _ z) r eqxx rmorph1 mul1r.
  left; rewrite -mulmxA; have -> : dia K ind *m (V^H *m y i) = 0; last by rewrite mulmx0.
  apply/colP => j; rewrite mul_dia_mx [ind _ _]mxE; case: (eqVneq ((V^H *m y i) j 0) 0) => [->|z]; first by rewrite mulr0 mxE.
  by rewrite (dj _ z) (negbTE r) rmorph0 mul0r mxE.
have dP j : (V^H *m P *m V) j j = ofR (ind 0 j).
  by rewrite /P !mulmxA uV mul1mx -mulmxA uV mulmx1 diaE eqxx mulr1n.
case: (irr PP sp) => eP.
  have := dP 0; rewrite eP mulmx0 mul0mx !mxE eqxx rmorph1 => /esym /eqP; by rewrite oner_eq0.
have ed j : d 0 j = d 0 0.
  have := dP j; rewrite eP mulmx1 uV !mxE eqxx; case: eqP => // _; rewrite rmorph0 => /eqP; by rewrite oner_eq0.
have eI : H = ofR (d 0 0) *: 1%:M.
  rewrite eH; have -> : d = const_mx (d 0 0) by apply/rowP => j; rewrite mxE ed.
  by rewrite dia_const mul_mx_scalar -scalemxAl unitaryV // mxE.
move: tH; rewrite eI mxtraceZ mxtrace1 => /eqP; rewrite mulf_eq0 pnatr_eq0 orbF => /eqP ->.
by rewrite scale0r.
Qed.
(* hence, by compactness, a proportion of every matrix of trace zero is lost *)
Hypothesis cK : compactK K.
Lemma tr_fro2 H : sq (\tr H) <= n.+1%:R * fro2 H.
Proof.
have := CS (const_mx 1 : 'cV[K]_n.+1) (\col_i H i i).
have -> : ((const_mx 1 : 'cV[K]_n.+1)^H *m (\col_i H i i)) 0 0 = \tr H.
  by rewrite mxE; apply: eq_bigr => i _; rewrite !mxE rmorph1 mul1r.
have -> : \sum_j sq ((const_mx 1 : 'cV[K]_n.+1) j 0) = n.+1%:R.
  by under eq_bigr do rewrite mxE sq1; rewrite sumr_const card_ord.
move/le_trans; apply; apply: ler_wpmul2l; first exact: ler0n.
rewrite fro2E; apply: ler_sum => i _; rewrite mxE (bigD1 i) //= ler_addl; apply: sumr_ge0 => j _; exact: sq_ge0.
Qed.
Lemma le0_all (x k : R) : 0 <= k -> (forall e : R, 0 < e -> x <= k * e) -> x <= 0.
Proof.
move=> k0 hx; rewrite leNgt; apply/negP => x0; have k1 : 0 < 1 + k by rewrite ltr_spaddl ?ltr01.
have := hx _ (divr_gt0 x0 k1); rewrite mulrA ler_pdivl_mulr // mulrC ler_pmul2r // ger_addr leNgt ltr01 //.
Qed.
Lemma gap : exists2 g : R, 0 < g <= 1 & forall H, herm H -> \tr H = 0 -> g * fro2 H <= defect H.
Proof.
apply: NNPP => no.
have ex k : exists H, [/\ herm H, \tr H = 0, fro2 H = 1 & defect H <= k.+1%:R^-1].
  apply: NNPP => no'; apply: no; exists k.+1%:R^-1; first by rewrite invr_gt0 ltr0n invf_le1 ?ler1n ?ltr0n.
  move=> H hH tH; case: (eqVneq (fro2 H) 0) => [->|f0]; first by rewrite mulr0 defect_ge0.
  have {f0} f0 : 0 < fro2 H by rewrite lt_def f0 fro2_ge0.
  rewrite leNgt; apply/negP => lt; apply: no'; pose r := (fro H)^-1.
  have r2 : r ^+ 2 * fro2 H = 1 by rewrite /r exprVn fro_sq mulVf // gt_eqF.
  exists (ofR r *: H); split; first exact: hermZR.
  - by rewrite mxtraceZ tH mulr0.
  - by rewrite fro2Z.
  have -> : defect (ofR r *: H) = r ^+ 2 * defect H.
    rewrite /defect mulr_sumr; apply: eq_bigr => i _; rewrite mulrCA; congr (_ * _).
    have -> : h (ofR r *: H) i = r * h H i by rewrite /h rqZ mulrA.
    by rewrite rmorphM -scalemxAl -scalerA -scalerBr /nv fro2Z.
  apply: le_trans (ler_wpmul2l (sqr_ge0 r) (ltW lt)) _; by rewrite mulrCA r2 mulr1.
pose s k := proj1_sig (constructive_indefinite_description _ (ex k)).
have hs k : [/\ herm (s k), \tr (s k) = 0, fro2 (s k) = 1 & defect (s k) <= k.+1%:R^-1] := proj2_sig (constructive_indefinite_description _ (ex k)).
have bd k : fro2 (s k) <= 1 by have [_ _ ->] := hs k.
have [L hL] := cK bd.
have small (e : R) : 0 < e -> exists2 H, [/\ herm H, \tr H = 0, fro2 H = 1 & defect H <= e] & fro2 (H - L) <= e.
  move=> e0; have [k0 hk0] := arch 1 e0; have [k kk h1] := hL e k0 e0; exists (s k) => //.
  have [x1 x2 x3 x4] := hs k; split=> //; apply: le_trans x4 _; rewrite -[_^-1]mul1r ler_pdivr_mulr ?ltr0n //.
  apply: le_trans (ltW hk0) _; rewrite mulrC ler_pmul2l // ler_nat; exact: leqW.
have herL : herm L.
  apply/eqP; rewrite -subr_eq0; apply/eqP/fro2_eq0/eqP; rewrite eq_le fro2_ge0 andbT; apply: (@le0_all _ 4%:R) => [|e e0]; first exact: ler0n.
  have [H [hH _ _ _] le] := small e e0.
  have -> : L^H - L = - (H - L)^H + (H - L) by rewrite adjB hH opprB addrA subrK.
  apply: le_trans (fro2D _ _) _; rewrite fro2N fro2H; move: (fro2 _) le => x le; rewrite -[4%:R]/(1 + (1 + (1 + 1))) -[2%:R]/(1 + 1); clear -le; rnra2.
have trL : \tr L = 0.
  apply/sq_eq0/eqP; rewrite eq_le sq_ge0 andbT; apply: (@le0_all _ n.+1%:R) => [|e e0]; first exact: ler0n.
  have [H [_ tH _ _] le] := small e e0; have -> : sq (\tr L) = sq (\tr (H - L)) by rewrite raddfB /= tH sub0r sqN.
  apply: le_trans (tr_fro2 _) _; apply: ler_wpmul2l => //; exact: ler0n.
have dL : defect L = 0.
  apply/eqP; rewrite eq_le defect_ge0 andbT; apply: (@le0_all _ 4%:R) => [|e e0]; first exact: ler0n.
  have [H [hH _ _ dH] le] := small e e0; have -> : L = H + (L - H) by rewrite addrC subrK.
  apply: le_trans (defectD _ _) _; have := defect_le (hermB herL hH); rewrite -fro2N opprB.
  move: (fro2 _) (defect _) (defect _) le dH => x u v le uH vx; rewrite -[4%:R]/(1 + (1 + (1 + 1))) -[2%:R]/(1 + 1); clear -le uH vx; rnra2.
have e0 : 0 < 4%:R^-1 :> R by rewrite invr_gt0 ltr0n.
have [H [_ _ fH _]] := small _ e0; rewrite (defect0 herL trL dL) subr0 fH leNgt => /negP; apply.
by rewrite invf_lt1 ?ltr0n // ltr1n.
Qed.
(* one update, from S = 1 + H *)
Let F := mstep (tyl_w N n.+1) Y.
Lemma update1 H : herm H -> fro H <= 2%:R^-1 -> exists D (t : R), [/\ F (1%:M + H) = 1%:M + deriv H - D, \tr D = ofR t, fro D <= t & 0 <= t <= 2%:R * fro2 H].
Proof.
move=> hH hf; pose d i : R := 1 + rq H (y i) / nv (y i) - nv (y i) / maha (1%:M + H) (y i).
have yi i : y i != 0 by exact: samp0.
have d0 i : 0 <= d i by have [] := second_order hH hf (yi i).
have d1 i : d i * nv (y i) <= 2%:R * nv (H *m y i) by have [] := second_order hH hf (yi i).
have cd0 i : 0 <= c i * d i by rewrite mulr_ge0 ?d0 // ltW.
exists (wsum (fun i => c i * d i) Y), (\sum_i c i * d i * nv (y i)); split; last 1 first.
- apply/andP; split; first by apply: sumr_ge0 => i _; rewrite mulr_ge0 ?cd0 // nv_ge0.
  rewrite (fro2_iso hH) mulr_sumr; apply: ler_sum => i _; rewrite -mulrA [X in _ <= X]mulrCA; apply: ler_wpmul2l => //; exact: ltW.
- rewrite -iso /F /mstep /deriv; have -> : wsum (fun i => tyl_w N n.+1 (maha (wsum c Y + H) (samp Y i))) Y = wsum (fun i => c i + (c i * h H i - c i * d i)) Y.
    rewrite iso; apply: eq_wsum => i; rewrite /tyl_w -/a -/(y i) /d /h /c.
    have := maha_gt0 (small_maha (y i) hH hf).1 (yi i); have := y0 i; move: (nv _) (maha _ _) (rq _ _) => v m r v0 m0.
    have v1 : v <> 0 by [apply/eqP; rewrite gt_eqF]; have m1 : m <> 0 by apply/eqP; rewrite gt_eqF.
    by clear -v1 m1; move: a => b; rfield.
  rewrite /wsum -big_split -sumrB; apply: eq_bigr => i _; rewrite /= -scalerDl -scalerBl -rmorphD -rmorphB addrA //.
- exact: tr_wsum1.
- exact: fro_wsum.
Qed.
Lemma FZ (l : R) S : 0 < l -> pd S -> F (ofR l *: S) = ofR l *: F S.
Proof.
move=> l0 pS; rewrite /F /mstep wsum_scale; apply: eq_wsum => i; rewrite /tyl_w maha_scale // invf_div mulrCA mulrA //.
Qed.
Definition sc (S : 'M[K]_n.+1) : R := toR (\tr S) / n.+1%:R.
Definition dv (S : 'M[K]_n.+1) : R := fro (ofR (sc S)^-1 *: S - 1%:M).
Lemma fro1 : fro (1%:M : 'M[K]_n.+1) <= n.+1%:R.
Proof.
rewrite -ler_sqr ?nnegrE ?fro_ge0 ?ler0n // fro_sq; apply: le_trans (_ : n.+1%:R <= _); last by rewrite expr2 ler_pmulr ?ltr0n // ler1n.
rewrite le_eqVlt; apply/orP; left; apply/eqP; apply: (@ofR_inj K); rewrite fro2_tr adj1 mulmx1 mxtrace1 rmorph_nat //.
Qed.
Lemma sc_gt0 (S : 'M[K]_n.+1) : pd S -> 0 < sc S.
Proof. by move=> pS; rewrite divr_gt0 ?ltr0n //; apply: toR_gt0; exact: pd_tr_gt0. Qed.
Lemma rate_arith (q v t u : R) : 0 <= q < 1 -> 0 <= v -> v <= (1 - q) / 16%:R -> 0 <= t <= 2%:R * v ^+ 2 -> 0 <= u <= t ->
  [/\ u < 1, q * v + t + t <= (1 + q) / 2%:R * v * (1 - u), q * v + t + v <= 4%:R * v & (1 - q) / 2%:R * v + (q * v + t) <= v].
Proof.
move=> /andP[q0 q1] v0 hv /andP[t0 ht] /andP[u0 ut].
have e16 : (1 - q) / 16%:R * 16%:R = 1 - q by rewrite divfK ?pnatr_eq0.
have hv' : 16%:R * v <= 1 - q by rewrite -e16 mulrC ler_pmul2r ?ltr0n.
have h2 : (1 + q) / 2%:R * 2%:R = 1 + q by rewrite divfK ?pnatr_eq0.
move: ((1 + q) / 2%:R) h2 => w h2; clear e16 hv.
have vv : 16%:R * (v * v) <= (1 - q) * v by rewrite mulrA; apply: ler_wpmul2r.
rewrite expr2 in ht; have t8 : 8%:R * t <= (1 - q) * v.
  apply: le_trans vv; have -> : 16%:R * (v * v) = 8%:R * (2%:R * (v * v)) by rfield.
  by apply: ler_wpmul2l; rewrite ?ler0n.
have v1 : 16%:R * v <= 1 by apply: le_trans hv' _; rewrite ler_subl_addr ler_addl.
have w1 : w <= 1.
  have : w * 2%:R <= 1 * 2%:R by rewrite h2 mul1r -[2%:R]/(1 + 1) ler_add2l ltW.
  by rewrite ler_pmul2r ?ltr0n.
have w0 : 0 <= w by rewrite -(pmulr_lge0 _ (ltr0n _ 2)) h2 addr_ge0 ?ler01.
have wv : w * v * u <= v * u by apply: ler_wpmul2r => //; rewrite ler_pimull.
have vu : 16%:R * v * u <= 1 * u by apply: ler_wpmul2r.
have h2v : v + q * v <= w * v * 2%:R by rewrite mulrAC h2 mulrDl mul1r.
split.
- by clear -t8 v1 ut q0 v0 hv'; rnra2.
- rewrite mulrBr mulr1; rewrite mulrBl mul1r in t8; rewrite mul1r -mulrA in vu; move: t8 vu wv h2v ut t0 u0; clear.
  by move: (q * v) (w * v) (v * u) (w * v * u) => m4 m3 m2 m1 *; rlra2.
- by clear -t8 q1 v0 q0 t0; rnra2.
- have -> : (1 - q) / 2%:R * v = (v - q * v) / 2%:R by rfield.
  by rewrite mulrBl mul1r in t8; clear -t8 t0; rnra2.
Qed.
Variable g : R.
Hypothesis g01 : 0 < g <= 1.
Hypothesis gapP : forall H, herm H -> \tr H = 0 -> g * fro2 H <= defect H.
Definition rt : R := R_sqrt.sqrt (1 - g).
Lemma rt01 : 0 <= rt < 1.
Proof.
have /andP[g0 g1] := g01; apply/andP; split; first by apply/RleP/R_sqrt.sqrt_pos.
rewrite -[X in _ < X]R_sqrt.sqrt_1; apply/RltP; apply: R_sqrt.sqrt_lt_1_alt; split; apply/RltP || apply/RleP; rewrite ?subr_ge0 //.
by rewrite -R1E ltr_subl_addr ltr_addl.
Qed.
Lemma deriv_rt H : herm H -> \tr H = 0 -> fro (deriv H) <= rt * fro H.
Proof.
move=> hH tH; have /andP[g0 g1] := g01; have /andP[r0 r1] := rt01.
rewrite -ler_sqr ?nnegrE ?fro_ge0 ?mulr_ge0 ?fro_ge0 // exprMn !fro_sq.
have -> : rt ^+ 2 = 1 - g by rewrite -RpowE; apply: R_sqrt.pow2_sqrt; apply/RleP; rewrite subr_ge0.
apply: le_trans (deriv_fro H) _; have := gapP hH tH; have := defectE hH; move: (fro2 H) (energy H) (defect H) => u v w; clear; move=> -> h.
by rewrite mulrBl mul1r -addrA ler_addl subr_ge0.
Qed.
Definition rate : R := (1 + rt) / 2%:R.
Definition radius : R := (1 - rt) / 16%:R.
Lemma dvE S : pd S -> exists H, [/\ herm H, \tr H = 0, dv S = fro H & S = ofR (sc S) *: (1%:M + H)].
Proof.
move=> pS; have s0 := sc_gt0 pS; exists (ofR (sc S)^-1 *: S - 1%:M); split=> //.
- by apply: hermB; [apply: hermZR; exact: pd_herm | exact: herm1].
- rewrite raddfB /= mxtraceZ mxtrace1 -(toR_ofR_gt0 (pd_tr_gt0 pS)) -rmorphM -(rmorph_nat (@Star.ofR K)) -rmorphB /sc invf_div divfK ?subrr ?rmorph0 //.
  by rewrite gt_eqF //; apply: toR_gt0; exact: pd_tr_gt0.
- by rewrite addrC subrK scalerA -rmorphM mulfV ?rmorph1 ?scale1r // gt_eqF.
Qed.
Lemma update S : pd S -> dv S <= radius -> [/\ dv (F S) <= rate * dv S, sc (F S) <= sc S, fro (F S - S) <= 4%:R * sc S * dv S &
  (1 - rt) / 2%:R * (sc S * dv S) <= fro (F S - S)].
Proof.
move=> pS; have [H [hH tH dH eS]] := dvE pS; rewrite dH => rad; have s0 := sc_gt0 pS.
have /andP[r0 r1] := rt01; have f0 := fro_ge0 H.
have rad2 : radius <= 2%:R^-1.
  rewrite /radius ler_pdivr_mulr ?ltr0n //; apply: le_trans (_ : 1 <= _); first by rewrite ler_subl_addr ler_addl.
  have -> : 2%:R^-1 * 16%:R = 8%:R :> R by rfield. by rewrite ler1n.
have half := le_trans rad rad2; have [p1 _] := small_maha (0 : 'cV[K]_n.+1) hH half.
have [D [t [eF tD fD t01]]] := update1 hH half; rewrite -fro_sq in t01.
have eFS : F S = ofR (sc S) *: (1%:M + (deriv H - D)) by rewrite {1}eS FZ // eF addrA.
pose u := t / n.+1%:R.
have nn : 0 < n.+1%:R :> R by rewrite ltr0n.
have u01 : 0 <= u <= t.
  by case/andP: t01 => t0 _; rewrite divr_ge0 ?ler0n // ler_pdivr_mulr // ler_pemulr // ler1n.
have [u1 h1 h2 h3] := rate_arith rt01 f0 rad t01 u01.
have dG := deriv_rt hH tH.
have scF : sc (F S) = sc S * (1 - u).
  rewrite {1}/sc eFS mxtraceZ raddfD /= raddfB /= deriv_tr // tH sub0r tD mxtrace1 -(rmorph_nat (@Star.ofR K)) -rmorphB -rmorphM toRK -mulrA.
  by congr (_ * _); rewrite mulrBl mulfV ?gt_eqF.
have u1' : 0 < 1 - u by rewrite subr_gt0.
split.
- have -> : dv (F S) = (1 - u)^-1 * fro (deriv H - D + ofR u *: 1%:M).
    rewrite /dv scF eFS scalerA -rmorphM invfM mulrAC mulVf ?gt_eqF // mul1r -froZ; last by rewrite invr_ge0 ltW.
    congr fro; have {2}-> : 1%:M = ofR (1 - u)^-1 *: (ofR (1 - u) *: 1%:M) :> 'M[K]_n.+1 by rewrite scalerA -rmorphM mulVf ?gt_eqF // (rmorph1 (@Star.ofR K)) scale1r.
    by rewrite -scalerBr; congr (_ *: _); rewrite rmorphB (rmorph1 (@Star.ofR K)) scalerBl scale1r opprB addrC addrA subrK addrC.
  rewrite mulrC ler_pdivr_mulr //; apply: le_trans h1; apply: le_trans (froD _ _) _; apply: ler_add; last first.
    rewrite froZ; last by case/andP: u01.
    apply: le_trans (ler_wpmul2l _ fro1) _; first by case/andP: u01.
    by rewrite /u divfK ?gt_eqF.
  by apply: le_trans (froD _ _) _; rewrite froN; exact: ler_add.
- by rewrite scF ler_pimulr ?(ltW s0) ?(ltW u1) // ler_subl_addr ler_addl; case/andP: u01.
- have -> : F S - S = ofR (sc S) *: (deriv H - D - H) by rewrite eFS {2}eS -scalerBr opprD addrACA subrr add0r.
  rewrite froZ; last exact: ltW.
  rewrite -[X in _ <= X]mulrA [X in _ <= X]mulrCA ler_pmul2l //; apply: le_trans h2; apply: le_trans (froD _ _) _; rewrite froN ler_add2r.
  by apply: le_trans (froD _ _) _; rewrite froN; exact: ler_add.
- have -> : F S - S = ofR (sc S) *: (deriv H - D - H) by rewrite eFS {2}eS -scalerBr opprD addrACA subrr add0r.
  rewrite froZ; last exact: ltW.
  rewrite mulrCA ler_pmul2l // -(ler_add2r (rt * fro H + t)); apply: le_trans h3 _.
  have {1}-> : H = (deriv H - D) - (deriv H - D - H) by rewrite opprB addrC subrK.
  apply: le_trans (froD _ _) _; rewrite froN addrC ler_add2l.
  by apply: le_trans (froD _ _) _; rewrite froN; exact: ler_add.
Qed.
Lemma rate01 : [/\ 0 < rate, rate < 1 & 0 < radius].
Proof.
have /andP[r0 r1] := rt01; split.
- by rewrite divr_gt0 ?ltr0n // ltr_spaddl ?ltr01.
- by rewrite ltr_pdivr_mulr ?ltr0n // mul1r -[2%:R]/(1 + 1) ltr_add2l.
- by rewrite divr_gt0 ?ltr0n // subr_gt0.
Qed.
Let Fpd S : pd S -> pd (F S). Proof. by move=> pS; apply: tyl_pd => //; exact: (tyler_spanning sol). Qed.
Lemma iter_pd k S : pd S -> pd (iter k F S). Proof. by move=> pS; elim: k => //= k; exact: Fpd. Qed.
Lemma iter_dv k S : pd S -> dv S <= radius -> dv (iter k F S) <= rate ^+ k * dv S /\ sc (iter k F S) <= sc S.
Proof.
move=> pS hd; have [r0 r1 _] := rate01; elim: k => [|k [h1 h2]]; first by rewrite expr0 mul1r.
have hk : dv (iter k F S) <= radius.
  apply: le_trans h1 _; apply: le_trans hd; apply: ler_pimull; first exact: fro_ge0.
  by apply: exprn_ile1; exact: ltW.
have [g1 g2 _ _] := update (iter_pd k pS) hk; split; last exact: le_trans g2 h2.
by apply: le_trans g1 _; rewrite exprS -mulrA ler_pmul2l.
Qed.
Definition tends S (l : R) := forall e : R, 0 < e -> exists k0, forall k, (k0 <= k)%N -> close e (iter k F S) (ofR l *: 1%:M).
Lemma partial_sum S j : pd S -> dv S <= radius -> fro (iter j F S - S) * (1 - rate) <= 4%:R * sc S * dv S * (1 - rate ^+ j).
Proof.
move=> pS hd; have [r0 r1 _] := rate01; elim: j => [|j IH]; first by rewrite subrr fro0 mul0r expr0 subrr mulr0.
have [h1 h2] := iter_dv j pS hd; have hj : dv (iter j F S) <= radius.
  apply: le_trans h1 _; apply: le_trans hd; apply: ler_pimull; first exact: fro_ge0.
  by apply: exprn_ile1; exact: ltW.
have [_ _ g3 _] := update (iter_pd j pS) hj.
have {}g3 : fro (F (iter j F S) - iter j F S) <= 4%:R * sc S * dv S * rate ^+ j.
  apply: le_trans g3 _; apply: mono4 => //; last exact: fro_ge0.
  by apply: ltW; apply: sc_gt0; exact: iter_pd.
have -> : iter j.+1 F S - S = (F (iter j F S) - iter j F S) + (iter j F S - S) by rewrite addrA subrK.
have r1' : 0 < 1 - rate by rewrite subr_gt0.
apply: le_trans (ler_wpmul2r (ltW r1') (froD _ _)) _; rewrite mulrDl; apply: le_trans (ler_add (ler_wpmul2r (ltW r1') g3) IH) _.
rewrite exprS le_eqVlt; apply/orP; left; apply/eqP; move: (4%:R * _ * _) (rate ^+ j) => u v; clear; move: rate => r; rring.
Qed.
Lemma limit_bound S l : pd S -> dv S <= radius -> 0 < l -> tends S l -> fro (S - ofR l *: 1%:M) <= 4%:R * sc S * dv S / (1 - rate).
Proof.
move=> pS hd l0 tS; have [r0 r1 _] := rate01; have r1' : 0 < 1 - rate by rewrite subr_gt0.
have pl : pd (ofR l *: 1%:M : 'M[K]_n.+1) by apply: pdZ; rewrite ?ofR_gt0 //; exact: pd1.
rewrite -subr_le0; apply: (@le0_all _ (fro (ofR l *: 1%:M : 'M[K]_n.+1))); first exact: fro_ge0.
move=> e e0; have [k0 /(_ k0 (leqnn _)) [c1 c2]] := tS e e0; have pk := iter_pd k0 pS.
have := loewner_fro pk pl (ltW e0) c1 c2; have := partial_sum k0 pS hd.
rewrite -ler_pdivl_mulr // -opprB froN => s1 s2; rewrite ler_subl_addr.
have -> : S - ofR l *: 1%:M = (S - iter k0 F S) + (iter k0 F S - ofR l *: 1%:M) by rewrite addrA subrK.
apply: le_trans (froD _ _) _; rewrite addrC mulrC; apply: ler_add => //; apply: le_trans s1 _.
rewrite ler_pmul2r ?invr_gt0 // ler_pimulr //; last by rewrite ler_subl_addr ler_addl exprn_ge0 // ltW.
by apply: mulr_ge0; [apply: mulr_ge0; [exact: ler0n | apply: ltW; exact: sc_gt0] | exact: fro_ge0].
Qed.
Lemma tends_iter S l k : tends S l -> tends (iter k F S) l.
Proof. by move=> hd e /hd [k0 hk]; exists k0 => j jk; rewrite -iterD; apply: hk; apply: leq_trans jk (leq_addr _ _). Qed.
(* the normalisation by the trace *)
Lemma tends_dv S l : pd S -> 0 < l -> tends S l -> exists k0, forall k, (k0 <= k)%N -> dv (iter k F S) <= radius.
Proof.
move=> pS l0 tS; have [_ _ r0] := rate01; have pl : pd (ofR l *: 1%:M : 'M[K]_n.+1) by apply: pdZ; rewrite ?ofR_gt0 //; exact: pd1.
pose L := (ofR l *: 1%:M : 'M[K]_n.+1).
have nE (T : 'M[K]_n.+1) : normalised "trace" T = ofR (sc T)^-1 *: T by rewrite /normalised /get_normalisation_function /= /norm_trace fmorphV.
have scL : sc L = l.
  by rewrite /sc /L mxtraceZ mxtrace1 -(rmorph_nat (@Star.ofR K)) -rmorphM toRK mulfK // pnatr_eq0.
have nL : normalised "trace" L = 1%:M by rewrite nE scL /L scalerA -rmorphM mulVf ?gt_eqF // (rmorph1 (@Star.ofR K)) scale1r.
have n0 : 0 < n.+1%:R :> R by rewrite ltr0n.
have [f f0 hf] := normalised_fro "trace" pl (divr_gt0 r0 n0); have [k0 hk] := tS f f0; exists k0 => k kk.
have := hf _ (iter_pd k pS) (hk _ kk); rewrite nL nE -/(dv _) => /le_trans; apply.
by rewrite mulrAC ler_pdivr_mulr // ler_pmul2l // fro1.
Qed.
Lemma rate_result : exists M : R, 0 <= M /\ forall S l, pd S -> 0 < l -> tends S l -> exists k0 (C : R), [/\ 0 <= C,
  forall k, (k0 <= k)%N -> fro (iter k F S - ofR l *: 1%:M) <= C * rate ^+ k &
  forall k, (k0 <= k)%N -> fro (iter k F S - ofR l *: 1%:M) <= M * fro (iter k.+1 F S - iter k F S)].
Proof.
have [r0 r1 rr] := rate01; have r1' : 0 < 1 - rate by rewrite subr_gt0.
have /andP[t0 t1] := rt01; have t1' : 0 < (1 - rt) / 2%:R by rewrite divr_gt0 ?ltr0n // subr_gt0.
exists (4%:R / (1 - rate) / ((1 - rt) / 2%:R)); split; first by rewrite !divr_ge0 ?ler0n // ?subr_ge0 ltW.
move=> S l pS l0 tS; have [k0 hk0] := tends_dv pS l0 tS; have pk := iter_pd k0 pS.
have cc : 0 <= 4%:R * sc (iter k0 F S) * dv (iter k0 F S) / (1 - rate).
  apply: divr_ge0; last exact: ltW.
  by apply: mulr_ge0; [apply: mulr_ge0; [exact: ler0n | apply: ltW; exact: sc_gt0] | exact: fro_ge0].
exists k0, (4%:R * sc (iter k0 F S) * dv (iter k0 F S) / (1 - rate) / rate ^+ k0); split.
- by apply: divr_ge0 => //; rewrite exprn_ge0 // ltW.
- move=> k kk; have := limit_bound (iter_pd k pS) (hk0 k kk) l0 (@tends_iter S l k tS) => /le_trans; apply.
  have -> : iter k F S = iter (k - k0) F (iter k0 F S) by rewrite -iterD subnK.
  have [d1 d2] := iter_dv (k - k0) pk (hk0 k0 (leqnn _)).
  have -> : rate ^+ k = rate ^+ (k - k0) * rate ^+ k0 by rewrite -exprD subnK.
  rewrite mulrA [X in _ <= X]mulrAC divfK ?expf_neq0 ?gt_eqF // [X in _ <= X]mulrAC ler_pmul2r ?invr_gt0 //; apply: mono4 => //; last exact: fro_ge0.
  by apply: ltW; apply: sc_gt0; exact: iter_pd.
- move=> k kk; have := limit_bound (iter_pd k pS) (hk0 k kk) l0 (@tends_iter S l k tS) => /le_trans; apply.
  have [_ _ _ u4] := update (iter_pd k pS) (hk0 k kk).
  rewrite -(mulrA 4%:R) mulrAC -[X in _ <= X]mulrA ler_pmul2l ?divr_gt0 ?ltr0n // [X in _ <= X]mulrC ler_pdivl_mulr // mulrC.
  exact: u4.
Qed.
End Isotropic.

(* ------------------------------------------------------------------ any samples *)
Section General.
Variable K : starField.
Local Notation ofR := (@ofR K).
Local Notation toR := (@toR K).
Local Notation "A ^H" := (adj A) (at level 8, format "A ^H").
Lemma patch (P : R -> nat -> Prop) (f : nat -> R) k0 (C0 : R) : (forall c c' k, c <= c' -> P c k -> P c' k) -> (forall k, 0 <= f k) ->
  (forall k, exists2 C, 0 <= C & P (C * f k) k) -> 0 <= C0 -> (forall k, (k0 <= k)%N -> P (C0 * f k) k) ->
  exists2 C, 0 <= C & forall k, P (C * f k) k.
Proof.
move=> mono f0 each; elim: k0 C0 => [|k0 IH] C0 c0 h; first by exists C0 => // k; exact: h.
have [C c1 h1] := each k0; apply: (IH (C0 + C)); first exact: addr_ge0.
move=> k; rewrite leq_eqVlt => /orP[/eqP <-|kk].
  by apply: mono h1; apply: ler_wpmul2r => //; rewrite ler_addr.
by apply: mono (h k kk); apply: ler_wpmul2r => //; rewrite ler_addl.
Qed.
Lemma close_of_fro p (S : 'M[K]_p) (l e : R) : herm S -> 0 < l -> 0 <= e -> loewner (ofR l *: 1%:M) (ofR 2%:R *: S) -> fro (S - ofR l *: 1%:M) <= e ->
  close (2%:R * e / l) S (ofR l *: 1%:M).
Proof.
move=> hS l0 e0 lo he; have l1 : l != 0 by rewrite gt_eqF.
have hD : herm (S - ofR l *: 1%:M) by apply: hermB => //; apply: hermZR; exact: herm1.
have h2 : fro2 (S - ofR l *: 1%:M) <= e ^+ 2 by rewrite -fro_sq ler_sqr ?nnegrE ?fro_ge0.
have [q1 q2] := herm_le_fro hD e0 h2; split.
- have : loewner S (ofR (l + e) *: 1%:M) by move: q1; rewrite /loewner opprB addrA -scalerDl -rmorphD [e + l]addrC.
  move/loewner_trans; apply; rewrite scalerA -rmorphM; apply: loewner_le; first exact/pd_psd/pd1.
  by rewrite mulrDl mul1r divfK // ler_add2l ler_pemull // ler1n.
- have a : loewner (ofR l *: 1%:M) (S + ofR e *: 1%:M) by move: q2; rewrite /loewner addrCA addrA.
  apply: loewner_trans a _; rewrite rmorphD (rmorph1 (@Star.ofR K)) scalerDl scale1r /loewner opprD addrACA subrr add0r.
  have el : 0 <= e / l by rewrite divr_ge0 // ltW.
  by have := loewnerZ el lo; rewrite !scalerA -!rmorphM divfK // /loewner mulrC mulrA.
Qed.
Lemma close_congr p (A S T : 'M[K]_p) e : close e S T -> close e (A *m S *m A^H) (A *m T *m A^H).
Proof.
have L (B C : 'M[K]_p) : loewner B (ofR (1 + e) *: C) -> loewner (A *m B *m A^H) (ofR (1 + e) *: (A *m C *m A^H)).
  by move=> /(psd_congr A); rewrite /loewner mulmxBr mulmxBl -scalemxAr -scalemxAl.
by case=> a b; split; exact: L.
Qed.
Lemma fro_mul m n q (A : 'M[K]_(m, n)) (B : 'M[K]_(n, q)) : fro (A *m B) <= fro A * fro B.
Proof.
rewrite -ler_sqr ?nnegrE ?mulr_ge0 ?fro_ge0 // exprMn !fro_sq.
by have := fro2_mul A^H B; rewrite adjK fro2H.
Qed.
Variables (N p : nat) (X : 'M[K]_(N, p.+1)) (Sol : 'M[K]_p.+1).
Hypothesis (cK : compactK K) (X0 : forall i, row i X != 0) (irr : irreducible X) (sol : tyler_solution X Sol).
Let F := mstep (tyl_w N p.+1) X.
Let sp : spanning X := tyler_spanning sol.
Let N0 : (0 < N)%N := spanning_N sp.
Let Fpd S : pd S -> pd (F S). Proof. exact: tyl_pd. Qed.
Let ipd k S : pd S -> pd (iter k F S). Proof. by move=> pS; elim: k => //= k; exact: Fpd. Qed.
(* samples for which the identity is the solution *)
Section Whitened.
Variable A : 'M[K]_p.+1.
Hypothesis (uA : A \in unitmx) (eA : Sol = A *m A^H).
Let B := invmx A.
Let Y := X *m B^T.
Let FY := mstep (tyl_w N p.+1) Y.
Lemma uB : B \in unitmx. Proof. by rewrite unitmx_inv. Qed.
Lemma wY i : samp Y i = B *m samp X i. Proof. exact: samp_mulmx. Qed.
Lemma wY0 i : row i Y != 0.
Proof.
apply/eqP => h; have := X0 i; rewrite -trmx_eq0 -/(samp X i) -[samp X i](mulKVmx uA) -/B -wY /samp h trmx0 mulmx0 eqxx //.
Qed.
Lemma BA (S : 'M[K]_p.+1) : B *m (A *m S *m A^H) *m B^H = S.
Proof. by rewrite !mulmxA mulVmx // mul1mx -mulmxA -adjM mulVmx // adj1 mulmx1. Qed.
Lemma AB (S : 'M[K]_p.+1) : A *m (B *m S *m B^H) *m A^H = S.
Proof. by rewrite !mulmxA mulmxV // mul1mx -mulmxA -adjM mulmxV // adj1 mulmx1. Qed.
Lemma wsol : tyler_solution Y 1%:M.
Proof.
split; first exact: pd1.
have e : B *m Sol *m B^H = 1%:M by rewrite eA; have := BA 1%:M; rewrite mulmx1.
have := mstep_congr (tyl_w N p.+1) X uB (pd_unit sol.1); rewrite -/Y e => h.
rewrite -[LHS]e {1}(sol.2); exact: esym h.
Qed.
Lemma wirr : irreducible Y.
Proof.
move=> P PP h; have [||e|e] := irr (P := A *m P *m B).
- by rewrite !mulmxA -(mulmxA _ B A) mulVmx // mulmx1 -(mulmxA A) PP.
- move=> i; have := h i; rewrite wY => -[e|e]; [left|right]; rewrite -!mulmxA e ?mulmx0 // mulKVmx //.
- by left; rewrite -[P](mulKmx uA) -[A *m P](mulmxK uB) e mul0mx mulmx0.
- by right; rewrite -[P](mulKmx uA) -[A *m P](mulmxK uB) e mul1mx invmxK mulVmx.
Qed.
Lemma witer S k : pd S -> iter k FY (B *m S *m B^H) = B *m iter k F S *m B^H.
Proof.
move=> pS; elim: k => //= k ->; exact: mstep_congr uB (pd_unit (ipd k pS)).
Qed.
End Whitened.
Lemma close_mono (S L : 'M[K]_p.+1) c c' : pd S -> pd L -> c <= c' -> close c S L -> close c' S L.
Proof. by move=> pS pL; apply: close_le; exact: pd_psd. Qed.
Lemma tyl_rate : exists r : R, [/\ 0 < r, r < 1 & forall S, pd S -> exists L (C : R), [/\ tyler_solution X L, 0 <= C,
  forall k, close (C * r ^+ k) (iter k F S) L &
  forall k, close (C * (fro (iter k.+1 F S - iter k F S) / fro (iter k F S))) (iter k F S) L]].
Proof.
have [A [d [uA eA _ _]]] := simdiag sol.1 sol.1; pose B := invmx A; pose Y := X *m B^T.
have Y0 := wY0 uA; have sY := wsol uA eA; have iY := wirr uA.
have [g g01 gapP] := gap Y0 sY iY cK; exists (rate g); have [r0 r1 _] := rate01 g01; split=> // S pS.
have [M [M0 hM]] := rate_result Y0 sY g01 gapP.
have [L sL hL] := tyl_converges cK X0 sol pS; have pL := sL.1.
have [l l0 eL] := tyler_unique N0 X0 irr sol sL.
have pS' : pd (B *m S *m B^H) by apply: pd_congr => //; exact: uB.
have eB : B *m L *m B^H = ofR l *: 1%:M by rewrite eL eA -scalemxAr -scalemxAl; have := BA uA 1%:M; rewrite mulmx1 => ->.
have tS : tends Y (B *m S *m B^H) l.
  move=> e e0; have [k0 hk] := hL e e0; exists k0 => k kk; rewrite witer // -eB; exact: close_congr (hk k kk).
have [k0 [C0 [C00 h1 h2]]] := hM _ l pS' l0 tS; have [k1 hk1] := hL 1 ltr01.
pose k2 := maxn k0 k1.
have cl e k : (k2 <= k)%N -> 0 <= e -> fro (B *m iter k F S *m B^H - ofR l *: 1%:M) <= e -> close (2%:R * e / l) (iter k F S) L.
  rewrite geq_max => /andP[ka kb] e0 he; have [c1 c2] := hk1 k kb.
  have lo : loewner (ofR l *: 1%:M) (ofR 2%:R *: (B *m iter k F S *m B^H)).
    by have [_] := close_congr B (hk1 k kb); rewrite eB.
  have hS : herm (B *m iter k F S *m B^H) by rewrite /herm !adjM adjK (pd_herm (ipd k pS)) mulmxA.
  have := close_congr A (close_of_fro hS l0 e0 lo he); rewrite AB // -eB AB //.
have [Ca a0 ha] : exists2 C : R, 0 <= C & forall k, close (C * rate g ^+ k) (iter k F S) L.
  apply: (@patch (fun c k => close c (iter k F S) L) (fun k => rate g ^+ k) k2 (2%:R * C0 / l)).
  - by move=> c c' k; apply: close_mono => //; exact: ipd.
  - by move=> k; rewrite exprn_ge0 // ltW.
  - move=> k; have [b [b1 x1 x2]] := pd_comparable (ipd k pS) pL; have rk : 0 < rate g ^+ k by rewrite exprn_gt0.
    exists ((b - 1) / rate g ^+ k); first by rewrite divr_ge0 ?subr_ge0 // ltW.
    by rewrite divfK ?gt_eqF // /close addrC subrK.
  - by rewrite divr_ge0 ?mulr_ge0 ?ler0n // ltW.
  - move=> k kk; have -> : 2%:R * C0 / l * rate g ^+ k = 2%:R * (C0 * rate g ^+ k) / l by rewrite mulrAC mulrA.
    apply: cl => //; first by rewrite mulr_ge0 // exprn_ge0 // ltW.
    by rewrite -witer //; apply: h1; move: kk; rewrite geq_max => /andP[].
pose ch k : R := fro (iter k.+1 F S - iter k F S) / fro (iter k F S).
have fk k : 0 < fro (iter k F S) by rewrite lt_neqAle eq_sym (pd_fro (ipd k pS)) fro_ge0.
have [Cb b0 hb] : exists2 C : R, 0 <= C & forall k, close (C * ch k) (iter k F S) L.
  pose D := M * (fro B * fro B) * (2%:R * fro L).
  have D0 : 0 <= D by rewrite !mulr_ge0 ?fro_ge0 ?ler0n.
  apply: (@patch (fun c k => close c (iter k F S) L) ch k2 (2%:R * D / l)).
  - by move=> c c' k; apply: close_mono => //; exact: ipd.
  - by move=> k; rewrite divr_ge0 ?fro_ge0.
  - move=> k; case: (eqVneq (ch k) 0) => [c0|c0].
      exists 0 => //; rewrite mul0r; have : fro (iter k.+1 F S - iter k F S) = 0.
        by move: c0 => /eqP; rewrite mulf_eq0 invr_eq0 (gt_eqF (fk k)) orbF => /eqP.
      move=> /fro_eq0 /eqP; rewrite subr_eq0 => /eqP e.
      have st j : iter (j + k) F S = iter k F S by elim: j => //= j ->; rewrite -[RHS]e.
      have -> : iter k F S = L.
        apply: close_eq => //; first exact: ipd.
        by move=> e' e0; have [j0 hj] := hL e' e0; rewrite -(st j0); apply: hj; rewrite leq_addr.
      by rewrite /close addr0 (rmorph1 (@Star.ofR K)) scale1r; split; exact: loewner_refl.
    have [b [b1 x1 x2]] := pd_comparable (ipd k pS) pL.
    exists ((b - 1) / ch k); first by rewrite divr_ge0 ?subr_ge0 // divr_ge0 ?fro_ge0.
    by rewrite divfK // /close addrC subrK.
  - by apply: divr_ge0; [exact: (mulr_ge0 (ler0n _ 2) D0) | exact: ltW].
  - move=> k kk; have -> : 2%:R * D / l * ch k = 2%:R * (D * ch k) / l by rewrite mulrAC mulrA.
    have ch0 : 0 <= ch k by rewrite divr_ge0 ?fro_ge0.
    apply: cl => //; first by rewrite (mulr_ge0 D0 ch0).
    move: (kk); rewrite geq_max => /andP[ka kb]; rewrite -witer //; apply: le_trans (h2 k ka) _.
    rewrite /D -!mulrA ler_wpmul2l //.
    have -> : iter k.+1 (mstep (tyl_w N p.+1) Y) (B *m S *m B^H) - iter k (mstep (tyl_w N p.+1) Y) (B *m S *m B^H) = B *m (iter k.+1 F S - iter k F S) *m B^H.
      by rewrite !(witer uA) // mulmxBr mulmxBl.
    apply: le_trans (fro_mul _ _) _; have -> : fro B^H = fro B by rewrite /fro fro2H.
    apply: le_trans (ler_wpmul2r (fro_ge0 _) (fro_mul _ _)) _; rewrite mulrAC -!mulrA ler_wpmul2l ?fro_ge0 // ler_wpmul2l ?fro_ge0 //.
    have e : fro (iter k.+1 F S - iter k F S) = ch k * fro (iter k F S) by rewrite /ch divfK // gt_eqF.
    rewrite e mulrA [X in _ <= X]mulrC ler_wpmul2l //.
    have [c1 c2] := hk1 k kb; have := loewner_fro (ipd k pS) pL ler01 c1 c2; rewrite mul1r => le1.
    rewrite -[iter k F S](subrK L); apply: le_trans (froD _ _) _; by rewrite -[2%:R]/(1 + 1) mulrDl mul1r ler_add2r.
exists L, (Ca + Cb); split=> //; first exact: addr_ge0.
  move=> k; apply: close_mono (ha k) => //; first exact: ipd.
  by rewrite ler_wpmul2r ?exprn_ge0 ?(ltW r0) // ler_addl.
move=> k; apply: close_mono (hb k) => //; first exact: ipd.
by rewrite ler_wpmul2r ?divr_ge0 ?fro_ge0 // ler_addr.
Qed.
End General.
