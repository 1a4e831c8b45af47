(* The update of the Huber functions near the solution of the equation they solve: it contracts when the samples below the
   threshold span the space, and may oscillate otherwise. *)
From Coq Require Import Reals Lra Epsilon Classical_Prop.
From mathcomp Require Import all_ssreflect all_algebra.
From Verif Require Import RealsMC RealTac RealTac2 Star FunCalc Model_covariance Spec_covariance Spec_fixedpoint Proofs_mest
  Proofs_cost Props_cost Props_robust Props_robust2 Proofs_unique Proofs_unique2 Props_unique Compact Proofs_converge Props_converge Proofs_exist Proofs_exist2 Proofs_major Proofs_hubiter.
Set Implicit Arguments.
Unset Strict Implicit.
Unset Printing Implicit Defensive.
Local Open Scope ring_scope.
Import GRing.Theory Num.Theory Order.TTheory.

Lemma wa_above (n l k b x y : R) : 0 <= n -> x <= (1 + k * (l - 1)) * b -> y = b -> n * x + (l - 1) * (1 - k) * (n * b) <= l * (n * y).
Proof.
move=> n0 h ->; have := ler_wpmul2l n0 h; have -> : n * ((1 + k * (l - 1)) * b) = l * (n * b) - (l - 1) * (1 - k) * (n * b) by rring.
by rewrite ler_subr_addr.
Qed.
Lemma wa_below (n l b x : R) : 0 <= n -> 0 <= l -> b <= x -> n * b + (l - 1) * (n * b) <= l * (n * x).
Proof.
move=> n0 l0 h; have -> : n * b + (l - 1) * (n * b) = l * (n * b) by rring.
by rewrite ler_wpmul2l // ler_wpmul2l.
Qed.
Lemma rate_below (l e r : R) : 1 <= l -> 0 < e -> 1 - e <= r -> e <= 1 -> l <= (1 + r * (l - 1)) * (1 + (l - 1) * e).
Proof.
move=> l1 e0 er e1; have t0 : 0 <= l - 1 by rewrite subr_ge0.
apply: (@le_trans _ _ ((1 + (1 - e) * (l - 1)) * (1 + (l - 1) * e))).
  have -> : (1 + (1 - e) * (l - 1)) * (1 + (l - 1) * e) = l + (1 - e) * e * ((l - 1) * (l - 1)) by rring.
  by rewrite ler_addl mulr_ge0 ?mulr_ge0 ?subr_ge0 // ltW.
apply: ler_wpmul2r; first by rewrite addr_ge0 ?ler01 // mulr_ge0 // ltW.
by rewrite ler_add2l ler_wpmul2r.
Qed.
Section Core.
Variable K : starField.
Local Notation ofR := (@ofR K).
Local Notation toR := (@toR K).
Local Notation "A ^H" := (adj A) (at level 8, format "A ^H").
Variables (lb b : R).
Hypotheses (l0 : 0 < lb) (b0 : 0 < b).
Local Notation u := (code_weight lb b).
Variables (N p : nat) (X : 'M[K]_(N, p)).
Hypothesis N0 : (0 < N)%N.
Local Notation F := (mstep (hub_w lb b N) X).
Lemma wsumD (a c : 'I_N -> R) t : wsum (fun i => a i + t * c i) X = wsum a X + ofR t *: wsum c X.
Proof. by rewrite /wsum scaler_sumr -big_split; apply: eq_bigr => i _; rewrite /= rmorphD scalerDl scalerA -rmorphM. Qed.
Variable Sol : 'M[K]_p.
Hypotheses (pSol : pd Sol) (fSol : F Sol = Sol).
(* the samples below the threshold *)
Definition below i := maha Sol (samp X i) < lb.
Hypothesis spc : forall y : 'cV[K]_p, (forall i, below i -> (samp X i)^H *m y = 0) -> y = 0.
Let cw (i : 'I_N) : R := if below i then N%:R^-1 * b else 0.
Let C := wsum cw X.
Let n0 : 0 < N%:R^-1 :> R. Proof. by rewrite invr_gt0 ltr0n. Qed.
Lemma core_spans : spanning X. Proof. by move=> y h; apply: spc => i _; exact: h. Qed.
Lemma core_pd : pd C.
Proof.
have cw0 i : 0 <= cw i by rewrite /cw; case: ifP => _ //; rewrite mulr_ge0 // ltW.
have pS : psd C by exact: wsum_psd.
split; first exact: psd_herm pS.
move=> y y0; rewrite lt_neqAle pS.2 andbT eq_sym; apply: contra_neq y0.
rewrite qf_sum => h; apply: spc => i bi; apply/matrixP => s t; rewrite (ord1 s) (ord1 t) [RHS]mxE.
have nn j : true -> 0 <= qf (ofR (cw j) *: outer (samp X j)) y.
  by move=> _; rewrite qfZ; apply: mulr_ge0; [rewrite ofRge0 | case: (psd_outer' (samp X j)) => _; apply].
have := psumr_eq0P nn h (erefl : xpredT i).
move/eqP; rewrite qfZ mulf_eq0 fmorph_eq0 gt_eqF /=; last by rewrite /cw bi mulr_gt0.
by rewrite qf_outer mul_cj_eq0 => /eqP.
Qed.
Lemma core_margin : exists k : R, [/\ 0 <= k, k < 1 & forall i, below i -> maha Sol (samp X i) <= k * lb].
Proof.
have [||c c0 hc] := @fin_min [finType of 'I_N] (fun i c => c <= 1 /\ (below i -> maha Sol (samp X i) <= (1 - c) * lb)).
- move=> i; case: (boolP (below i)) => bi; last by exists 1; rewrite ?ltr01.
  exists (1 - maha Sol (samp X i) / lb); first by rewrite subr_gt0 ltr_pdivr_mulr // mul1r.
  split; first by rewrite ler_subl_addr ler_addl divr_ge0 ?maha_ge0 // ltW.
  by rewrite opprB addrCA subrr addr0 divfK ?gt_eqF.
- move=> i c c' c'0 cc [c1 h]; split; first exact: le_trans c1.
  by move=> bi; apply: le_trans (h bi) _; rewrite ler_pmul2r // ler_add2l ler_opp2.
have [c1 _] := hc (Ordinal N0); exists (1 - c); split; rewrite ?subr_ge0 ?ltr_subl_addr ?ltr_addl //.
by move=> i; have [] := hc i.
Qed.
Variables k e : R.
Hypotheses (k0 : 0 <= k) (k1 : k < 1) (hk : forall i, below i -> maha Sol (samp X i) <= k * lb).
Hypotheses (e0 : 0 < e) (e1 : e <= 1) (he : loewner (ofR e *: Sol) C).
Let r := 1 - (1 - k) * e.
Lemma hrate : [/\ 0 <= r, r < 1 & 1 - e <= r].
Proof.
have d0 : 0 < 1 - k by rewrite subr_gt0. have d1 : 1 - k <= 1 by rewrite ler_subl_addr ler_addl.
rewrite /r; split; [by rewrite subr_ge0 mulr_ile1 // ltW | by rewrite ltr_subl_addr ltr_addl mulr_gt0 |].
by rewrite ler_add2l ler_opp2 ler_pimull // ltW.
Qed.
Lemma core_u i : below i -> u (maha Sol (samp X i)) = b.
Proof. by move=> bi; rewrite /code_weight ltW // mulr1. Qed.
Lemma hub_above T l : pd T -> 1 <= l -> loewner Sol (ofR l *: T) -> loewner (F T) (ofR (1 + r * (l - 1)) *: Sol).
Proof.
move=> pT l1 le; have t0 : 0 <= l - 1 by rewrite subr_ge0.
have c0 : 0 <= (l - 1) * (1 - k) by rewrite mulr_ge0 // subr_ge0 ltW.
have h1 : loewner (F T + ofR ((l - 1) * (1 - k)) *: C) (ofR l *: Sol).
  rewrite -fSol /mstep -wsumD; apply: wsum_loewner => i.
  have q0 := maha_ge0 (samp X i) pSol; have h := maha_loewner (samp X i) pSol pT le.
  have um := u_mono l0 b0 h; rewrite /hub_w /cw; case: ifP => bi.
    rewrite core_u //; apply: wa_above => //; first exact: ltW.
    by apply: le_trans um _; rewrite -{2}(core_u bi); apply: u_core => //; exact: hk.
  by rewrite mulr0 addr0 [l * _]mulrCA ler_pmul2l //; apply: le_trans um _; exact: u_scale.
have h2 : loewner (ofR ((l - 1) * (1 - k) * e) *: Sol) (ofR ((l - 1) * (1 - k)) *: C).
  by rewrite rmorphM -scalerA; exact: loewnerZ.
have -> : 1 + r * (l - 1) = l - (l - 1) * (1 - k) * e by rewrite /r; rring.
have := psdD h1 h2; rewrite /loewner rmorphB scalerBl.
by move: (F T) (_ *: C) (_ *: Sol) (_ *: Sol) => a c d f; rewrite opprD addrA addrA subrK [X in _ -> psd X]addrAC.
Qed.
Lemma hub_below T l : pd T -> 1 <= l -> loewner T (ofR l *: Sol) -> loewner Sol (ofR (1 + r * (l - 1)) *: F T).
Proof.
move=> pT l1 le; have t0 : 0 <= l - 1 by rewrite subr_ge0. have lp := lt_le_trans ltr01 l1.
have pF := hub_pd l0 b0 N0 core_spans pT.
have h1 : loewner (Sol + ofR (l - 1) *: C) (ofR l *: F T).
  rewrite -{1}fSol /mstep -wsumD; apply: wsum_loewner => i.
  have q0 := maha_ge0 (samp X i) pT; have h := maha_loewner (samp X i) pT pSol le.
  have um := u_mono l0 b0 h; rewrite /hub_w /cw; case: ifP => bi.
    rewrite core_u //; apply: wa_below; [exact: ltW | exact: ltW | exact: u_ge].
  by rewrite mulr0 addr0 [l * _]mulrCA ler_pmul2l //; apply: le_trans um _; exact: u_scale.
have h2 : loewner (ofR ((l - 1) * e) *: Sol) (ofR (l - 1) *: C) by rewrite rmorphM -scalerA; exact: loewnerZ.
have h3 : loewner (ofR (1 + (l - 1) * e) *: Sol) (ofR l *: F T).
  have := psdD h1 h2; rewrite /loewner [ofR (1 + _)]rmorphD rmorph1 scalerDl scale1r.
  by move: (F T) (_ *: C) (_ *: Sol) (_ *: _) => a c d f; rewrite opprD addrA addrA subrK opprD addrA.
have z0 : 0 < 1 + (l - 1) * e by rewrite ltr_spaddl ?ltr01 // mulr_ge0 // ltW.
have := loewnerZ (ltW (etrans (invr_gt0 _) z0)) h3; rewrite !scalerA -!rmorphM mulVf ?gt_eqF // rmorph1 scale1r => h4.
apply: loewner_trans h4 _; apply: loewner_le; first exact: pd_psd.
have [_ _ er] := hrate; rewrite mulrC ler_pdivr_mulr //; exact: rate_below.
Qed.
Lemma hub_iterates T l j : pd T -> 1 <= l -> loewner T (ofR l *: Sol) -> loewner Sol (ofR l *: T) ->
  [/\ pd (iter j F T), loewner (iter j F T) (ofR (1 + r ^+ j * (l - 1)) *: Sol) & loewner Sol (ofR (1 + r ^+ j * (l - 1)) *: iter j F T)].
Proof.
move=> pT l1 h1 h2; have [r0 r1 _] := hrate; elim: j => [|j [pj u1 u2]].
  by rewrite expr0 mul1r addrC subrK.
have l1' : 1 <= 1 + r ^+ j * (l - 1) by rewrite ler_addl mulr_ge0 ?exprn_ge0 // subr_ge0.
have := hub_above pj l1' u2; have := hub_below pj l1' u1.
have -> : 1 + r * (1 + r ^+ j * (l - 1) - 1) = 1 + r ^+ j.+1 * (l - 1) by rewrite [1 + r ^+ j * _ - 1]addrC addKr exprS mulrA.
by move=> d1 d2; split=> //; exact: (hub_pd l0 b0 N0 core_spans).
Qed.
End Core.
Section Rate.
Variable K : starField.
Local Notation "A ^H" := (adj A) (at level 8, format "A ^H").
Lemma hub_converges lb b N p (X : 'M[K]_(N, p)) Sol : 0 < lb -> 0 < b -> (0 < N)%N -> pd Sol -> mstep (hub_w lb b N) X Sol = Sol ->
  (forall y : 'cV[K]_p, (forall i, maha Sol (samp X i) < lb -> (samp X i)^H *m y = 0) -> y = 0) ->
  exists r : R, [/\ 0 <= r, r < 1 & forall T, pd T -> exists2 M : R, 0 <= M & forall j,
    close (r ^+ j * M) (iter j (mstep (hub_w lb b N) X) T) Sol].
Proof.
move=> l0 b0 N0 pS fS spc; have [k [k0 k1 hk]] := core_margin l0 X N0 pS.
have pC := core_pd b0 N0 spc; have [l [l1 h1 _]] := pd_comparable pS pC; have lp := lt_le_trans ltr01 l1.
have e0 : 0 < l^-1 by rewrite invr_gt0. have e1 : l^-1 <= 1 by rewrite invf_le1.
have he := loewnerZ (ltW e0) h1; rewrite scalerA -rmorphM mulVf ?gt_eqF // rmorph1 scale1r in he.
have [r0 r1 _] := hrate k0 k1 e0 e1; exists (1 - (1 - k) * l^-1); split=> // T pT.
have [m [m1 g1 g2]] := pd_comparable pT pS; exists (m - 1); first by rewrite subr_ge0.
by move=> j; have [_ a c] := hub_iterates l0 b0 N0 pS fS spc k0 k1 hk e0 e1 he j pT m1 g1 g2.
Qed.
End Rate.
(* the distance of a sample to a weighted sum that contains it *)
Section Own.
Variable K : starField.
Local Notation ofR := (@ofR K).
Local Notation toR := (@toR K).
Local Notation "A ^H" := (adj A) (at level 8, format "A ^H").
Lemma maha_own N p (a : 'I_N -> R) (X : 'M[K]_(N, p)) i : (forall j, 0 <= a j) -> pd (wsum a X) -> a i * maha (wsum a X) (samp X i) <= 1.
Proof.
move=> a0 pS; set S := wsum a X; set x := samp X i; pose y := invmx S *m x; have uS := pd_unit pS.
have [-> | x0] := eqVneq x 0; first by rewrite /maha /qf /sesq mulmx0 mxE raddf0 mulr0 ler01.
have q0 := maha_gt0 pS x0.
have qS : qf S y = ofR (maha S x).
  rewrite /y /qf /sesq adjM [(invmx S)^H](pd_herm (pd_inv pS)) -!mulmxA mulKVmx // mulmxA /maha; apply/esym/ofR_toR_ge0.
  by have [_ h] := pd_psd (pd_inv pS); have := h x; rewrite /qf /sesq.
have ix : (x^H *m y) 0 0 = ofR (maha S x).
  by rewrite -qS /qf /sesq /y adjM [(invmx S)^H](pd_herm (pd_inv pS)) -!mulmxA mulKVmx.
have : ofR (a i) * (ofR (maha S x) * ofR (maha S x)) <= qf S y.
  rewrite [X in _ <= X]qf_sum (bigD1 i) //= qfZ qf_outer -/x ix cj_ofR ler_addl; apply: sumr_ge0 => j _.
  by rewrite qfZ; apply: mulr_ge0; [rewrite ofRge0 | case: (psd_outer' (samp X j)) => _; apply].
by rewrite qS -!rmorphM ofR_le mulrA ger_pmull.
Qed.
End Own.
