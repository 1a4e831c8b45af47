(* The iterates of the MM algorithm when the samples move a little.  Nothing here models code. *)
From Coq Require Import Reals Lra Classical_Prop Epsilon.
From mathcomp Require Import all_ssreflect all_algebra.
From mathcomp Require Import mxtens.
From Verif Require Import RealsMC RealTac RealTac2 Star FunCalc Spec_covariance Spec_fixedpoint Spec_breakdown Proofs_mest Proofs_cost Proofs_unique Proofs_unique2 Proofs_structured Props_structured
  Compact Proofs_converge Props_cost Props_converge Proofs_exist2 Spec_kron Proofs_kron Proofs_kron1 Proofs_kron2 Proofs_kron3 Proofs_kron4 Proofs_kron5 Proofs_kron6 Proofs_kron7 Proofs_kron8
  Proofs_breakdown Proofs_stable Proofs_stable2 Proofs_tycont Props_tycont Proofs_deriv Proofs_kcont Proofs_kcont2 Proofs_kcont3 Model_structured.
Set Implicit Arguments.
Unset Strict Implicit.
Unset Printing Implicit Defensive.
Local Open Scope ring_scope.
Import GRing.Theory Num.Theory Order.TTheory.

Lemma pinarith (n : nat) (l ld ld' l1 t1 q : R) : (0 < n)%N -> n%:R * l + ld <= n%:R * l1 + ld' -> ld' <= n%:R * l1 + (n%:R * l + ld) -> l1 <= t1 -> `|ld - ld'| <= q -> `|l| <= t1 + q.
Proof.
move=> n0 h1 h2 h3 h4; have n1 : 1 <= n%:R :> R by rewrite ler1n.
have q0 : 0 <= q := le_trans (normr_ge0 _) h4; have h5 : n%:R * l1 <= n%:R * t1 by apply: ler_wpmul2l; rewrite ?ler0n.
have h6 : q <= n%:R * q by apply: ler_pemull.
have np : 0 < n%:R :> R by rewrite ltr0n.
rewrite -(ler_pmul2l np) -[X in X * `|_|](gtr0_norm np) -normrM mulrDr; move: h4; rewrite !ler_norml => /andP[u1 u2].
move: (n%:R * l) (n%:R * l1) (n%:R * t1) (n%:R * q) h1 h2 h5 h6 => x y z w h1 h2 h5 h6; apply/andP; split; rlra2.
Qed.
Section Pin.
Variable K : starField.
Local Notation ofR := (@ofR K).
Local Notation toR := (@toR K).
Lemma det_pin n (A L : 'M[K]_n) (c t t1 q : R) : (0 < n)%N -> pd A -> pd L -> 0 < c -> 0 <= t1 -> 0 < t -> close t1 (ofR c *: A) L ->
  `|ln (toR (\det A)) - ln (toR (\det L))| <= q -> t1 + t1 + q <= ln (1 + t) -> close t A L.
Proof.
move=> n0 pA pL c0 t10 t0 [h1 h2] hd hq; have p1 : 0 < 1 + t1 by rewrite ltr_spaddl ?ltr01.
have p2 : 0 < 1 + t by rewrite addr_gt0 ?ltr01.
have pcA : pd (ofR c *: A) by apply: pdZ; rewrite ?ofR_gt0.
have ld : ln (toR (\det (ofR c *: A))) = n%:R * ln c + ln (toR (\det A)).
  by rewrite detZ -rmorphX toRZ lnM ?exprn_gt0 ?toR_gt0 ?det_pd // lnX.
have d1 := ln_det_le pcA pL p1 h1; have d2 := ln_det_le pL pcA p1 h2; rewrite ld in d1 d2.
have l1 : ln (1 + t1) <= t1 by rewrite (le_trans (ln_le_sub1 _)) // addrAC subrr add0r.
have := pinarith n0 d1 d2 l1 hd; rewrite ler_norml => /andP[c1 c2].
have lnle (x y : R) : 0 < x -> 0 < y -> ln x <= ln y -> x <= y by move=> x0 y0 h; rewrite -(exp_lnR x0) -(exp_lnR y0); exact: exp_leR.
have ci : 0 < c^-1 by rewrite invr_gt0.
have k1 : c^-1 * (1 + t1) <= 1 + t.
  apply: lnle => //; rewrite ?mulr_gt0 // lnM // lnV //; apply: le_trans hq; move: c1 c2 l1; move: (ln c) (ln (1 + t1)) => x y c1 c2 l1; rlra2.
have k2 : (1 + t1) * c <= 1 + t.
  apply: lnle => //; rewrite ?mulr_gt0 // lnM //; apply: le_trans hq; move: c1 c2 l1; move: (ln c) (ln (1 + t1)) => x y c1 c2 l1; rlra2.
split.
  have := loewnerZ (ltW ci) h1; rewrite !scalerA -!rmorphM mulVf ?gt_eqF // rmorph1 scale1r => h; apply: loewner_trans h _.
  by apply: loewner_le => //; exact: pd_psd.
rewrite scalerA -rmorphM in h2; apply: loewner_trans h2 _; apply: loewner_le => //; exact: pd_psd.
Qed.
End Pin.

Lemma quarter4 (x : R) : x = x / 4%:R + x / 4%:R + (x / 4%:R + x / 4%:R). Proof. rfield. Qed.
Lemma endarith (x y u w D l h z z' : R) :
  x <= y -> u <= w -> y - x + (w - u) <= D -> D + (z + z') <= h -> y <= z + l -> l <= z + y -> 0 <= z' ->
  x - l <= h /\ l - x <= h.
Proof. by move=> *; split; rlra2. Qed.

Lemma runarith (v u0 uk wk m e f C D E : R) : 0 < m -> 0 < D -> e = m / 4%:R -> f = m / 4%:R / D -> C + E <= D -> 0 <= C -> 0 <= E ->
  u0 <= v + e + C * f -> uk <= u0 -> wk <= uk + e -> v <= wk -> [/\ wk <= v + m, u0 - uk + E * f <= m & 0 < f].
Proof.
move=> m0 D0 -> ef CE C0 E0 h1 h2 h3 h4; have f0 : 0 < f by rewrite ef divr_gt0 // divr_gt0 ?ltr0n.
have Df : (C + E) * f <= m / 4%:R.
  apply: (@le_trans _ _ (D * f)); first by apply: ler_wpmul2r => //; exact: ltW.
  by rewrite ef mulrC divfK ?gt_eqF.
rewrite mulrDl in Df; have Cf : 0 <= C * f by rewrite mulr_ge0 // ltW.
have Ef : 0 <= E * f by rewrite mulr_ge0 // ltW.
have m4 : m / 4%:R + m / 4%:R + m / 4%:R + m / 4%:R = m by rfield.
have m5 : 0 < m / 4%:R by rewrite divr_gt0 ?ltr0n.
split=> //; [rewrite -[X in _ <= _ + X]m4 | rewrite -[X in _ <= X]m4]; move: h1 h2 h3 h4 Df Cf Ef m5; clear; move: (m / 4%:R) (C * f) (E * f) => x y z h1 h2 h3 h4 h5 h6 h7 h8; rlra2.
Qed.

(* near X, the iterates are near the limit for X after a number of passes that does not depend on the samples *)
Lemma kron_runs (K : starField) (cK : compactK K) N a b (X : 'M[K]_(N, a * b)) A0 B0 L M : (0 < N)%N -> (0 < a)%N -> (0 < b)%N -> nonzero_samples X -> kron_stable X ->
  pd A0 -> pd B0 -> pd L -> pd M -> MA X L M = L -> MB X L M = M ->
  (forall e : R, 0 < e -> exists k0, forall k, (k0 <= k)%N -> close e (iter k (pass X) (A0, B0)).1 L /\ close e (iter k (pass X) (A0, B0)).2 M) ->
  forall t : R, 0 < t -> exists k0, near_data X (fun Y => forall k, (k0 <= k)%N -> [/\ good (iter k (pass Y) (A0, B0)),
    close t (iter k (pass Y) (A0, B0)).1 L & close t (iter k (pass Y) (A0, B0)).2 M]).
Proof.
case: a b X A0 B0 L M => // a [//|b] X A0 B0 L M N0 _ _ nz st pA0 pB0 pL pM fA fB cv t t0.
have a0 : (0 < a.+1)%N by []. have b0 : (0 < b.+1)%N by [].
have mi := fixed_min nz N0 pL pM fA fB; have [pP _ le] := mi; pose v : R := kron_cost X L^T M.
have lt0 : 0 < ln (1 + t) by rewrite -ln1; apply: ln_lt; rewrite ?ltr01 // ltr_addl.
pose h : R := ln (1 + t) / 4%:R; have h0 : 0 < h by rewrite divr_gt0 ?ltr0n.
have [eta eta0 he] := kexcess cK nz N0 a0 b0 st mi h0.
pose m : R := Num.min (Num.min eta h) 1; have m0 : 0 < m by rewrite !lt_minr eta0 h0 ltr01.
pose C : R := 2%:R * ((a.+1 * b.+1)%:R * (N%:R * 4%:R)); pose E : R := 2%:R * (a.+1%:R + b.+1%:R); pose D : R := C + E + 1.
have C0 : 0 <= C by rewrite /C -!natrM ler0n.
have E0 : 0 <= E by rewrite /E -natrD -natrM ler0n.
have D0 : 0 < D by rewrite ltr_spaddr ?ltr01 // addr_ge0.
have CE : C + E <= D by rewrite ler_addl ler01.
pose e : R := m / 4%:R; have e0 : 0 < e by rewrite divr_gt0 ?ltr0n.
pose f : R := m / 4%:R / D; have f0 : 0 < f by rewrite divr_gt0.
have [k0 hk0] := cv f f0; exists k0.
have [l hl] := near_bounded cK a0 b0 st (v + 1); pose Q : R := exp (l + l).
have X0 i : row i X != 0 by have := nz i; rewrite /samp trmx_eq0.
have cn := @cost_near K N (b + a * b.+1) X X0 N0 (Q * Q) e e0.
have [cL cM] : conditioned Q L^T /\ conditioned Q M.
  apply: (bounded_conditioned (c := v + 1) a0 b0 nz _ pP pM); first exact: (near_at hl).
  by rewrite ler_addl ler01.
have [sc sr] := stable_spans cK nz N0 a0 b0 st.
have [[_ _ cA] [_ _ cB]] := near_pass nz sc sr k0 pA0 pB0.
apply: near_imp (near_and (near_and (near_nz nz) (near_stable cK a0 b0 st)) (near_and (near_and hl cn) (near_and (cA f f0) (cB f f0)))).
move=> Y [[nY sY] [[hY cY] [hA hB]]] k kk.
have [scY srY] := stable_spans cK nY N0 a0 b0 sY.
pose s k := iter k (pass Y) (A0, B0).
have gY k' : good (s k') by elim: k' => [|k' IH]; [split | exact: (pass_good nY scY srY)].
have [pA pB] := gY k0; have [pAk pBk] := gY k.
have f1 : 0 < 1 + f by rewrite addr_gt0 ?ltr01.
have lnf : ln (1 + f) <= f by rewrite (le_trans (ln_le_sub1 _)) // addrAC subrr add0r.
have [x1 x2] := hk0 k0 (leqnn _).
have /clP [a1 a2] : cl f 2 (s k0).1 L := cl_trans (ltW f0) (cl1 hA) (cl1 x1).
have /clP [b1 b2] : cl f 2 (s k0).2 M := cl_trans (ltW f0) (cl1 hB) (cl1 x2).
have g0 : 0 < (1 + f) ^+ 2 by rewrite exprn_gt0.
have lng : ln ((1 + f) ^+ 2) <= 2%:R * f by rewrite lnX //; apply: ler_wpmul2l; rewrite ?ler0n.
have u1 : kc Y (s k0) <= kron_cost Y L^T M + C * f.
  have pc n (A : 'M[K]_n) : pd A -> psd (@ofR K ((1 + f) ^+ 2) *: A) by move=> pA'; apply: psdZ; [rewrite ofRge0 ltW | exact: pd_psd].
  have w1 := tens_loewner (pd_psd (tr_pd pA)) (pc _ _ pM) (loewner_tr a1) b1; have w2 := tens_loewner (pd_psd pP) (pc _ _ pB) (loewner_tr a2) b2.
  rewrite !linearZ /= !tens_scl -!rmorphM in w1 w2; have gg : 0 < (1 + f) ^+ 2 * (1 + f) ^+ 2 by rewrite mulr_gt0.
  apply: le_trans (cost_loewner nY (tens_pd (tr_pd pA) pB) (tens_pd pP pM) gg w1 w2) _; rewrite -[tcost Y (L^T *t M)]/(kron_cost Y L^T M) ler_add2l /C.
  have lg : ln ((1 + f) ^+ 2 * (1 + f) ^+ 2) <= 4%:R * f.
    by rewrite lnM //; apply: le_trans (ler_add lng lng) _; rewrite -mulrDl -natrD.
  move: (ln _) lg => z lg; rewrite -!mulrA; do 3 (apply: ler_wpmul2l; first exact: ler0n); exact: lg.
have [y1 _] := cY _ (tens_pd pP pM) (tens_conditioned pP pM cL cM).
have {}y1 : kron_cost Y L^T M <= v + e by exact: y1.
have {}u1 : kc Y (s k0) <= v + e + C * f by apply: le_trans u1 _; rewrite ler_add2r.
have [u2 u3 u4 u5] : [/\ kc Y (s k) <= kc Y (s k0), ldA (s k) <= ldA (s k0), ldB (s k) <= ldB (s k0) &
    ldA (s k0) - ldA (s k) + (ldB (s k0) - ldB (s k)) <= kc Y (s k0) - kc Y (s k)].
  rewrite -(subnK kk); move: (k - k0)%N => n; elim: n => [|n [h1 h2 h3 h4]]; first by rewrite add0n !subrr addr0.
  have [j1 j2 j3 j4 _] := pass_drop nY scY srY N0 a0 b0 (gY (n + k0)%N) ltr01.
  rewrite addSn; split; [exact: le_trans j1 h1|exact: le_trans j2 h2|exact: le_trans j3 h3|].
  move: h4 j4 => /=; rewrite -/(s (n + k0)%N); move: (kc _ _) (kc _ _) (kc _ _) (ldA _) (ldA _) (ldA _) (ldB _) (ldB _) (ldB _) => x y z u v' w x1' x2' x3 e1 e2; rlra2.
have [i1 i2 i3] : [/\ m <= eta, m <= h & m <= 1] by split; rewrite /m !le_minl lexx ?orbT.
have Cf : C * f <= e.
  apply: (@le_trans _ _ (D * f)); last by rewrite /f mulrC divfK ?gt_eqF.
  by apply: ler_wpmul2r; [exact: ltW | apply: le_trans CE; rewrite ler_addl].
have uk : kc Y (s k) <= v + 1.
  apply: le_trans u2 _; apply: le_trans u1 _; rewrite -addrA ler_add2l; apply: le_trans i3; apply: (@le_trans _ _ (e + e)); first by rewrite ler_add2l.
  rewrite [X in _ <= X]quarter4 -/e.
  by rewrite ler_addl addr_ge0 // ltW.
have [cAk cBk] : conditioned Q (s k).1^T /\ conditioned Q (s k).2.
  exact: (bounded_conditioned (c := v + 1) a0 b0 nY hY (tr_pd pAk) pBk uk).
have [_ y2] := cY _ (tens_pd (tr_pd pAk) pBk) (tens_conditioned (tr_pd pAk) pBk cAk cBk).
have {}y2 : kc X (s k) <= kc Y (s k) + e by exact: y2.
have [z1 z2 _] := runarith m0 D0 erefl erefl CE C0 E0 u1 u2 y2 (le _ _ (tr_pd pAk) pBk).
have [[c c0 q1] [d d0 q2]] := he _ _ (tr_pd pAk) pBk (le_trans z1 (ler_add (lexx v) i1)).
have lth : h + h + h <= ln (1 + t).
  rewrite [X in _ <= X]quarter4 -/h.
  by rewrite ler_add2l ler_addl ltW.
have ldn n (S T : 'M[K]_n) : pd S -> pd T -> loewner S (@ofR K ((1 + f) ^+ 2) *: T) -> ln (@toR K (\det S)) <= n%:R * (2%:R * f) + ln (@toR K (\det T)).
  move=> pS pT hST; apply: le_trans (ln_det_le pS pT g0 hST) _; rewrite ler_add2r; apply: ler_wpmul2l => //; exact: ler0n.
have nn n : (0 : R) <= n%:R * (2%:R * f) by apply: mulr_ge0; rewrite ?ler0n // mulr_ge0 ?ler0n //; exact: ltW.
have EE : E * f = a.+1%:R * (2%:R * f) + b.+1%:R * (2%:R * f) by rewrite /E -mulrDl mulrA [2%:R * _]mulrC.
have z3 := le_trans z2 i2; rewrite EE in z3.
have pin (x z : R) : `|x - z| <= h <-> x - z <= h /\ z - x <= h.
  by rewrite ler_norml ler_oppl opprB; split=> [/andP[] | [? ?]]; [split | apply/andP].
split; first exact: gY.
- have q1' := close_tr q1; rewrite linearZ /= !trmxK in q1'.
  apply: (det_pin (q := h) a0 pAk pL c0 (ltW h0) t0 q1' _ lth); apply/pin.
  have {}u3 : ln (@toR K (\det (s k).1)) <= ln (@toR K (\det (s k0).1)) := u3.
  exact: (endarith u3 u4 u5 z3 (ldn _ _ _ pA pL a1) (ldn _ _ _ pL pA a2) (nn b.+1)).
have q2' := q2.
apply: (det_pin (q := h) b0 pBk pM d0 (ltW h0) t0 q2' _ lth); apply/pin.
have {}u4 : ln (@toR K (\det (s k).2)) <= ln (@toR K (\det (s k0).2)) := u4.
rewrite addrC in u5; rewrite [_ + b.+1%:R * _]addrC in z3; exact: (endarith u4 u3 u5 z3 (ldn _ _ _ pB pM b1) (ldn _ _ _ pM pB b2) (nn a.+1)).
Qed.
