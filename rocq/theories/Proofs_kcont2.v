(* Minimisers of Tyler's cost over Kronecker products when the samples move a little.  Nothing here models code. *)
From Coq Require Import Reals Lra Classical_Prop Epsilon.
From mathcomp Require Import all_ssreflect all_algebra.
From mathcomp Require Import mxtens.
From Verif Require Import RealsMC RealTac RealTac2 Star FunCalc Spec_covariance Spec_fixedpoint Spec_breakdown Proofs_mest Proofs_cost Proofs_unique Proofs_unique2 Proofs_structured Props_structured
  Compact Proofs_converge Props_cost Props_converge Proofs_exist2 Spec_kron Proofs_kron Proofs_kron1 Proofs_kron2 Proofs_kron3 Proofs_kron4 Proofs_kron5 Proofs_kron6 Proofs_kron7 Proofs_kron8
  Proofs_breakdown Proofs_stable Proofs_stable2 Proofs_tycont Props_tycont Proofs_deriv Proofs_kcont.
Set Implicit Arguments.
Unset Strict Implicit.
Unset Printing Implicit Defensive.
Local Open Scope ring_scope.
Import GRing.Theory Num.Theory Order.TTheory.

Lemma kcarith (n x y u v l : R) m : 0 <= n -> x <= m%:R * l + y -> u <= n * l + v -> n * x + m%:R * u <= n * y + m%:R * v + 2%:R * (n * (m%:R * l)).
Proof.
move=> n0; have := ler0n [numDomainType of R] m; move: m%:R => M m0 h1 h2.
have {h1} h1 := ler_wpmul2l n0 h1; have {h2} h2 := ler_wpmul2l m0 h2; rewrite mulrDr in h1; rewrite mulrDr [M * (n * l)]mulrCA in h2.
move: h1 h2; move: (n * x) (n * y) (M * u) (M * v) (n * (M * l)) => a b c d e h1 h2; rlra2.
Qed.
Section Tens.
Variable K : starField.
Local Notation ofR := (@ofR K).
Local Notation toR := (@toR K).
Local Notation "A ^H" := (adj A) (at level 8, format "A ^H").
Lemma tens_psd m n (A : 'M[K]_m) (B : 'M[K]_n) : psd A -> psd B -> psd (A *t B).
Proof.
move=> pA pB; have [d [U dec]] := spectral (psd_herm pA); have [e [W dec']] := spectral (psd_herm pB); have [_ eA] := dec; have [_ eB] := dec'.
rewrite {1}eA {1}eB kT; apply/psd_congr/psd_dia => i; case: (mxtens_indexP i) => j k; rewrite tvE; apply: mulr_ge0.
  by apply: (eigval_ge0 pA); apply: eigdec_eigval dec.
by apply: (eigval_ge0 pB); apply: eigdec_eigval dec'.
Qed.
Lemma tens_loewner m n (A A' : 'M[K]_m) (B B' : 'M[K]_n) : psd A -> psd B' -> loewner A A' -> loewner B B' -> loewner (A *t B) (A' *t B').
Proof.
move=> pA pB h1 h2; rewrite /loewner; have -> : A' *t B' - A *t B = (A' - A) *t B' + A *t (B' - B).
  apply/matrixP => i j; case: (mxtens_indexP i) => i1 i2; case: (mxtens_indexP j) => j1 j2; rewrite !mxE !mxtens_indexK /= mulrBl mulrBr.
  by rewrite addrA subrK.
by apply: psdD; apply: tens_psd.
Qed.
Lemma tens_conditioned m n (A : 'M[K]_m) (B : 'M[K]_n) M : pd A -> pd B -> conditioned M A -> conditioned M B -> conditioned (M * M) (A *t B).
Proof.
move=> pA pB [c c0 [lo up]] [d d0 [lo' up']]; exists (c * d); first exact: mulr_gt0.
have p1 q (x : R) : 0 <= x -> psd (ofR x *: (1%:M : 'M[K]_q)) by move=> x0; apply: psdZ; [rewrite ofRge0 | exact/pd_psd/pd1].
have E (x y : R) : ofR (x * y) *: (1%:M : 'M[K]_(m * n)) = (ofR x *: 1%:M) *t (ofR y *: 1%:M) by rewrite tens_scl -rmorphM tens_one.
split.
  by rewrite E; apply: tens_loewner => //; [exact/p1/ltW | exact: pd_psd].
have -> : M * M * (c * d) = (M * c) * (M * d) by rewrite mulrACA.
rewrite E; apply: tens_loewner => //; first exact: pd_psd.
by have := psdD up' (pd_psd pB); rewrite subrK.
Qed.
Lemma cost_loewner N p (X : 'M[K]_(N, p)) S T (c : R) : (forall i, samp X i != 0) -> pd S -> pd T -> 0 < c -> loewner S (ofR c *: T) -> loewner T (ofR c *: S) ->
  tcost X S <= tcost X T + 2%:R * (p%:R * (N%:R * ln c)).
Proof.
move=> nz pS pT c0 h1 h2; rewrite /tcost; apply: kcarith; first exact: ler0n.
  rewrite mulr_natl -[N in _ *+ N]card_ord -sumr_const -big_split; apply: ler_sum => i _.
  have mS := maha_gt0 pS (nz i); have mT := maha_gt0 pT (nz i); rewrite /= -lnM //; apply: ln_le => //.
  exact: maha_loewner h2.
exact: ln_det_le h1.
Qed.
Lemma close_tr n (A B : 'M[K]_n) e : close e A B -> close e A^T B^T.
Proof. by move=> [h1 h2]; split; [have := loewner_tr h1 | have := loewner_tr h2]; rewrite linearZ. Qed.
Lemma det_norm n (P : 'M[K]_n) : (0 < n)%N -> pd P -> exists2 c : R, 0 < c & ln (toR (\det (ofR c *: P))) = 0.
Proof.
move=> n0 pP; have n1 : n%:R != 0 :> R by rewrite pnatr_eq0 -lt0n.
exists (exp (- (ln (toR (\det P)) / n%:R))); first exact: expR_gt0.
rewrite detZ -rmorphX toRZ lnM ?exprn_gt0 ?expR_gt0 ?toR_gt0 ?det_pd // lnX ?expR_gt0 // ln_expR mulrN mulrC divfK //; exact: addNr.
Qed.
End Tens.

Section Near.
Variable K : starField.
Local Notation ofR := (@ofR K).
Local Notation toR := (@toR K).
Local Notation "A ^H" := (adj A) (at level 8, format "A ^H").
Hypothesis cK : compactK K.
Variables (N a b : nat) (X : 'M[K]_(N, a * b)).
Hypotheses (nz : nonzero_samples X) (N0 : (0 < N)%N) (a0 : (0 < a)%N) (b0 : (0 < b)%N).
Hypothesis st : kron_stable X.
Variables (P : 'M[K]_a) (B : 'M[K]_b).
Hypothesis mi : kron_minimiser X P B.
Definition close_to (t : R) (P' : 'M[K]_a) (B' : 'M[K]_b) :=
  (exists2 c : R, 0 < c & close t (ofR c *: P') P) /\ (exists2 c : R, 0 < c & close t (ofR c *: B') B).
(* pairs of almost minimal cost are near the minimiser *)
Lemma kexcess (t : R) : 0 < t -> exists2 eta : R, 0 < eta & forall P' B', pd P' -> pd B' -> kron_cost X P' B' <= kron_cost X P B + eta -> close_to t P' B'.
Proof.
move=> t0; have [pP pB le] := mi; apply: NNPP => no.
have ex k : exists s : 'M[K]_a * 'M[K]_b, [/\ pd s.1, pd s.2, kron_cost X s.1 s.2 <= kron_cost X P B + eps k,
    ln (toR (\det s.1)) = 0 /\ ln (toR (\det s.2)) = 0 & ~ close_to t s.1 s.2].
  apply: NNPP => nk; apply: no; exists (eps k); first exact: eps_gt0.
  move=> P' B' pP' pB' hc; apply: NNPP => nc; apply: nk; have [c c0 ec] := det_norm a0 pP'; have [d d0 ed] := det_norm b0 pB'.
  exists (ofR c *: P', ofR d *: B'); split=> /=.
  - by apply: pdZ; rewrite ?ofR_gt0.
  - by apply: pdZ; rewrite ?ofR_gt0.
  - by rewrite kcost_scl.
  - by [].
  move=> [[x x0 h1] [y y0 h2]]; apply: nc; split; [exists (x * c) | exists (y * d)]; rewrite ?mulr_gt0 // rmorphM -scalerA //.
have [s hs] := fchoice (1%:M, 1%:M) ex.
have [l l0 hl] := bands cK nz a0 b0 st (kron_cost X P B + 1) 0.
have e1 k : eps k <= 1 by rewrite /eps invf_le1 ?ltr0n // ler1n.
have bd k : inband l (s k).1^T /\ inband l (s k).2.
  have [p1 p2 hc [d1 d2] _] := hs k; apply: hl; rewrite ?trmxK ?det_tr ?d1 ?d2 ?normr0 //; first exact: tr_pd.
  by apply: le_trans hc _; rewrite ler_add2l.
have [L [M [pL pM hL]]] := cluster2 cK l0 (fun k => let: And5 h _ _ _ _ := hs k in pd_herm (tr_pd h)) (fun k => (bd k).1.1) (fun k => (bd k).1.2)
  (fun k => let: And5 _ h _ _ _ := hs k in pd_herm h) (fun k => (bd k).2.1) (fun k => (bd k).2.2).
have hc : kron_cost X L^T M <= kron_cost X P B.
  pose C : R := 1 + 2%:R * ((a * b)%:R * (N%:R * 2%:R)); have C0 : 0 <= C by rewrite addr_ge0 ?ler01 // -?natrM ?mulr_ge0 ?ler0n.
  apply: (@le_eps _ _ C C0) => f f0; have [k0 hk0] := tends_eps 1 f0.
  have [k [kk c1 c2]] := hL f k0 f0; have [p1 p2 hc _ _] := hs k; have f1 : 0 < 1 + f by rewrite addr_gt0 ?ltr01.
  have f2 : 0 < (1 + f) * (1 + f) by rewrite mulr_gt0.
  have := close_tr c1; rewrite trmxK => -[u1 u2]; have [u3 u4] := c2.
  have pc n (A : 'M[K]_n) : pd A -> psd (ofR (1 + f) *: A) by move=> pA; apply: psdZ; [rewrite ofRge0 ltW | exact: pd_psd].
  have w1 := tens_loewner (pd_psd p1) (pc _ _ pM) u1 u3; have w2 := tens_loewner (pd_psd (tr_pd pL)) (pc _ _ p2) u2 u4.
  rewrite !tens_scl -rmorphM in w1 w2.
  have q1 := tens_pd p1 p2; have q2 := tens_pd (tr_pd pL) pM.
  have := cost_loewner nz q2 q1 f2 w2 w1; rewrite -[tcost X ((s k).1 *t _)]/(kron_cost X _ _) -[tcost X (L^T *t _)]/(kron_cost X _ _) => h.
  apply: le_trans h _; have ek : eps k <= f by have := hk0 k kk; rewrite mul1r subr0; exact: le_trans (ler_norm _).
  rewrite [C * f]mulrDl mul1r addrA; apply: ler_add; first by apply: le_trans hc _; rewrite ler_add2l.
  rewrite -!mulrA; apply: ler_wpmul2l; first exact: ler0n.
  apply: ler_wpmul2l; first exact: ler0n.
  apply: ler_wpmul2l; first exact: ler0n.
  rewrite lnM // mulr_natl mulr2n; have ln1f : ln (1 + f) <= f by rewrite (le_trans (ln_le_sub1 _)) // addrAC subrr add0r.
  exact: ler_add.
have [fA fB] := min_fixed nz N0 a0 b0 mi.
have [] := stable_unique nz N0 a0 b0 st (tr_pd pP) pB fA fB (tr_pd pL) pM _; first by rewrite trmxK.
rewrite trmxK => -[c c0 eL] [d d0 eM]; have [k [_ c1 c2]] := hL t 0%N t0; have [_ _ _ _] := hs k; apply.
have ci : 0 < c^-1 by rewrite invr_gt0.
have di : 0 < d^-1 by rewrite invr_gt0.
split; [exists c^-1 => // | exists d^-1 => //].
  by have := close_scale (ltW ci) (close_tr c1); rewrite trmxK eL scalerA -rmorphM mulVf ?gt_eqF // rmorph1 scale1r.
by have := close_scale (ltW di) c2; rewrite eM scalerA -rmorphM mulVf ?gt_eqF // rmorph1 scale1r.
Qed.
Lemma bounded_conditioned (c l : R) (Y : 'M[K]_(N, a * b)) P' B' : nonzero_samples Y -> bounded_by c l Y -> pd P' -> pd B' -> kron_cost Y P' B' <= c ->
  conditioned (exp (l + l)) P' /\ conditioned (exp (l + l)) B'.
Proof.
move=> nY hb pP pB hc; have [U [al [u [hU sa eP _ loA]]]] := spec_of a0 pP; have [W [be [d [hW sb eB _ loB]]]] := spec_of b0 pB.
have E : kron_cost Y P' B' = kron_cost Y (spec U al) (spec W be).
  rewrite eP eB kcost_scl ?expR_gt0 //; apply: pd_congr; rewrite ?unitary_unit //; apply: pd_dia => j; exact: ex_gt0.
rewrite E in hc; have [ha hb'] := size_coord (hb _ _ _ _ hU hW sa sb hc).
have wk n (M : 'M[K]_n) (x : R) : loewner M (ofR (exp (x + l)) *: 1%:M) /\ loewner 1%:M (ofR (exp (l - x)) *: M) -> conditioned (exp (l + l)) M.
  move=> [h1 h2]; exists (exp (x - l)); first exact: expR_gt0.
  split; last by rewrite -exp_addR; have -> : l + l + (x - l) = x + l by rring.
  by have := loewnerZ (ltW (expR_gt0 (x - l))) h2; rewrite scalerA -rmorphM -exp_addR addrA subrK subrr exp0R rmorph1 scale1r.
by split; [apply: wk (loA _ ha) | apply: wk (loB _ hb')].
Qed.
End Near.
(* the minimisers for the samples near X are near the minimiser for X *)
Lemma kron_near (K : starField) (cK : compactK K) N a b (X : 'M[K]_(N, a * b)) P B : (0 < N)%N -> (0 < a)%N -> (0 < b)%N -> nonzero_samples X -> kron_stable X ->
  kron_minimiser X P B -> forall t : R, 0 < t -> near_data X (fun Y => forall P' B', kron_minimiser Y P' B' -> close_to P B t P' B').
Proof.
case: a b X P B => // a [//|b] X P B N0 _ _ nz st mi t t0.
have a0 : (0 < a.+1)%N by []. have b0 : (0 < b.+1)%N by [].
have [eta eta0 he] := kexcess cK nz N0 a0 b0 st mi t0; have [pP pB le] := mi; pose v := kron_cost X P B.
have [l hl] := near_bounded cK a0 b0 st (v + 1); pose M := exp (l + l).
have X0 i : row i X != 0 by have := nz i; rewrite /samp trmx_eq0.
pose e := Num.min 1 (eta / 2%:R); have e0 : 0 < e by rewrite lt_minr ltr01 divr_gt0 ?ltr0n.
have cn := @cost_near K N (b + a * b.+1) X X0 N0 (M * M) e e0.
have [cP cB] : conditioned M P /\ conditioned M B.
  apply: (bounded_conditioned (c := v + 1) a0 b0 nz _ pP pB); first exact: (near_at hl).
  by rewrite ler_addl ler01.
apply: near_imp (near_and (near_nonzero X0) (near_and hl cn)) => Y [Y0 [hY cY]] P' B' [pP' pB' le'].
have nY : nonzero_samples Y by move=> i; rewrite /samp trmx_eq0; exact: Y0.
have [h1 _] := cY _ (tens_pd pP pB) (tens_conditioned pP pB cP cB).
have {}h1 : kron_cost Y P B <= v + e by exact: h1.
have h2 := le' _ _ pP pB; have [cP' cB'] : conditioned M P' /\ conditioned M B'.
  apply: (bounded_conditioned (c := v + 1) a0 b0 nY hY pP' pB'); apply: le_trans h2 _; apply: le_trans h1 _; rewrite ler_add2l.
  by rewrite le_minl lexx.
have [_ h3] := cY _ (tens_pd pP' pB') (tens_conditioned pP' pB' cP' cB').
have {}h3 : kron_cost X P' B' <= kron_cost Y P' B' + e by exact: h3.
apply: he => //; apply: le_trans h3 _; apply: le_trans (_ : v + e + e <= _); first by rewrite ler_add2r; exact: le_trans h2 h1.
rewrite -addrA ler_add2l; have : e <= eta / 2%:R by rewrite le_minl lexx orbT.
by move=> h; have := ler_add h h; rewrite -splitr.
Qed.
