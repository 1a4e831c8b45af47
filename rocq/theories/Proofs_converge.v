(* Limits of sequences of positive definite matrices.  Nothing here models code. *)
From Coq Require Import Reals String Lra Epsilon Classical_Prop.
From mathcomp Require Import all_ssreflect all_algebra.
From mathcomp Require Import complex zify.
From Verif Require Import RealsMC RealTac RealTac2 Star StarInst FunCalc Compact Spec_covariance Spec_fixedpoint Proofs_mest Proofs_cost Proofs_unique Proofs_unique2.
Set Implicit Arguments.
Unset Strict Implicit.
Unset Printing Implicit Defensive.
Local Open Scope ring_scope.
Import GRing.Theory Num.Theory Order.TTheory.

Section Norms.
Variable K : starField.
Local Notation ofR := (@ofR K).
Local Notation toR := (@toR K).
Local Notation cj := (@cj K).
Local Notation "A ^H" := (adj A) (at level 8, format "A ^H").
Lemma fro2E m n (A : 'M[K]_(m, n)) : fro2 A = \sum_i \sum_j sq (A i j). Proof. by []. Qed.
Lemma fro2N m n (A : 'M[K]_(m, n)) : fro2 (- A) = fro2 A.
Proof. by rewrite !fro2E; apply: eq_bigr => i _; apply: eq_bigr => j _; rewrite mxE /sq rmorphN mulrNN. Qed.
Lemma fro2H m n (A : 'M[K]_(m, n)) : fro2 A^H = fro2 A.
Proof. by rewrite !fro2E exchange_big; apply: eq_bigr => i _; apply: eq_bigr => j _; rewrite adjE /sq cjK mulrC. Qed.
Lemma sqDe (x y : K) : sq (x + y) = sq x + sq y + (toR (x * cj y) + toR (x * cj y)).
Proof.
have e : toR (y * cj x) = toR (x * cj y) by rewrite -toR_cj rmorphM cjK mulrC.
rewrite /sq rmorphD mulrDl !mulrDr !raddfD /= e; rring.
Qed.
Lemma sqN (x : K) : sq (- x) = sq x. Proof. by rewrite /sq rmorphN mulrNN. Qed.
Lemma sqD (x y : K) : sq (x + y) <= 2%:R * (sq x + sq y).
Proof.
have := sq_ge0 (x - y); rewrite !sqDe rmorphN mulrN raddfN sqN mulr2n; move: (toR _) (sq x) (sq y) => a b c => h; rlra2.
Qed.
Lemma fro2D m n (A B : 'M[K]_(m, n)) : fro2 (A + B) <= 2%:R * (fro2 A + fro2 B).
Proof.
rewrite !fro2E -big_split mulr_sumr; apply: ler_sum => i _; rewrite -big_split mulr_sumr; apply: ler_sum => j _.
by rewrite mxE; exact: sqD.
Qed.
(* Cauchy-Schwarz *)
Lemma CS p (x y : 'cV[K]_p) : sq ((x^H *m y) 0 0) <= (\sum_j sq (x j 0)) * (\sum_j sq (y j 0)).
Proof.
have [_ /(_ y)] := outer_le x (pd1 K p); rewrite qfD -scaleN1r (qfZ (-1)) mulN1r qfZ qf1 subr_ge0 qf_outer -ofR_sq maha1 normcol.
under [\sum_i y i 0 * _]eq_bigr do rewrite -ofR_sq.
by rewrite -rmorph_sum -rmorphM ofR_le.
Qed.
Lemma fro2_mul m n p (A : 'M[K]_(m, n)) (B : 'M[K]_(m, p)) : fro2 (A^H *m B) <= fro2 A * fro2 B.
Proof.
rewrite !fro2E [X in _ <= X * _]exchange_big [X in _ <= _ * X]exchange_big mulr_suml; apply: ler_sum => a _.
rewrite mulr_sumr; apply: ler_sum => b _; have := CS (col a A) (col b B).
have -> : ((col a A)^H *m col b B) 0 0 = (A^H *m B) a b by rewrite !mxE; apply: eq_bigr => k _; rewrite !mxE.
have e q (C : 'M[K]_(m, q)) c : \sum_j sq (col c C j 0) = \sum_j sq (C j c) by apply: eq_bigr => j _; rewrite mxE.
by rewrite !e.
Qed.
(* -|A| <= A <= |A| *)
Lemma herm_le_fro p (A : 'M[K]_p) e : herm A -> 0 <= e -> fro2 A <= e ^+ 2 -> psd (ofR e *: 1%:M - A) /\ psd (ofR e *: 1%:M + A).
Proof.
move=> hA e0 h; have [uV eA] := specdecP hA; move: (specdec A) uV eA => [d V] /= uV eA.
have dj j : d 0 j ^+ 2 <= e ^+ 2.
  apply: le_trans h; rewrite eA fro2_unitary //; last exact: unitary_adj.
  rewrite fro2E (bigD1 j) //= (bigD1 j) //= diaE eqxx mulr1n /sq cj_ofR -rmorphM toRK -expr2 -addrA ler_addl.
  by apply: addr_ge0; [|apply: sumr_ge0 => i _]; apply: sumr_ge0 => k _; exact: sq_ge0.
have dj' j : - e <= d 0 j <= e by rewrite -ler_norml -(ger0_norm e0) -ler_sqr ?nnegrE ?normr_ge0 // -!normrX !ger0_norm ?sqr_ge0.
have eI : ofR e *: 1%:M = V *m dia K (const_mx e) *m V^H by rewrite dia_const scalar_mxC -mulmxA unitaryV // scalemx1 mulmx1.
rewrite eI eA -mulmxBl -mulmxBr diaB -mulmxDl -mulmxDr diaD.
split; apply/psd_congr/psd_dia => j; rewrite !mxE; case/andP: (dj' j) => a b; first by rewrite subr_ge0.
by rewrite -ler_subl_addl sub0r.
Qed.
End Norms.

Section Close.
Variable K : starField.
Local Notation ofR := (@ofR K).
Local Notation "A ^H" := (adj A) (at level 8, format "A ^H").
Variable p : nat.
Implicit Types S T L : 'M[K]_p.
Definition close (e : R) S T := loewner S (ofR (1 + e) *: T) /\ loewner T (ofR (1 + e) *: S).
Lemma loewner_trans S T L : loewner S T -> loewner T L -> loewner S L.
Proof. by rewrite /loewner => h1 h2; have := psdD h2 h1; rewrite addrA subrK. Qed.
Lemma loewner_refl S : loewner S S. Proof. by rewrite /loewner subrr; exact: psd0. Qed.
Lemma loewnerZ c S T : 0 <= c -> loewner S T -> loewner (ofR c *: S) (ofR c *: T).
Proof. by move=> c0 h; rewrite /loewner -scalerBr; apply: psdZ; rewrite ?ofRge0. Qed.
Lemma loewner_le c d S : psd S -> c <= d -> loewner (ofR c *: S) (ofR d *: S).
Proof. by move=> pS h; rewrite /loewner -scalerBl -rmorphB; apply: psdZ; rewrite ?ofRge0 ?subr_ge0. Qed.
Lemma loewner_comp a b S T L : 0 <= a -> loewner S (ofR a *: T) -> loewner T (ofR b *: L) -> loewner S (ofR (a * b) *: L).
Proof. by move=> a0 h1 h2; apply: loewner_trans h1 _; rewrite rmorphM -scalerA; apply: loewnerZ. Qed.
Lemma close_sym e S T : close e S T -> close e T S. Proof. by case. Qed.
Lemma close_trans e f S T L : 0 <= e -> 0 <= f -> close e S T -> close f T L -> close ((1 + e) * (1 + f) - 1) S L.
Proof.
move=> e0 f0 [a b] [c d]; rewrite /close [1 + (_ - 1)]addrC subrK; split; first by apply: loewner_comp c; rewrite ?addr_ge0 ?ler01.
by rewrite mulrC; apply: loewner_comp b; rewrite ?addr_ge0 ?ler01.
Qed.
Lemma close_le e f S T : psd S -> psd T -> e <= f -> close e S T -> close f S T.
Proof.
by move=> pS pT ef [a b]; split; [apply: loewner_trans a _|apply: loewner_trans b _]; apply: loewner_le => //; rewrite ler_add2l.
Qed.
Lemma close_scale c e S T : 0 <= c -> close e S T -> close e (ofR c *: S) (ofR c *: T).
Proof.
move=> c0 [a b]; split; rewrite scalerA -rmorphM mulrC rmorphM -scalerA; exact: loewnerZ.
Qed.
(* close at every distance: equal *)
Lemma close_eq S T : pd S -> pd T -> (forall e : R, 0 < e -> close e S T) -> S = T.
Proof.
move=> pS pT h; apply/eqP; rewrite -subr_eq0; apply/eqP/fro_eq0/eqP; rewrite eq_le fro_ge0 andbT leNgt; apply/negP => f0.
have T0 : 0 <= fro T by exact: fro_ge0.
pose e := fro (S - T) / (1 + fro T) / 2%:R.
have e0 : 0 < e by rewrite !divr_gt0 ?ltr0n // ltr_spaddl ?ltr01.
have [a b] := h e e0; have := loewner_fro pS pT (ltW e0) a b.
have x1 : 1 + fro T != 0 by rewrite gt_eqF // ltr_spaddl ?ltr01.
have eE : e * ((1 + fro T) * 2%:R) = fro (S - T) by rewrite mulrCA /e divfK ?pnatr_eq0 // mulrC divfK.
rewrite -{1}eE ler_pmul2l // leNgt => /negP; apply; rewrite mulr2n; move: (fro T) T0 => x x0; clear -x0; rewrite mulrDr mulr1; rlra2.
Qed.
(* small difference to a positive definite matrix *)
Lemma close_fro L : pd L -> forall e : R, 0 < e -> exists2 d : R, 0 < d & forall S, herm S -> fro2 (S - L) <= d -> close e S L.
Proof.
move=> pL e e0; have [m [m1 m2 _]] := pd_comparable (pd1 K p) pL.
have m0 : 0 < m by apply: lt_le_trans m1; exact: ltr01.
have e1 : 0 < 1 + e by rewrite addr_gt0 ?ltr01.
have [d d0 dm] : exists2 d : R, 0 < d & e / (1 + e) = d * m.
  by exists (e / (1 + e) / m); [rewrite !divr_gt0 | rewrite divfK // gt_eqF].
exists (d ^+ 2); first by rewrite exprn_gt0.
move=> S hS h; have hD : herm (S - L) by apply: hermB => //; exact: pd_herm.
have [p1 p2] := herm_le_fro hD (ltW d0) h.
have {}dm : loewner (ofR d *: 1%:M) (ofR (e / (1 + e)) *: L).
  by rewrite dm rmorphM -scalerA; apply: loewnerZ => //; exact: ltW.
have q1 : loewner (S - L) (ofR (e / (1 + e)) *: L) by apply: loewner_trans dm; exact: p1.
have q2 : loewner (- (S - L)) (ofR (e / (1 + e)) *: L) by apply: loewner_trans dm; rewrite /loewner opprK.
have ee : e / (1 + e) <= e by rewrite ler_pdivr_mulr // ler_pemulr // ?ler_addl ltW.
split.
- have := loewner_trans q1 (loewner_le (pd_psd pL) ee); rewrite /loewner rmorphD rmorph1 scalerDl scale1r.
  by rewrite opprB addrA [ofR e *: L + L]addrC.
- have := loewnerZ (ltW e1) q2; rewrite scalerA -rmorphM mulrC divfK ?gt_eqF // /loewner opprB scalerBr opprB.
  have -> : ofR (1 + e) *: L = L + ofR e *: L by rewrite rmorphD rmorph1 scalerDl scale1r.
  by rewrite addrCA opprD [X in psd (_ + X)]addrCA subrr addr0.
Qed.

(* cluster points *)
Hypothesis cK : compactK K.
Lemma small_all (x : R) : (forall e : R, 0 < e -> x <= 4%:R * e) -> x <= 0.
Proof.
move=> h; rewrite leNgt; apply/negP => x0; have e0 : 0 < x / 8%:R by rewrite divr_gt0 ?ltr0n.
have := h _ e0; have -> : 4%:R * (x / 8%:R) = x / 2%:R.
  rfield.
rewrite leNgt ltr_pdivr_mulr ?ltr0n // => /negP; apply; rewrite mulr2n mulrDr mulr1 ltr_addl //.
Qed.
Lemma cluster (s : nat -> 'M[K]_p) (l : R) : 0 < l -> (forall k, herm (s k)) -> (forall k, loewner 1%:M (ofR l *: s k)) ->
  (forall k, loewner (s k) (ofR l *: 1%:M)) ->
  exists2 L, pd L & forall (e : R) k0, 0 < e -> exists2 k, (k0 <= k)%N & close e (s k) L.
Proof.
move=> l0 hs lo up.
have bd k : fro2 (s k) <= fro2 (ofR l *: (1%:M : 'M[K]_p)).
  apply: fro2_loewner => //; first by apply: hermZR; exact: herm1.
    exact: up.
  have ps : psd (s k).
    have q : psd (ofR l^-1 *: (ofR l *: s k - 1%:M) + ofR l^-1 *: 1%:M).
      apply: psdD; apply: psdZ; rewrite ?ofRge0 ?invr_ge0 ?(ltW l0) //; [exact: lo | exact/pd_psd/pd1].
    by move: q; rewrite -scalerDr subrK scalerA -rmorphM mulVf ?gt_eqF // rmorph1 scale1r.
  by apply: psdD => //; apply: psdZ; [rewrite ofRge0 ltW | exact/pd_psd/pd1].
have [L hL] := cK bd.
have hermL : herm L.
  rewrite /herm; apply/eqP; rewrite -subr_eq0; apply/eqP/fro2_eq0/eqP; rewrite eq_le fro2_ge0 andbT.
  apply: small_all => e e0; have [k _ hk] := hL e 0%N e0.
  have -> : L^H - L = - (s k - L)^H + (s k - L) by rewrite adjB (hs k) opprB addrA subrK.
  apply: le_trans (fro2D _ _) _; rewrite fro2N fro2H -mulr2n -[fro2 _ *+ 2]mulr_natl mulrA -natrM; apply: ler_wpmul2l => //.
  exact: ler0n.
have pL : pd L.
  pose d := (l^-1 / 2%:R); have d0 : 0 < d by rewrite divr_gt0 ?invr_gt0 ?ltr0n.
  have [k _ hk] := hL (d ^+ 2) 0%N (exprn_gt0 _ d0).
  have [p1 p2] := herm_le_fro (hermB (hs k) hermL) (ltW d0) hk.
  have q : psd (ofR l^-1 *: (ofR l *: s k - 1%:M)) by apply: psdZ; [rewrite ofRge0 invr_ge0 ltW | exact: lo].
  have -> : L = ofR d *: 1%:M + (ofR d *: 1%:M - (s k - L) + ofR l^-1 *: (ofR l *: s k - 1%:M)).
    rewrite scalerBr scalerA -rmorphM mulVf ?gt_eqF // rmorph1 scale1r.
    have -> : ofR l^-1 *: (1%:M : 'M[K]_p) = ofR d *: 1%:M + ofR d *: 1%:M.
      by rewrite -scalerDl -rmorphD /d -mulrDr; congr (ofR _ *: _); rewrite -[LHS]mulr1; congr (_ * _); rfield.
    by move: (ofR d *: _) (s k) => a b; rewrite opprB [a + (L - b)]addrA [_ + (b - _)]addrA subrK addrA [a + (a + L)]addrA [a + a + L]addrC addrK.
  apply: pdD; first by apply: pdZ; rewrite ?ofR_gt0 //; exact: pd1.
  exact: psdD.
exists L => // e k0 e0; have [d d0 hd] := close_fro pL e0; have [k kk hk] := hL d k0 d0.
by exists k => //; apply: hd.
Qed.
End Close.

Lemma arch (x d : R) : 0 < d -> exists n : nat, x < n%:R * d.
Proof.
move=> d0; have [h _] := archimed (x / d); exists (Z.to_nat (up (x / d))); rewrite -ltr_pdivr_mulr // natIZR; apply/RltP.
apply: Rlt_le_trans h _; apply: IZR_le; move: (up _) => z; lia.
Qed.
Section Fixed.
Variable K : starField.
Local Notation ofR := (@ofR K).
Local Notation "A ^H" := (adj A) (at level 8, format "A ^H").
Variables (N p : nat) (X : 'M[K]_(N, p)) (w : R -> R).
Hypothesis (X0 : forall i, row i X != 0) (N0 : (0 < N)%N).
Let F := mstep w X.
(* order preserving and subhomogeneous *)
Definition subhom := forall q r l, 0 < q -> 0 < r -> 1 <= l -> r <= l * q -> w q <= l * w r.
Hypothesis sh : subhom.
Hypothesis Fpd : forall S, pd S -> pd (F S).
Lemma F_mono S T l : pd S -> pd T -> 1 <= l -> loewner S (ofR l *: T) -> loewner (F S) (ofR l *: F T).
Proof.
move=> pS pT l1 le; apply: wsum_loewner => i; apply: sh => //; try (apply: maha_gt0 => //; exact: samp0).
exact: maha_loewner.
Qed.
Lemma F_close e S T : pd S -> pd T -> 0 <= e -> close e S T -> close e (F S) (F T).
Proof. by move=> pS pT e0 [a b]; split; apply: F_mono => //; rewrite ler_addl. Qed.
Hypothesis cK : compactK K.
Lemma small3 (e : R) : 0 < e -> exists2 f : R, 0 < f & (1 + f) * (1 + ((1 + f) * (1 + f) - 1)) - 1 <= e.
Proof.
move=> e0; pose f := Num.min 1 (e / 7%:R); have f0 : 0 < f by rewrite lt_minr ltr01 divr_gt0 ?ltr0n.
exists f => //; have f1 : f <= 1 by rewrite le_minl lexx.
have f2 : f * 7%:R <= e by rewrite -ler_pdivl_mulr ?ltr0n // le_minl lexx orbT.
move: f f0 f1 f2 => f f0 f1 f2; have ff : f * f <= f by apply: ler_pimulr => //; exact: ltW.
have fff : f * f * f <= f by apply: le_trans ff; apply: ler_pimulr => //; rewrite mulr_ge0 ?ltW.
have -> : (1 + f) * (1 + ((1 + f) * (1 + f) - 1)) - 1 = f + f + f + (f * f + f * f + f * f) + f * f * f by rring.
apply: le_trans f2; have -> : f * 7%:R = f + f + f + (f + f + f) + f by rewrite mulr_natr !mulrS mulr0n !addrA addr0.
by rewrite !ler_add.
Qed.
Lemma fixed_cluster (s : nat -> 'M[K]_p) (l : R) : 0 < l -> (forall k, pd (s k)) -> (forall k, loewner 1%:M (ofR l *: s k)) ->
  (forall k, loewner (s k) (ofR l *: 1%:M)) -> (forall e : R, 0 < e -> exists k0, forall k, (k0 <= k)%N -> close e (F (s k)) (s k)) ->
  exists L, [/\ pd L, F L = L & forall (e : R) k0, 0 < e -> exists2 k, (k0 <= k)%N & close e (s k) L].
Proof.
move=> l0 ps lo up ev; have [L pL hL] := cluster cK l0 (fun k => pd_herm (ps k)) lo up; exists L; split=> //.
apply: close_eq => //; first exact: Fpd.
move=> e /small3 [f f0 hf]; have [k0 h0] := ev f f0; have [k kk hk] := hL f k0 f0.
have c1 := F_close pL (ps k) (ltW f0) (close_sym hk).
apply: close_le hf _; [exact/pd_psd/Fpd | exact: pd_psd |].
apply: (close_trans (ltW f0) _ c1); first by rewrite subr_ge0 mulr_ege1 // ler_addl ltW.
exact: (close_trans (ltW f0) (ltW f0) (h0 k kk) hk).
Qed.

(* updates become small when the cost is bounded below *)
Variables (rho : R -> R).
Hypothesis (ccv : forall q q', 0 < q -> 0 < q' -> rho q' <= rho q + N%:R * w q * (q' - q)).
Lemma dia_close e (S T B : 'M[K]_p) d : 0 < e -> S = B *m B^H -> T = B *m dia K d *m B^H -> (forall j, 0 < d 0 j) ->
  (forall j, `|d 0 j - 1| <= e / (1 + e)) -> close e T S.
Proof.
move=> e0 eS eT d0 h; have e1 : 0 < 1 + e by rewrite addr_gt0 ?ltr01.
have E1 : dia K (const_mx 1) = 1%:M :> 'M_p by rewrite dia_const rmorph1.
have eS' : S = B *m dia K (const_mx 1) *m B^H by rewrite E1 mulmx1.
have dd j : - (e / (1 + e)) <= d 0 j - 1 <= e / (1 + e) by rewrite -ler_norml.
have ee : e / (1 + e) <= e by rewrite ler_pdivr_mulr // ler_pemulr // ?ler_addl ltW.
split; rewrite /loewner eT eS' scalemxAl scalemxAr dia_scale -mulmxBl -mulmxBr diaB; apply/psd_congr/psd_dia => j; rewrite !mxE subr_ge0; case/andP: (dd j) => a b.
- rewrite mulr1 -ler_subl_addl; exact: le_trans b ee.
- move: a; rewrite ler_subr_addl; have -> : 1 - e / (1 + e) = (1 + e)^-1.
    by rewrite -{1}(divff (lt0r_neq0 e1)) -mulrBl addrK mul1r.
  by rewrite -[X in X <= _ -> _]mul1r ler_pdivr_mulr // mulrC.
Qed.
Lemma update_drop e S : 0 < e -> pd S -> mcost rho X (F S) <= mcost rho X S /\
  (~ close e (F S) S -> mcost rho X (F S) <= mcost rho X S - N%:R * phi (e / (1 + e))).
Proof.
move=> e0 pS; have pT := Fpd pS.
have up : wsum (fun i => N%:R * w (maha S (samp X i))) X = ofR N%:R *: F S by rewrite /F /mstep /wsum scaler_sumr; apply: eq_bigr => i _; rewrite scalerA -rmorphM.
have [B [d [_ eS eT d0 D]]] := @update_gap K N p rho (fun q => N%:R * w q) X S (F S) ccv X0 pS pT up.
have g0 j : 0 <= gap (d 0 j) by exact: gap_ge0.
split; first by apply: le_trans D _; rewrite ler_subl_addr ler_addl mulr_ge0 ?ler0n // sumr_ge0.
move=> nc; apply: le_trans D _; rewrite ler_add2l ler_opp2; apply: ler_wpmul2l; first exact: ler0n.
have t0 : 0 < e / (1 + e) by rewrite divr_gt0 // addr_gt0 ?ltr01.
have [j hj] : exists j, e / (1 + e) < `|d 0 j - 1|.
  apply: NNPP => h; apply: nc; apply: (dia_close e0 eS eT d0) => j; rewrite leNgt; apply/negP => hj; by apply: h; exists j.
rewrite (bigD1 j) //=; apply: le_trans (gap_far (d0 j) t0 hj) _; rewrite ler_addl.
by apply: sumr_ge0 => i _.
Qed.
Lemma eventually_close S b : pd S -> (forall k, b <= mcost rho X (iter k F S)) ->
  forall e : R, 0 < e -> exists k0, forall k, (k0 <= k)%N -> close e (iter k.+1 F S) (iter k F S).
Proof.
move=> pS lo e e0; apply: NNPP => nk.
have pk k : pd (iter k F S) by elim: k => //= k; exact: Fpd.
have t0 : 0 < e / (1 + e) by rewrite divr_gt0 // addr_gt0 ?ltr01.
pose dl := N%:R * phi (e / (1 + e)); have dl0 : 0 < dl by rewrite mulr_gt0 ?ltr0n // phi_gt0.
have mono k j : mcost rho X (iter (j + k) F S) <= mcost rho X (iter k F S).
  by elim: j => [|j IH] //; apply: le_trans IH; rewrite addSn /=; exact: (update_drop e0 (pk (j + k)%N)).1.
have H n : exists k, mcost rho X (iter k F S) <= mcost rho X S - n%:R * dl.
  elim: n => [|n [k hk]]; first by exists 0%N; rewrite mul0r subr0.
  have [k' kk nc] : exists2 k', (k <= k')%N & ~ close e (iter k'.+1 F S) (iter k' F S).
    apply: NNPP => h; apply: nk; exists k => k' kk; apply: NNPP => nc; apply: h; by exists k'.
  exists k'.+1; apply: le_trans ((update_drop e0 (pk k')).2 nc) _; rewrite -/dl.
  rewrite -addn1 natrD mulrDl mul1r opprD addrA ler_add2r; apply: le_trans hk; by rewrite -(subnK kk).
have [n hn] := arch (mcost rho X S - b) dl0; have [k hk] := H n.
by have := le_trans (lo k) hk; rewrite leNgt => /negP; apply; rewrite ltr_subl_addr -ltr_subl_addl.
Qed.
End Fixed.
