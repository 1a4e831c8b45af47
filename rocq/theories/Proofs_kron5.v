(* Convergence of the passes of the MM algorithm. *)
From Coq Require Import Reals Lra Classical_Prop Epsilon.
From mathcomp Require Import all_ssreflect all_algebra.
From mathcomp Require Import mxtens.
From Verif Require Import RealsMC RealTac RealTac2 Star FunCalc Spec_covariance Proofs_mest Proofs_cost Proofs_unique Proofs_unique2 Model_structured Proofs_structured Props_structured
  Compact Proofs_converge Props_converge Proofs_exist2 Spec_kron Proofs_kron Proofs_kron1 Proofs_kron2 Proofs_kron3 Proofs_kron4.
Set Implicit Arguments.
Unset Strict Implicit.
Unset Printing Implicit Defensive.
Local Open Scope ring_scope.
Import GRing.Theory Num.Theory Order.TTheory.

Section Order.
Variable K : starField.
Local Notation ofR := (@ofR K).
Local Notation toR := (@toR K).
Local Notation "A ^H" := (adj A) (at level 8, format "A ^H").
Lemma qf_maha p (S : 'M[K]_p) x : pd S -> qf (invmx S) x = ofR (maha S x).
Proof. by move=> pS; rewrite /maha -[qf _ _]/((x^H *m invmx S *m x) 0 0) ofR_toR_ge0 //; exact: (pd_psd (pd_inv pS)).2. Qed.
Lemma loewner_inv p (S T : 'M[K]_p) (l : R) : pd S -> pd T -> loewner S (ofR l *: T) -> loewner (invmx T) (ofR l *: invmx S).
Proof.
move=> pS pT h; split; first by apply: hermB; [apply: hermZR|]; exact/pd_herm/pd_inv.
move=> x; rewrite qfD -scaleN1r !qfZ mulN1r !qf_maha // subr_ge0 -rmorphM ofR_le; exact: maha_loewner.
Qed.
Lemma loewner_congr m n (S T : 'M[K]_n) (M : 'M[K]_(m, n)) : loewner S T -> loewner (M *m S *m M^H) (M *m T *m M^H).
Proof. by move=> h; rewrite /loewner -mulmxBl -mulmxBr; exact: psd_congr. Qed.
Lemma tr_loewner n (P S T : 'M[K]_n) : psd P -> loewner S T -> \tr (P *m S) <= \tr (P *m T).
Proof. by move=> pP h; rewrite -subr_ge0 -raddfB -mulmxBr; exact: tr_psdM. Qed.
Lemma loewner_sum n N (F G : 'I_N -> 'M[K]_n) : (forall i, loewner (F i) (G i)) -> loewner (\sum_i F i) (\sum_i G i).
Proof.
move=> h; rewrite /loewner -sumrB; elim/big_ind: _ => //; [exact: psd0|by move=> *; exact: psdD|by move=> i _; exact: h].
Qed.
End Order.

Section Cont.
Variable K : starField.
Local Notation ofR := (@ofR K).
Local Notation toR := (@toR K).
Local Notation "A ^H" := (adj A) (at level 8, format "A ^H").
Variables (N a b : nat) (X : 'M[K]_(N, a * b)).
Hypothesis nz : nonzero_samples X.
Let den_pos (A : 'M[K]_a) (B : 'M[K]_b) i : pd A -> pd B -> 0 < mm_denominator X (invmx A) (invmx B) i.
Proof. by move=> pA pB; rewrite den_gt0 ?cellE ?unstack_eq0 //; exact: pd_inv. Qed.
Lemma num_le (B1 B2 : 'M[K]_b) (d : R) i : pd B1 -> pd B2 -> loewner B2 (ofR d *: B1) ->
  loewner (mm_numerator a X (invmx B1) i) (ofR d *: mm_numerator a X (invmx B2) i).
Proof.
move=> p1 p2 h; have := loewner_congr (cell X a b i)^H (loewner_inv p2 p1 h).
by rewrite adjK -scalemxAr -scalemxAl.
Qed.
Lemma numB_le (A1 A2 : 'M[K]_a) (c : R) i : pd A1 -> pd A2 -> loewner A2 (ofR c *: A1) ->
  loewner (mm_numerator_B b X (invmx A1) i) (ofR c *: mm_numerator_B b X (invmx A2) i).
Proof. by move=> p1 p2 h; have := loewner_congr (cell X a b i) (loewner_inv p2 p1 h); rewrite -scalemxAr -scalemxAl. Qed.
Lemma den_le (A1 A2 : 'M[K]_a) (B1 B2 : 'M[K]_b) (c d : R) i : 0 <= c -> 0 <= d -> pd A1 -> pd A2 -> pd B1 -> pd B2 ->
  loewner A2 (ofR c *: A1) -> loewner B2 (ofR d *: B1) ->
  mm_denominator X (invmx A1) (invmx B1) i <= ofR (c * d) * mm_denominator X (invmx A2) (invmx B2) i.
Proof.
move=> c0 d0 pA1 pA2 pB1 pB2 hA hB; rewrite /mm_denominator.
have psn (B : 'M[K]_b) : pd B -> psd (mm_numerator a X (invmx B) i) by move=> pB; apply: num_psd; exact: pd_inv.
apply: (@le_trans _ _ (ofR c * \tr (invmx A2 *m mm_numerator a X (invmx B1) i))).
  rewrite -mxtraceZ scalemxAl mxtrace_mulC [X in _ <= X]mxtrace_mulC; apply: tr_loewner; [exact: psn|exact: loewner_inv].
rewrite rmorphM -mulrA; apply: ler_wpmul2l; first by rewrite ofRge0.
by rewrite -mxtraceZ scalemxAr; apply: tr_loewner; [exact/pd_psd/pd_inv|exact: num_le].
Qed.
Lemma MM_le n (num1 num2 : 'I_N -> 'M[K]_n) (d1 d2 : 'I_N -> K) (c e : R) : 0 <= c -> 0 <= e -> (forall i, 0 < d1 i) -> (forall i, 0 < d2 i) ->
  (forall i, psd (num1 i)) -> (forall i, psd (num2 i)) ->
  (forall i, loewner (num1 i) (ofR c *: num2 i)) -> (forall i, d2 i <= ofR e * d1 i) -> loewner (mm_M num1 d1) (ofR (c * e) *: mm_M num2 d2).
Proof.
move=> c0 e0 p1 p2 n1 n2 hn hd; rewrite /mm_M scaler_sumr; apply: loewner_sum => i.
have -> : ofR (c * e) *: ((n%:R / N%:R) *: ((d2 i)^-1 *: num2 i)) = (n%:R / N%:R) *: ((ofR e / d2 i) *: (ofR c *: num2 i)).
  rewrite !scalerA; congr (_ *: _); rewrite rmorphM; move: (ofR c) (ofR e) (_ / _) ((d2 i)^-1) => u v x y.
  by rewrite [LHS]mulrCA -[u * v * y]mulrA [u * (v * y)]mulrC.
rewrite /loewner -scalerBr; apply: psdZ; first by rewrite divr_ge0 ?ler0n.
have h1 : (d1 i)^-1 <= ofR e / d2 i by rewrite ler_pdivl_mulr // mulrC ler_pdivr_mulr.
have h2 : loewner ((d1 i)^-1 *: num1 i) ((ofR e / d2 i) *: num1 i) by rewrite /loewner -scalerBl; apply: psdZ => //; rewrite subr_ge0.
apply: (loewner_trans h2); rewrite /loewner -scalerBr; apply: psdZ; last exact: hn.
by apply: le_trans h1; rewrite invr_ge0 ltW.
Qed.
Lemma MA_cl f m n (A1 A2 : 'M[K]_a) (B1 B2 : 'M[K]_b) : 0 <= f -> pd A1 -> pd A2 -> pd B1 -> pd B2 -> cl f m A1 A2 -> cl f n B1 B2 ->
  cl f (n + (m + n)) (MA X A1 B1) (MA X A2 B2).
Proof.
move=> f0 pA1 pA2 pB1 pB2 /clP [h1 h2] /clP [h3 h4]; have c0 k : 0 <= (1 + f) ^+ k by rewrite exprn_ge0 // addr_ge0 ?ler01.
apply: cl_loew; rewrite exprD [(1 + f) ^+ (m + n)]exprD; apply: MM_le => //; try (by rewrite mulr_ge0); try (by move=> i; apply: den_pos);
  try (by move=> i; apply: num_psd; exact: pd_inv); move=> i; first [exact: num_le | by apply: den_le].
Qed.
Lemma MB_cl f m n (A1 A2 : 'M[K]_a) (B1 B2 : 'M[K]_b) : 0 <= f -> pd A1 -> pd A2 -> pd B1 -> pd B2 -> cl f m A1 A2 -> cl f n B1 B2 ->
  cl f (m + (m + n)) (MB X A1 B1) (MB X A2 B2).
Proof.
move=> f0 pA1 pA2 pB1 pB2 /clP [h1 h2] /clP [h3 h4]; have c0 k : 0 <= (1 + f) ^+ k by rewrite exprn_ge0 // addr_ge0 ?ler01.
apply: cl_loew; rewrite exprD [(1 + f) ^+ (m + n)]exprD; apply: MM_le => //; try (by rewrite mulr_ge0); try (by move=> i; apply: den_pos);
  try (by move=> i; apply: numB_psd; exact: pd_inv); move=> i; first [exact: numB_le | by apply: den_le].
Qed.
End Cont.

Lemma karith6 (a b N x y s : R) : N != 0 -> a * b * s + N * (b * x + a * y) = N * (b * (x + a / N * s) + a * y).
Proof. move=> /divff; move: (N^-1) => i h; rewrite (_ : N * (b * (x + a * i * s) + a * y) = N * i * (a * b * s) + N * (b * x + a * y)); [by rewrite h mul1r|rring]. Qed.
Lemma karith7 (N b : nat) (c c' x x' y g : R) : (0 < N)%N -> (0 < b)%N -> c = N%:R * (b%:R * x + y) -> c' = N%:R * (b%:R * x' + y) -> x' - x <= - g -> 0 <= g ->
  c' <= c - g.
Proof.
move=> N0 b0 -> -> h g0; have n1 : 1 <= N%:R * b%:R :> R by rewrite -natrM ler1n muln_gt0 N0.
rewrite -subr_ge0 (_ : _ - _ - _ = N%:R * b%:R * (x - x') - g); last by rring.
rewrite subr_ge0; apply: (@le_trans _ _ (x - x')); first by move: h; rewrite -opprB ler_opp2.
by rewrite ler_pemull // (le_trans g0) //; move: h; rewrite -opprB ler_opp2.
Qed.
Lemma karith8 (N b : nat) (c c' x x' y l l' : R) : (0 < N)%N -> (0 < b)%N -> c = N%:R * (b%:R * x + y) -> c' = N%:R * (b%:R * x' + y) -> x' - x <= l' - l -> l' <= l ->
  c' <= c - (l - l').
Proof.
move=> N0 b0 e1 e2 h ll; apply: (karith7 N0 b0 e1 e2); last by rewrite subr_ge0.
by rewrite opprB.
Qed.
Section Pass.
Variable K : starField.
Local Notation ofR := (@ofR K).
Local Notation toR := (@toR K).
Local Notation "A ^H" := (adj A) (at level 8, format "A ^H").
Variables (N a b : nat) (X : 'M[K]_(N, a * b)).
Hypotheses (nz : nonzero_samples X) (sc : span_columns X) (sr : span_rows X) (N0 : (0 < N)%N) (a0 : (0 < a)%N) (b0 : (0 < b)%N).
Definition pair := ('M[K]_a * 'M[K]_b)%type.
(* one pass of the loop, without its exceptions *)
Definition pass (s : pair) : pair := let A' := gmean s.1 (MA X s.1 s.2) in (A', gmean s.2 (MB X A' s.2)).
Definition good (s : pair) := pd s.1 /\ pd s.2.
Definition kc (s : pair) : R := kron_cost X s.1^T s.2.
Definition ldA (s : pair) : R := ln (toR (\det s.1)).
Definition ldB (s : pair) : R := ln (toR (\det s.2)).
Lemma pass_good s : good s -> good (pass s).
Proof.
case: s => A B [pA pB]; have pA' : pd (gmean A (MA X A B)) by apply: gmean_pd => //; exact: MA_pd.
by split=> //; apply: gmean_pd => //; exact: MB_pd.
Qed.
Lemma kcE (A : 'M[K]_a) (B : 'M[K]_b) : pd A -> pd B -> kc (A, B) =
  N%:R * (b%:R * (ln (toR (\det A)) + a%:R / N%:R * (\sum_i ln (toR (mm_denominator X (invmx A) (invmx B) i)))) + a%:R * ln (toR (\det B))) /\
  kc (A, B) = N%:R * (a%:R * (ln (toR (\det B)) + b%:R / N%:R * (\sum_i ln (toR (mm_denominator X (invmx A) (invmx B) i)))) + b%:R * ln (toR (\det A))).
Proof.
have N1 : N%:R != 0 :> R by rewrite pnatr_eq0 -lt0n.
move=> pA pB; rewrite /kc /= kcostE // natrM; split; first exact: karith6.
rewrite [a%:R * b%:R]mulrC [b%:R * ln _ + _]addrC; exact: karith6.
Qed.
Lemma s2_close n (e : R) (A A' M G : 'M[K]_n) (s : 'rV[R]_n) : 0 < e -> A = G *m G^H -> A' = G *m dia K s *m G^H -> (forall j, 0 < s 0 j) ->
  M = G *m dia K (\row_j (s 0 j * s 0 j)) *m G^H -> \sum_j (s 0 j - 1) ^+ 2 < (e / (1 + e)) ^+ 2 -> close e A' A /\ cl e 2 M A.
Proof.
move=> e0 eA eA' s0 eM h; have e1 : 0 < 1 + e by rewrite addr_gt0 ?ltr01.
have q0 : 0 < e / (1 + e) by rewrite divr_gt0.
have sj j : `|s 0 j - 1| <= e / (1 + e).
  rewrite leNgt; apply/negP => hj; move: h; rewrite ltNge => /negP; apply; rewrite (bigD1 j) //= -[(s 0 j - 1) ^+ 2]real_normK ?num_real //.
  by apply: (@le_trans _ _ (`|s 0 j - 1| ^+ 2)); [rewrite ler_pexpn2r ?nnegrE ?normr_ge0 ?ltW|rewrite ler_addl sumr_ge0 // => *; exact: sqr_ge0].
split; first exact: (dia_close e0 eA eA' s0).
have E1 : dia K (const_mx 1) = 1%:M :> 'M_n by rewrite dia_const rmorph1.
have eS' : A = G *m dia K (const_mx 1) *m G^H by rewrite E1 mulmx1.
have sb j : s 0 j <= 1 + e /\ 1 <= (1 + e) * s 0 j.
  have := sj j; rewrite ler_norml => /andP[h1 h2]; split.
    rewrite -ler_subl_addl; apply: le_trans h2 _; rewrite ler_pdivr_mulr // ler_pemulr ?ler_addl ?ltW //.
  move: h1; rewrite ler_subr_addl; have -> : 1 - e / (1 + e) = (1 + e)^-1.
    by rewrite -{1}(divff (lt0r_neq0 e1)) -mulrBl addrK mul1r.
  by rewrite -[X in X <= _ -> _]mul1r ler_pdivr_mulr // mulrC.
apply: cl_loew; rewrite eM eS' /loewner scalemxAl scalemxAr dia_scale -mulmxBl -mulmxBr diaB; apply/psd_congr/psd_dia => j; rewrite !mxE subr_ge0; have [h1 h2] := sb j.
  by rewrite mulr1 expr2; apply: ler_pmul; rewrite ?(ltW (s0 j)).
by rewrite -[X in X <= _]mulr1 expr2 mulrACA; apply: ler_pmul; rewrite ?ler01.
Qed.
Lemma pass_drop s (e : R) : good s -> 0 < e -> let s' := pass s in
  [/\ kc s' <= kc s, ldA s' <= ldA s, ldB s' <= ldB s, ldA s - ldA s' + (ldB s - ldB s') <= kc s - kc s' &
      kc s - (e / (1 + e)) ^+ 2 < kc s' -> [/\ close e s'.1 s.1, close e s'.2 s.2, cl e 2 (MA X s.1 s.2) s.1 & cl e 2 (MB X s'.1 s.2) s.2]].
Proof.
case: s => A B gs e0; have [pA pB] := gs; have [pA' pB'] := pass_good gs; rewrite /= in pA pB pA' pB'.
move: pA' pB'; rewrite /pass /ldA /ldB /=; set A' := gmean A _; set B' := gmean B _ => pA' pB'.
have pM := MA_psd X pA pB; have pM' := MB_psd X pA' pB.
have nzc i : cell X a b i != 0 by rewrite cellE unstack_eq0.
have pos (C : 'M[K]_a) (D : 'M[K]_b) i : pd C -> pd D -> 0 < mm_denominator X (invmx C) (invmx D) i.
  by move=> pC pD; rewrite den_gt0 //; exact: pd_inv.
pose t (C : 'M[K]_a) (D : 'M[K]_b) (i : 'I_N) : R := toR (mm_denominator X (invmx C) (invmx D) i).
have t0 C D i : pd C -> pd D -> 0 < t C D i by move=> pC pD; apply: toR_gt0; exact: pos.
have tE (C : 'M[K]_a) (D : 'M[K]_b) i : pd C -> pd D -> ofR (t C D i) = mm_denominator X (invmx C) (invmx D) i.
  by move=> pC pD; rewrite /t ofR_toR_ge0 //; apply/ltW/pos.
have trB (C : 'M[K]_a) (D : 'M[K]_b) i : \tr (invmx D *m mm_numerator_B b X (invmx C) i) = mm_denominator X (invmx C) (invmx D) i.
  by rewrite /mm_denominator /mm_numerator_B /mm_numerator -!mulmxA mxtrace_mulC -!mulmxA mxtrace_mulC -!mulmxA.
have eMB : MB X A' B = \sum_i (b%:R / N%:R) *: ((\tr (invmx B *m mm_numerator_B b X (invmx A') i))^-1 *: mm_numerator_B b X (invmx A') i).
  by apply: eq_bigr => i _; rewrite trB.
have [G [s [eA eA' [s0 eM] [dA lA] [h1 h2]]]] := half_gap pA pM N0 (fun i => t0 A B i pA pB) (fun i => t0 A' B i pA' pB)
   (fun i => esym (tE A B i pA pB)) (fun i => esym (tE A' B i pA' pB)) erefl pA'.
have [H [r [eB eB' [r0 eM'] [dB lB] [k1 k2]]]] := half_gap pB pM' N0 (fun i => t0 A' B i pA' pB) (fun i => t0 A' B' i pA' pB')
   (fun i => etrans (trB A' B i) (esym (tE A' B i pA' pB))) (fun i => etrans (trB A' B' i) (esym (tE A' B' i pA' pB'))) eMB pB'.
have [c1 _] := kcE pA pB; have [c2 c2'] := kcE pA' pB; have [_ c3] := kcE pA' pB'.
move: h1 h2 k1 k2; rewrite -/A' -/B' => h1 h2 k1 k2.
have ss0 : 0 <= \sum_j (s 0 j - 1) ^+ 2 by apply: sumr_ge0 => j _; exact: sqr_ge0.
have rr0 : 0 <= \sum_j (r 0 j - 1) ^+ 2 by apply: sumr_ge0 => j _; exact: sqr_ge0.
have dA' : ln (toR (\det A')) <= ln (toR (\det A)) by rewrite -dA ger_addl.
have dB' : ln (toR (\det B')) <= ln (toR (\det B)) by rewrite -dB ger_addl.
have d1 := karith7 N0 b0 c1 c2 h1 ss0; have d2 := karith7 N0 a0 c2' c3 k1 rr0.
have d3 := karith8 N0 b0 c1 c2 h2 dA'; have d4 := karith8 N0 a0 c2' c3 k2 dB'.
split=> //.
- by move: d1 d2 ss0 rr0; clear; move: (\sum_j _) (\sum_j _) (kc _) (kc _) (kc _) => u v x y z h1 h2 h3 h4; rlra2.
- by move: d3 d4; clear; move: (kc _) (kc _) (kc _) (ln _) (ln _) (ln _) (ln _) => x y z u v w l h1 h2; rlra2.
move=> lt; have [h3 h4] : \sum_j (s 0 j - 1) ^+ 2 < (e / (1 + e)) ^+ 2 /\ \sum_j (r 0 j - 1) ^+ 2 < (e / (1 + e)) ^+ 2.
  by move: lt d1 d2 ss0 rr0; clear; move: (\sum_j _) (\sum_j _) (kc _) (kc _) (kc _) (_ ^+ _) => u v x y z w h1 h2 h3 h4 h5; split; rlra2.
have [q1 q2] := s2_close e0 eA eA' s0 eM h3; have [q3 q4] := s2_close e0 eB eB' r0 eM' h4.
by split.
Qed.
End Pass.
