(* Stable samples: the minimiser is unique up to scale and the passes of the MM algorithm converge. *)
From Coq Require Import Reals Lra Classical_Prop Epsilon.
From mathcomp Require Import all_ssreflect all_algebra.
From mathcomp Require Import mxtens.
From Verif Require Import RealsMC RealTac RealTac2 Star FunCalc Spec_covariance Proofs_mest Proofs_cost Proofs_unique Proofs_unique2 Model_structured Proofs_structured Props_structured
  Compact Proofs_converge Props_converge Proofs_exist2 Spec_kron Proofs_kron Proofs_kron1 Proofs_kron2 Proofs_kron3 Proofs_kron4 Proofs_kron5 Proofs_kron6.
Set Implicit Arguments.
Unset Strict Implicit.
Unset Printing Implicit Defensive.
Local Open Scope ring_scope.
Import GRing.Theory Num.Theory Order.TTheory.

Lemma karith15 (x y m n l : R) : x + y = l -> x - m + (y - n) = l - (m + n). Proof. by move=> <-; rring. Qed.
Lemma karith16 (x y m n l : R) : x + y = l -> - (x - m) + - (y - n) = - (l - (m + n)). Proof. by move=> <-; rring. Qed.
Lemma sum_centered n (d : 'rV[R]_n) : (0 < n)%N -> \sum_j (ln (d 0 j) - (\sum_j ln (d 0 j)) / n%:R) = 0.
Proof.
move=> n0; rewrite sumrB sumr_const card_ord -[_ *+ n]mulr_natl mulrCA divff ?mulr1 ?subrr //.
by rewrite pnatr_eq0 -lt0n.
Qed.

Section Unique.
Variable K : starField.
Local Notation ofR := (@ofR K).
Local Notation toR := (@toR K).
Local Notation "A ^H" := (adj A) (at level 8, format "A ^H").
Variables (N a b : nat) (X : 'M[K]_(N, a * b)).
Hypotheses (nz : nonzero_samples X) (N0 : (0 < N)%N) (a0 : (0 < a)%N) (b0 : (0 < b)%N).
Hypothesis st : kron_stable X.
Lemma const_dia n (d : 'rV[R]_n) (G P P' : 'M[K]_n) (m : R) : P = G *m G^H -> P' = G *m dia K d *m G^H -> (forall j, 0 < d 0 j) ->
  (forall j, ln (d 0 j) = m) -> P' = ofR (exp m) *: P.
Proof.
move=> -> -> d0 h; have -> : d = const_mx (exp m) by apply/rowP => j; rewrite mxE -(h j) exp_lnR.
by rewrite dia_const mul_mx_scalar -scalemxAl.
Qed.
Lemma stable_unique A B P' B' : pd A -> pd B -> MA X A B = A -> MB X A B = B -> pd P' -> pd B' -> kron_cost X P' B' <= kron_cost X A^T B ->
  (exists2 c : R, 0 < c & P' = ofR c *: A^T) /\ (exists2 c : R, 0 < c & B' = ofR c *: B).
Proof.
move=> pA pB fA fB pP' pB' le.
have [G [H [d [e [[uG eP] [uH eB] [eP' d0] [eB' e0] hl]]]]] := fixed_equal nz N0 a0 b0 pA pB fA fB pP' pB' le.
pose m := (\sum_j ln (d 0 j)) / a%:R; pose n := (\sum_k ln (e 0 k)) / b%:R.
pose al j := ln (d 0 j) - m; pose be k := ln (e 0 k) - n.
have sa : \sum_j al j = 0 by exact: sum_centered.
have sb : \sum_k be k = 0 by exact: sum_centered.
have [z|z] := classic ((exists j, al j != 0) \/ (exists k, be k != 0)); last first.
  split.
    exists (exp m); [exact: expR_gt0|apply: (const_dia eP eP' d0) => j].
    by apply/eqP; rewrite -subr_eq0; apply: contraT => h; case: z; left; exists j.
  exists (exp n); [exact: expR_gt0|apply: (const_dia eB eB' e0) => j].
  by apply/eqP; rewrite -subr_eq0; apply: contraT => h; case: z; right; exists j.
have [l hl'] : exists l : 'I_N -> R, forall i j k, kcoord X G H i j k != 0 -> ln (d 0 j) + ln (e 0 k) = l i.
  have Q i : exists x : R, forall j k, kcoord X G H i j k != 0 -> ln (d 0 j) + ln (e 0 k) = x.
    by have [x x0 hx] := hl i; exists (ln x) => j k h; rewrite -lnM // hx.
  exists (fun i => epsilon (inhabits 0) (fun x : R => forall j k, kcoord X G H i j k != 0 -> ln (d 0 j) + ln (e 0 k) = x)) => i j k; exact: (epsilon_spec (inhabits 0) _ (Q i)).
have [c hc lt] := st uG uH sa sb z.
have sa' : \sum_j - al j = 0 by rewrite sumrN sa oppr0.
have sb' : \sum_k - be k = 0 by rewrite sumrN sb oppr0.
have z' : (exists j, - al j != 0) \/ (exists k, - be k != 0) by case: z => -[j h]; [left|right]; exists j; rewrite oppr_eq0.
have [c' hc' lt'] := st uG uH sa' sb' z'.
move: lt lt'; rewrite (eq_bigr (fun i => l i - (m + n))) => [lt|i _]; last exact: karith15 (hl' _ _ _ (hc i)).
rewrite (eq_bigr (fun i => - (l i - (m + n)))) => [|i _]; last exact: karith16 (hl' _ _ _ (hc' i)).
by rewrite sumrN oppr_lt0 => h; have := lt_trans lt h; rewrite ltxx.
Qed.
End Unique.

Section Converge.
Variable K : starField.
Local Notation ofR := (@ofR K).
Local Notation toR := (@toR K).
Local Notation "A ^H" := (adj A) (at level 8, format "A ^H").
Hypothesis cK : compactK K.
Variables (N a b : nat) (X : 'M[K]_(N, a * b)).
Hypotheses (nz : nonzero_samples X) (N0 : (0 < N)%N) (a0 : (0 < a)%N) (b0 : (0 < b)%N).
Hypothesis st : kron_stable X.
Variable s0 : pair K a b.
Hypothesis g0 : good s0.
Local Notation s k := (iter k (pass X) s0).
Let sc := (stable_spans cK nz N0 a0 b0 st).1.
Let sr := (stable_spans cK nz N0 a0 b0 st).2.
Lemma gs k : good (s k). Proof. by elim: k => //= k; exact: (pass_good nz sc sr). Qed.
Lemma iter_bands : exists2 l : R, 0 < l & forall k, inband l (s k).1 /\ inband l (s k).2.
Proof.
have [m hm] := bounded_below cK nz a0 b0 st.
pose D := `|ldA s0| + `|ldB s0| + (kc X s0 - m).
have [l l0 hl] := bands cK nz a0 b0 st (kc X s0) D; exists l => // k.
have [h1 h2 h3 h4] : [/\ kc X (s k) <= kc X s0, ldA (s k) <= ldA s0, ldB (s k) <= ldB s0 & ldA s0 - ldA (s k) + (ldB s0 - ldB (s k)) <= kc X s0 - kc X (s k)].
  elim: k => [|k [h1 h2 h3 h4]]; first by rewrite /= !subrr addr0.
  have [k1 k2 k3 k4 _] := pass_drop nz sc sr N0 a0 b0 (gs k) ltr01.
  split; [exact: le_trans k1 h1|exact: le_trans k2 h2|exact: le_trans k3 h3|].
  move: h4 k4 => /=; move: (kc _ _) (kc _ _) (kc _ _) (ldA _) (ldA _) (ldA _) (ldB _) (ldB _) (ldB _) => x y z u v w x1 x2 x3 e1 e2; rlra2.
have [pA pB] := gs k; have := karith12 h4 h2 h3 (hm _ _ (tr_pd pA) pB) => -[d1 d2]; exact: (hl _ _ pA pB h1 d1 d2).
Qed.
Definition clusters L M := [/\ pd L, pd M & forall (e : R) k0, 0 < e -> exists k, [/\ (k0 <= k)%N, close e (s k).1 L & close e (s k).2 M]].
Lemma cluster_fixed L M : clusters L M -> MA X L M = L /\ MB X L M = M.
Proof.
move=> [pL pM hc]; have [m hm] := bounded_below cK nz a0 b0 st.
have H (f : R) : 0 < f -> exists k, [/\ close f (s k).1 L, close f (s k).2 M & [/\ close f (s k.+1).1 (s k).1, cl f 2 (MA X (s k).1 (s k).2) (s k).1 & cl f 2 (MB X (s k.+1).1 (s k).2) (s k).2]].
  move=> f0; have dl : 0 < (f / (1 + f)) ^+ 2 by rewrite exprn_gt0 // divr_gt0 // addr_gt0 ?ltr01.
  have [k0 hk] := @drops (fun k => kc X (s k)) m _ (fun k => let: And5 h _ _ _ _ := pass_drop nz sc sr N0 a0 b0 (gs k) ltr01 in h)
     (fun k => let: conj pA pB := gs k in hm _ _ (tr_pd pA) pB) dl.
  have [k [kk c1 c2]] := hc f k0 f0; exists k; have [_ _ _ _] := pass_drop nz sc sr N0 a0 b0 (gs k) f0.
  by move=> /(_ (hk k kk)) [h1 _ h2 h3]; split.
split; apply/esym; apply: cl_eq => //.
- exact: MA_pd.
- move=> f f0; have [k [c1 c2 [_ h _]]] := H f f0; have [pA pB] := gs k.
  have h' := MA_cl nz (ltW f0) pA pL pB pM (cl1 c1) (cl1 c2).
  exact: cl_trans (ltW f0) (cl_trans (ltW f0) (cl_sym (cl1 c1)) (cl_sym h)) h'.
- exact: MB_pd.
move=> f f0; have [k [c1 c2 [h0 _ h]]] := H f f0; have [pA pB] := gs k; have [pA' _] := gs k.+1.
have h' := MB_cl nz (ltW f0) pA' pL pB pM (cl_trans (ltW f0) (cl1 h0) (cl1 c1)) (cl1 c2).
exact: cl_trans (ltW f0) (cl_trans (ltW f0) (cl_sym (cl1 c2)) (cl_sym h)) h'.
Qed.
Lemma det_clusters L M L' M' : clusters L M -> clusters L' M' -> ldA (L, M) <= ldA (L', M') /\ ldB (L, M) <= ldB (L', M').
Proof.
move=> [pL pM hc] [pL' pM' hc'].
have mono k n : ldA (s (n + k)) <= ldA (s k) /\ ldB (s (n + k)) <= ldB (s k).
  elim: n => // n [h1 h2]; have [_ k2 k3 _ _] := pass_drop nz sc sr N0 a0 b0 (gs (n + k)) ltr01.
  by split; [exact: le_trans k2 h1|exact: le_trans k3 h2].
have ln1f (f : R) : 0 < f -> ln (1 + f) <= f.
  by move=> f0; rewrite (le_trans (ln_le_sub1 _)) ?addr_gt0 ?ltr01 // addrAC subrr add0r.
have H (f : R) : 0 < f -> ldA (L, M) <= ldA (L', M') + 2%:R * a%:R * f /\ ldB (L, M) <= ldB (L', M') + 2%:R * b%:R * f.
  move=> f0; have f1 : 0 < 1 + f by rewrite addr_gt0 ?ltr01.
  have [k [_ c1 c2]] := hc' f 0%N f0; have [k' [kk c3 c4]] := hc f k f0.
  have [pA pB] := gs k; have [pA' pB'] := gs k'; have [m1 m2] := mono k (k' - k)%N; rewrite subnK // in m1 m2.
  have lf p : p%:R * ln (1 + f) <= p%:R * f by apply: ler_wpmul2l; [exact: ler0n|exact: ln1f].
  split.
    apply: karith13 m1 _; rewrite /ldA.
      by apply: le_trans (ln_det_le pL pA' f1 c3.2) _; rewrite ler_add2r.
    by apply: le_trans (ln_det_le pA pL' f1 c1.1) _; rewrite ler_add2r.
  apply: karith13 m2 _; rewrite /ldB.
    by apply: le_trans (ln_det_le pM pB' f1 c4.2) _; rewrite ler_add2r.
  by apply: le_trans (ln_det_le pB pM' f1 c2.1) _; rewrite ler_add2r.
have p0 n : 0 <= 2%:R * n%:R :> R by rewrite mulr_ge0 ?ler0n.
by split; [apply: (le_eps (p0 a)) => f f0|apply: (le_eps (p0 b)) => f f0]; have [] := H f f0.
Qed.
Lemma scaled_det n (L L' : 'M[K]_n) (c : R) : (0 < n)%N -> 0 < c -> pd L -> L' = ofR c *: L -> ln (toR (\det L)) = ln (toR (\det L')) -> L' = L.
Proof.
move=> n0 c0 pL -> ; rewrite detZ -rmorphX toRZ lnM ?exprn_gt0 ?toR_gt0 ?det_pd // lnX // => /eqP.
rewrite -subr_eq0 opprD addrCA subrr addr0 oppr_eq0 mulf_eq0 pnatr_eq0 -[n == 0%N]negbK -lt0n n0 /= => /eqP h.
by rewrite -[c]exp_lnR // h exp0R rmorph1 scale1r.
Qed.
Lemma cluster_uniq L M L' M' : clusters L M -> clusters L' M' -> L' = L /\ M' = M.
Proof.
move=> c1 c2; have [h1 h2] := det_clusters c1 c2; have [h3 h4] := det_clusters c2 c1.
have [fA fB] := cluster_fixed c1; have [fA' fB'] := cluster_fixed c2.
have [pL pM _] := c1; have [pL' pM' _] := c2.
have [_ _ mi] := fixed_min nz N0 pL' pM' fA' fB'.
have [[c p0 eP] [d d0 eB]] := stable_unique nz N0 a0 b0 st pL pM fA fB (tr_pd pL') pM' (mi _ _ (tr_pd pL) pM).
split; last by apply: (scaled_det b0 d0 pM eB); apply/eqP; rewrite eq_le; apply/andP.
apply: (scaled_det a0 p0 pL); last by apply/eqP; rewrite eq_le; apply/andP.
by rewrite -[L']trmxK eP linearZ /= trmxK.
Qed.
Lemma pass_converges : exists L M, [/\ pd L, pd M, MA X L M = L /\ MB X L M = M &
  forall e : R, 0 < e -> exists k0, forall k, (k0 <= k)%N -> close e (s k).1 L /\ close e (s k).2 M].
Proof.
have [l l0 hl] := iter_bands.
have cl2 (phi : nat -> nat) : exists L M, [/\ pd L, pd M & forall (e : R) k0, 0 < e -> exists k, [/\ (k0 <= k)%N, close e (s (phi k)).1 L & close e (s (phi k)).2 M]].
  apply: (cluster2 (s := fun k => (s (phi k)).1) (t := fun k => (s (phi k)).2) cK l0) => k; have [pA pB] := gs (phi k); have [[? ?] [? ?]] := hl (phi k) => //; exact: pd_herm.
have [L [M c1]] := cl2 id; have [pL pM _] := c1; exists L, M; split=> //; first exact: cluster_fixed.
move=> e e0; apply: NNPP => h.
have [phi H] : exists phi, forall k, (k <= phi k)%N /\ ~ (close e (s (phi k)).1 L /\ close e (s (phi k)).2 M).
  exists (fun k => epsilon (inhabits 0%N) (fun k' => (k <= k')%N /\ ~ (close e (s k').1 L /\ close e (s k').2 M))) => k.
  apply: (epsilon_spec (inhabits 0%N) (fun k' => (k <= k')%N /\ ~ (close e (s k').1 L /\ close e (s k').2 M))).
  apply: NNPP => h'; apply: h; exists k => k' kk; apply: NNPP => h2; apply: h'; by exists k'.
have [L' [M' [pL' pM' c2]]] := cl2 phi.
have c2' : clusters L' M'.
  split=> // f k0 f0; have [k [kk h1 h2]] := c2 f k0 f0; exists (phi k); split=> //; exact: leq_trans kk (H k).1.
have [eL eM] := cluster_uniq c1 c2'; rewrite eL eM in c2.
have [k [_ h1 h2]] := c2 e 0%N e0; by have [_] := H k; apply.
Qed.
End Converge.
