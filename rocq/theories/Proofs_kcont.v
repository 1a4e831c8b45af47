(* Tyler's cost over Kronecker products when the samples move a little.  Nothing here models code. *)
From Coq Require Import Reals Lra Classical_Prop Epsilon.
From mathcomp Require Import all_ssreflect all_algebra.
From mathcomp Require Import mxtens.
From Verif Require Import RealsMC RealTac RealTac2 Star FunCalc Spec_covariance Spec_fixedpoint Spec_breakdown Proofs_mest Proofs_cost Proofs_unique Proofs_unique2 Proofs_structured Props_structured
  Compact Proofs_converge Props_cost Props_converge Proofs_exist2 Spec_kron Proofs_kron Proofs_kron1 Proofs_kron2 Proofs_kron3 Proofs_kron4 Proofs_kron5 Proofs_kron6 Proofs_kron7 Proofs_kron8
  Proofs_breakdown Proofs_stable Proofs_stable2 Proofs_tycont Props_tycont Proofs_deriv.
Set Implicit Arguments.
Unset Strict Implicit.
Unset Printing Implicit Defensive.
Local Open Scope ring_scope.
Import GRing.Theory Num.Theory Order.TTheory.

Section Moving.
Variable K : starField.
Local Notation ofR := (@ofR K).
Local Notation toR := (@toR K).
Local Notation "A ^H" := (adj A) (at level 8, format "A ^H").
Hypothesis cK : compactK K.
Variables (N a b : nat) (X : 'M[K]_(N, a * b)).
Hypotheses (nz : nonzero_samples X) (N0 : (0 < N)%N) (a0 : (0 < a)%N) (b0 : (0 < b)%N).
Hypothesis st : kron_stable X.
(* unitary bases and weights for samples that tend to stable samples have a common choice of coordinates *)
Lemma direction (Y : nat -> 'M[K]_(N, a * b)) (U : nat -> 'M[K]_a) (W : nat -> 'M[K]_b) (al : nat -> 'rV[R]_a) (be : nat -> 'rV[R]_b) :
  cvgm Y X -> (forall n, unitary (U n)) -> (forall n, unitary (W n)) -> (forall n, \sum_j al n 0 j = 0) -> (forall n, \sum_k be n 0 k = 0) ->
  (forall n, 0 < size (al n) (be n)) ->
  exists (f : nat -> nat) (ch : 'I_N -> 'I_a * 'I_b) (om : 'I_N -> R) (y : R), [/\ later f, 0 < y, forall i, 0 < om i &
    exists k0, forall k, (k0 <= k)%N -> (forall i, om i <= sq (kcoord (Y (f k)) (U (f k)) (W (f k)) i (ch i).1 (ch i).2)) /\
      \sum_i (al (f k) 0 (ch i).1 + be (f k) 0 (ch i).2) <= - (size (al (f k)) (be (f k)) * y)].
Proof.
move=> cY hU hW hsa hsb m0.
pose m n := size (al n) (be n); have {}m0 n : 0 < m n by exact: m0.
have [f1 [U' [l1 cU]]] : exists f L, later f /\ cvgm (U \o f) L.
  by apply: (compact_sub cK (M := a%:R)) => k; rewrite unitary_fro2.
have [f2 [W' [l2 cW]]] : exists f L, later f /\ cvgm (W \o f1 \o f) L.
  by apply: (compact_sub cK (M := b%:R)) => k; rewrite unitary_fro2 //=.
pose v n (t : 'I_a + 'I_b) : R := match t with inl j => al n 0 j / m n | inr k => be n 0 k / m n end.
have [f3 [v' [l3 cv]]] : exists f l, later f /\ forall t, tends (fun k => v (f1 (f2 (f k))) t) (l t).
  apply: (@bw_fin _ (fun k => v (f1 (f2 k))) 1) => k t; move: (f1 (f2 k)) => n.
  have aux (x : R) : `|x| <= m n -> `|x / m n| <= 1 by move=> h; rewrite normrM normfV (gtr0_norm (m0 n)) ler_pdivr_mulr // mul1r.
  have pS (I : finType) (F : I -> R) i : `|F i| <= \sum_i `|F i| by rewrite (bigD1 i) //= ler_addl sumr_ge0.
  case: t => [j|k'] /=; apply: aux; rewrite /m /size.
    by apply: le_trans (pS _ (fun j => al n 0 j) j) _; rewrite ler_addl sumr_ge0.
  by apply: le_trans (pS _ (fun j => be n 0 j) k') _; rewrite ler_addr sumr_ge0.
pose f k := f1 (f2 (f3 k)); have lf : later f by move=> k; apply: leq_trans (l3 k) (leq_trans (l2 _) (l1 _)).
have l23 : later (f2 \o f3) by move=> k; exact: leq_trans (l3 k) (l2 _).
have {}cU : cvgm (U \o f) U' by exact: (cvgm_sub l23 cU).
have {}cW : cvgm (W \o f) W' by exact: (cvgm_sub l3 cW).
have {}cY : cvgm (Y \o f) X by exact: (cvgm_sub lf cY).
have hU' : unitary U' by apply: (unitary_lim _ cU) => k; exact: hU.
have hW' : unitary W' by apply: (unitary_lim _ cW) => k; exact: hW.
have uU' := unitary_unit hU'; have uW' := unitary_unit hW'.
have {}cv t : tends (fun k => v (f k) t) (v' t) by exact: cv.
have sa : \sum_j v' (inl j) = 0.
  apply: (tends_uniq (tends_sum (fun j => cv (inl j)))); apply: tends_ext (tends_const 0) => k /=.
  by rewrite -mulr_suml hsa mul0r.
have sb : \sum_k v' (inr k) = 0.
  apply: (tends_uniq (tends_sum (fun j => cv (inr j)))); apply: tends_ext (tends_const 0) => k /=.
  by rewrite -mulr_suml hsb mul0r.
have s1 : \sum_j `|v' (inl j)| + \sum_k `|v' (inr k)| = 1.
  have t1 := tendsD (tends_sum (fun j => tends_abs (cv (inl j)))) (tends_sum (fun j => tends_abs (cv (inr j)))).
  apply: (tends_uniq t1); apply: tends_ext (tends_const 1) => k /=; move: (f k) => n; have mm := m0 n.
  have ab x : `|x / m n| = `|x| / m n by rewrite normrM normfV (gtr0_norm mm).
  rewrite (eq_bigr _ (fun j _ => ab _)) [in X in _ = _ + X](eq_bigr _ (fun j _ => ab _)) -!mulr_suml -mulrDl.
  by rewrite divff // gt_eqF.
have nz0 : (exists j, v' (inl j) != 0) \/ (exists k, v' (inr k) != 0).
  apply: NNPP => h; have := s1; rewrite !big1 ?addr0 => [/eqP|k _|j _]; first by rewrite eq_sym oner_eq0.
    by apply/eqP; rewrite normr_eq0; apply: contraT => n0; case: h; right; exists k.
  by apply/eqP; rewrite normr_eq0; apply: contraT => n0; case: h; left; exists j.
have [ch hc neg] := st (al := fun j => v' (inl j)) (be := fun k => v' (inr k)) uU' uW' sa sb nz0.
have kE Z U1 W1 i j k : unitary U1 -> unitary W1 -> kcoord Z U1 W1 i j k = ((U1 *t W1)^H *m samp Z i) (mxtens_index (j, k)) 0.
  by move=> h1 h2; rewrite /kcoord unitary_inv //; exact: unitary_tens.
have cS i : cvgm (fun k => samp (Y (f k)) i) (samp X i).
  by move=> j j'; have -> : samp X i j j' = X i j by [rewrite !mxE]; apply: cvg_ext (cY i j) => k; rewrite /samp !mxE.
have ck i : cvg (fun k => kcoord (Y (f k)) (U (f k)) (W (f k)) i (ch i).1 (ch i).2) (kcoord X U' W' i (ch i).1 (ch i).2).
  rewrite kE //; have := cvgm_mul (cvgm_adj (cvgm_tens cU cW)) (cS i) => /(_ (mxtens_index ((ch i).1, (ch i).2)) 0).
  by apply: cvg_ext => k; rewrite kE.
pose om i := sq (kcoord X U' W' i (ch i).1 (ch i).2) / 4%:R.
have om0 i : 0 < om i by rewrite divr_gt0 ?ltr0n // lt_def sq_ge0 andbT; apply: contraNneq (hc i) => /sq_eq0 ->.
have [k1 hk1] : exists k0, forall k, (k0 <= k)%N -> forall i, om i <= sq (kcoord (Y (f k)) (U (f k)) (W (f k)) i (ch i).1 (ch i).2).
  have ev i := cvg_neq0 (ck i) (hc i).
  pose g i := epsilon (inhabits 0%N) (fun k0 => forall k, (k0 <= k)%N -> om i <= sq (kcoord (Y (f k)) (U (f k)) (W (f k)) i (ch i).1 (ch i).2)).
  have hg i := epsilon_spec (inhabits 0%N) _ (ev i).
  by exists (\max_i g i) => k kk i; apply: (hg i); apply: leq_trans kk; exact: (leq_bigmax i).
pose S := \sum_i (v' (inl (ch i).1) + v' (inr (ch i).2)).
have S2 : S < S / 2%:R by rewrite ltr_pdivl_mulr ?ltr0n // mulr_natr mulr2n gtr_addl.
have tS := tends_sum (fun i => tendsD (cv (inl (ch i).1)) (cv (inr (ch i).2))).
have [k2 hk2] := tends_lt tS S2.
exists f, ch, om, (- (S / 2%:R)); split=> //.
  by rewrite oppr_gt0 pmulr_llt0 ?invr_gt0 ?ltr0n.
exists (maxn k1 k2) => k; rewrite geq_max => /andP[kk1 kk2]; split; first exact: hk1.
have -> : \sum_i (al (f k) 0 (ch i).1 + be (f k) 0 (ch i).2) = m (f k) * \sum_i (v (f k) (inl (ch i).1) + v (f k) (inr (ch i).2)).
  rewrite mulr_sumr; apply: eq_bigr => i _ /=; rewrite -mulrDl mulrC divfK // gt_eqF //.
by rewrite mulrN opprK -/(m _) ler_pmul2l //; exact/ltW/hk2.
Qed.
(* a property that fails arbitrarily near the samples fails along a sequence *)
Lemma near_seq (P : nat -> 'M[K]_(N, a * b) -> Prop) : (forall n, ~ near_data X (P n)) -> exists2 Y : nat -> 'M[K]_(N, a * b), cvgm Y X & forall n, ~ P n (Y n).
Proof.
move=> no; have ex n : exists Y, fro2 (Y - X) <= eps n /\ ~ P n Y.
  by apply: NNPP => h; apply: (no n); exists (eps n); [exact: eps_gt0|move=> Y hY; apply: NNPP => nP; apply: h; exists Y].
have [Y hY] := fchoice X ex; exists Y => [|n]; last by case: (hY n).
move=> i j; apply/cvgP => e e0; have [k0 hk] := tends_eps 1 e0; exists k0 => k /hk; rewrite subr0 mul1r => h.
apply: le_trans (le_trans (ler_norm _) h); apply: (@le_trans _ _ (fro2 (Y k - X))); last by case: (hY k).
have -> : Y k i j - X i j = (Y k - X) i j by rewrite !mxE.
rewrite fro2E (bigD1 i) //= (bigD1 j) //= -addrA ler_addl; apply: addr_ge0; first by apply: sumr_ge0 => ? _; exact: sq_ge0.
by apply: sumr_ge0 => ? _; apply: sumr_ge0 => ? _; exact: sq_ge0.
Qed.
Definition bounded_by (c l : R) (Y : 'M[K]_(N, a * b)) := forall (U : 'M[K]_a) (W : 'M[K]_b) (al : 'rV[R]_a) (be : 'rV[R]_b), unitary U -> unitary W ->
  \sum_j al 0 j = 0 -> \sum_k be 0 k = 0 -> kron_cost Y (spec U al) (spec W be) <= c -> size al be <= l.
Lemma near_bounded (c : R) : exists l : R, near_data X (bounded_by c l).
Proof.
apply: NNPP => nl; have [Y cY hY] : exists2 Y, cvgm Y X & forall n, ~ bounded_by c n.+1%:R (Y n).
  by apply: (near_seq (P := fun n => bounded_by c n.+1%:R)) => n h; apply: nl; exists n.+1%:R.
pose T : Type := ('M[K]_a * 'M[K]_b * 'rV[R]_a * 'rV[R]_b)%type.
pose Q (n : nat) (x : T) := [/\ unitary x.1.1.1 /\ unitary x.1.1.2, \sum_j x.1.2 0 j = 0, \sum_k x.2 0 k = 0,
  kron_cost (Y n) (spec x.1.1.1 x.1.2) (spec x.1.1.2 x.2) <= c & n.+1%:R < size x.1.2 x.2].
have exQ n : exists x, Q n x.
  apply: NNPP => h; apply: (hY n) => U W al be hU hW sa sb hc; rewrite leNgt; apply/negP => lt; apply: h; by exists (U, W, al, be).
have [s hs] := fchoice ((1%:M, 1%:M, 0, 0) : T) exQ.
have m0 n : 0 < size (s n).1.2 (s n).2 by case: (hs n) => _ _ _ _; apply: lt_trans; rewrite ltr0n.
have mn n : n%:R <= size (s n).1.2 (s n).2 by case: (hs n) => _ _ _ _ h; apply: le_trans (ltW h); rewrite ler_nat.
have hu n : unitary (s n).1.1.1 by case: (hs n) => -[].
have hw n : unitary (s n).1.1.2 by case: (hs n) => -[].
have ha n : \sum_j (s n).1.2 0 j = 0 by case: (hs n).
have hb n : \sum_k (s n).2 0 k = 0 by case: (hs n).
have [f [ch [om [y [lf y0 om0 [k0 hk]]]]]] := direction cY hu hw ha hb m0.
apply: (@unbounded_absurd (\sum_i ln (om i)) y (c / (a * b)%:R) k0 y0).
move=> k /hk [h1 h2]; rewrite ler_pdivl_mulr ?ltr0n ?muln_gt0 ?a0 // mulrC.
have [[hU hW] sak sbk le _] := hs (f k); apply: le_trans le; apply: le_trans (spec_cost hU hW sak sbk om0 h1).
apply: ler_wpmul2l; first exact: ler0n.
rewrite ler_add2l; rewrite -[X in X <= _]opprK ler_opp2; apply: le_trans h2 _; rewrite ler_opp2; apply: ler_wpmul2r; first exact: ltW.
by apply: le_trans (mn _); rewrite ler_nat.
Qed.
(* it is enough to look at unitary bases *)
Lemma unitary_stable (Y : 'M[K]_(N, a * b)) : (forall (U : 'M[K]_a) (W : 'M[K]_b) (al : 'rV[R]_a) (be : 'rV[R]_b), unitary U -> unitary W ->
  \sum_j al 0 j = 0 -> \sum_k be 0 k = 0 -> 0 < size al be ->
  exists2 c : 'I_N -> 'I_a * 'I_b, forall i, kcoord Y U W i (c i).1 (c i).2 != 0 & \sum_i (al 0 (c i).1 + be 0 (c i).2) < 0) -> kron_stable Y.
Proof.
move=> h G H al be uG uH sa sb z.
have [G' [uG' eG oG]] := factor_order al (pd1 K a) uG; have [H' [uH' eH oH]] := factor_order be (pd1 K b) uH.
have hG : unitary G' by rewrite /unitary; apply: mulmx1C.
have hH : unitary H' by rewrite /unitary; apply: mulmx1C.
have [|||mu hm lt] := h G' H' (\row_j al j) (\row_k be k) hG hH.
- by rewrite -[RHS]sa; apply: eq_bigr => j _; rewrite mxE.
- by rewrite -[RHS]sb; apply: eq_bigr => j _; rewrite mxE.
- rewrite lt_def size_ge0 andbT; apply/negP => /eqP z0; have [h1 h2] := size_coord (eq_ind_r (fun x => x <= 0) (lexx 0) z0).
  case: z => -[j] /eqP; apply; apply/eqP; rewrite -normr_le0; [have := h1 j | have := h2 j]; by rewrite mxE.
have [c hc] : exists c : 'I_N -> 'I_a * 'I_b, forall i, kcoord Y G H i (c i).1 (c i).2 != 0 /\ al (c i).1 + be (c i).2 <= al (mu i).1 + be (mu i).2.
  have Q i : exists x : 'I_a * 'I_b, kcoord Y G H i x.1 x.2 != 0 /\ al x.1 + be x.2 <= al (mu i).1 + be (mu i).2.
    have [j [k [h1 h2 h3]]] := kcoord_order uG uH uG' uH' (hm i); exists (j, k); split=> //=; apply: ler_add; [exact: oG|exact: oH].
  pose x0 : 'I_a * 'I_b := (Ordinal a0, Ordinal b0).
  exists (fun i => epsilon (inhabits x0) (fun x => kcoord Y G H i x.1 x.2 != 0 /\ al x.1 + be x.2 <= al (mu i).1 + be (mu i).2)) => i.
  exact: (epsilon_spec (inhabits x0) _ (Q i)).
exists c; first by move=> i; exact: (hc i).1.
apply: le_lt_trans lt; apply: ler_sum => i _; rewrite !mxE; exact: (hc i).2.
Qed.
Lemma near_stable : near_data X (@kron_stable K N a b).
Proof.
apply: NNPP => no; have [Y cY hY] := near_seq (fun=> no).
pose T : Type := ('M[K]_a * 'M[K]_b * 'rV[R]_a * 'rV[R]_b)%type.
pose Q (n : nat) (x : T) := [/\ unitary x.1.1.1 /\ unitary x.1.1.2, \sum_j x.1.2 0 j = 0, \sum_k x.2 0 k = 0,
  0 < size x.1.2 x.2 & forall c : 'I_N -> 'I_a * 'I_b, (forall i, kcoord (Y n) x.1.1.1 x.1.1.2 i (c i).1 (c i).2 != 0) -> 0 <= \sum_i (x.1.2 0 (c i).1 + x.2 0 (c i).2)].
have exQ n : exists x, Q n x.
  apply: NNPP => h; apply: (hY n); apply: unitary_stable => U W al be hU hW sa sb z; apply: NNPP => nc; apply: h; exists (U, W, al, be); split=> // c hc /=.
  by rewrite leNgt; apply/negP => lt; apply: nc; exists c.
have [s hs] := fchoice ((1%:M, 1%:M, 0, 0) : T) exQ.
have m0 n : 0 < size (s n).1.2 (s n).2 by case: (hs n).
have hu n : unitary (s n).1.1.1 by case: (hs n) => -[].
have hw n : unitary (s n).1.1.2 by case: (hs n) => -[].
have ha n : \sum_j (s n).1.2 0 j = 0 by case: (hs n).
have hb n : \sum_k (s n).2 0 k = 0 by case: (hs n).
have [f [ch [om [y [lf y0 om0 [k0 hk]]]]]] := direction cY hu hw ha hb m0.
have [h1 h2] := hk k0 (leqnn _); have [_ _ _ _ h] := hs (f k0).
have : 0 <= - (size (s (f k0)).1.2 (s (f k0)).2 * y).
  apply: le_trans h2; apply: h => i; have := lt_le_trans (om0 i) (h1 i); rewrite lt_def => /andP[nq _].
  by apply: contraNneq nq => ->; rewrite sq0.
by rewrite oppr_ge0 leNgt mulr_gt0.
Qed.
End Moving.
