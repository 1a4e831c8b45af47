(* A unique minimiser makes the samples stable; conditions on the samples. *)
From Coq Require Import Reals Lra Classical_Prop Epsilon.
From mathcomp Require Import all_ssreflect all_algebra fingroup perm.
From mathcomp Require Import mxtens.
From Verif Require Import RealsMC RealTac RealTac2 Star FunCalc Spec_covariance Proofs_mest Proofs_cost Proofs_unique Proofs_unique2 Model_structured Proofs_structured Props_structured
  Compact Proofs_converge Props_converge Spec_exist Proofs_exist Proofs_exist2 Spec_kron Proofs_kron Proofs_kron1 Proofs_kron2 Proofs_kron3 Proofs_kron4 Proofs_kron5 Proofs_kron6 Proofs_kron7.
Set Implicit Arguments.
Unset Strict Implicit.
Unset Printing Implicit Defensive.
Local Open Scope ring_scope.
Import GRing.Theory Num.Theory Order.TTheory.

Section Chol.
Variable K : starField.
Local Notation ofR := (@ofR K).
Local Notation toR := (@toR K).
Local Notation cj := (@cj K).
Local Notation "A ^H" := (adj A) (at level 8, format "A ^H").
Lemma adj_row m n p (A : 'M[K]_(m, n)) (B : 'M[K]_(m, p)) : (row_mx A B)^H = col_mx A^H B^H.
Proof. by rewrite /adj map_row_mx tr_row_mx. Qed.
Lemma adj_col m n p (A : 'M[K]_(m, n)) (B : 'M[K]_(p, n)) : (col_mx A B)^H = row_mx A^H B^H.
Proof. by rewrite /adj map_col_mx tr_col_mx. Qed.
Lemma adj_scl n (c : K) : (c%:M : 'M[K]_n)^H = (cj c)%:M.
Proof. by apply/matrixP => i j; rewrite !mxE rmorphMn eq_sym. Qed.
(* Cholesky's factorisation, one step *)
Lemma chol_step n (M : 'M[K]_(1 + n)) : pd M -> exists (t : R) (v : 'cV[K]_n) (S : 'M[K]_n), [/\ 0 < t, pd S &
  forall T : 'M[K]_n, S = T *m T^H -> M = (block_mx (ofR t)%:M 0 v T : 'M[K]_(1 + n)) *m (block_mx (ofR t)%:M 0 v T : 'M[K]_(1 + n))^H].
Proof.
move=> pM; have hM := pd_herm pM; pose m : K := M 0 0; have m0 : 0 < m.
  have := (pM.2 (delta_mx 0 0)); rewrite /qf /sesq.
  have -> : (delta_mx 0 0 : 'cV[K]_(1 + n))^H = delta_mx 0 0 by apply/matrixP => i j; rewrite !mxE andbC rmorph_nat.
  rewrite -rowE -colE !mxE; apply; apply/eqP => /matrixP /(_ 0 0) /eqP; by rewrite !mxE !eqxx oner_eq0.
pose r := ursubmx M; pose M' := drsubmx M.
have eM : M = block_mx m%:M r r^H M'.
  rewrite -[M in LHS](submxK M); congr block_mx; first by rewrite [LHS]mx11_scalar; congr (_%:M); rewrite !mxE; congr (M _ _); apply: val_inj.
  by rewrite -{1}hM /dlsubmx /r; apply/matrixP => i j; rewrite !mxE.

pose E : 'M[K]_(n, 1 + n) := row_mx (- (m^-1 *: r^H)) 1%:M.
pose S := E *m M *m E^H; have eS : S = M' - m^-1 *: (r^H *m r).
  rewrite /S /E eM mul_row_block !mul1mx adj_row mul_row_col adj1 mulmx1 mulNmx mul_mx_scalar scalerA divff ?gt_eqF // scale1r addNr mul0mx add0r.
  by rewrite mulNmx -scalemxAl addrC.
pose t := Num.sqrt (toR m); have tm : 0 < toR m := toR_gt0 m0; have t0 : 0 < t by rewrite sqrtr_gt0.
have tt : ofR t * ofR t = m by rewrite -rmorphM -expr2 sqr_sqrtr ?ltW // ofR_toR_ge0 // ltW.
exists t, ((ofR t)^-1 *: r^H), S; split=> //.
  split; first exact: herm_congr.
  move=> x x0; rewrite /S qf_congr; apply: pM.2; rewrite /E adj_row mul_col_mx adj1 mul1mx.
  by apply: contraNneq x0 => /eqP; rewrite col_mx_eq0 => /andP[_ /eqP->].
move=> T eT; rewrite adj_block mulmx_block !adj0 !mulmx0 !mul0mx !addr0 -eT adj_scl cj_ofR adjZ adjK fmorphV cj_ofR.
have ft : ofR t != 0 by rewrite fmorph_eq0 gt_eqF.
rewrite {1}eM; congr block_mx.
- by rewrite -scalar_mxM tt.
- by rewrite mul_scalar_mx scalerA divff // scale1r.
- by rewrite mul_mx_scalar scalerA divff // scale1r.
by rewrite -scalemxAl -scalemxAr scalerA -invfM tt eS addrCA subrr addr0.
Qed.
Lemma chol_order n (al : 'I_n -> R) (M : 'M[K]_n) : pd M -> exists T, [/\ T \in unitmx, M = T *m T^H & forall j l, T j l != 0 -> al l <= al j].
Proof.
elim: n al M => [|n IH] al M pM.
  by exists M; split; [exact: pd_unit|apply/matrixP => -[]|case].
have [j0 hj] : exists j, forall l, al j <= al l.
  by case: (@arg_minP _ _ _ ord0 predT al isT) => j _ h; exists j => l; exact: h.
pose g := tperm j0 0; pose Q : 'M[K]_n.+1 := perm_mx g; pose M1 : 'M[K]_(1 + n) := Q *m M *m Q^H.
have uQ : Q \in unitmx by exact: unitmx_perm.
have QV : Q^H = perm_mx g^-1%g by rewrite -tr_perm_mx; apply/matrixP => k l; rewrite !mxE rmorph_nat.
have QE (A : 'M[K]_n.+1) i j : (Q *m A *m Q^H) i j = A (g i) (g j) by rewrite QV -row_permE -col_permE !mxE.
have QH : Q^H = Q by rewrite QV tpermV.
have QQ : Q *m Q = 1%:M by rewrite -perm_mxM tperm2 perm_mx1.
have pM1 : pd M1 by exact: pd_congr.
have [t [v [S [t0 pS h]]]] := chol_step pM1.
have [T [uT eT oT]] := IH (fun j => al (g (lift 0 j))) S pS.
pose T1 : 'M[K]_n.+1 := block_mx (ofR t)%:M 0 v T; have e1 : M1 = T1 *m T1^H by exact: h.
have u1 : T1 \in unitmx.
  have dt : \det (block_mx (ofR t)%:M 0 v T : 'M[K]_(1 + n)) = \det (ofR t)%:M * \det T := det_lblock _ _ _.
  by rewrite unitmxE dt det_scalar1 unitrM -unitmxE uT andbT unitfE fmorph_eq0 gt_eqF.
have Tur (i : 'I_1) (j : 'I_n) : T1 (lshift n i) (rshift 1 j) = 0.
  by apply: (etrans (block_mxEur (ofR t)%:M 0 v T i j)); rewrite mxE.
have Tdr (i j : 'I_n) : T1 (rshift 1 i) (rshift 1 j) = T i j := block_mxEdr (ofR t)%:M 0 v T i j.
clearbody T1; exists (Q *m T1 *m Q^H); split.
- by rewrite !unitmx_mul unitmx_adj u1 uQ.
- rewrite !adjM adjK QH !mulmxA -[Q *m T1 *m Q *m Q]mulmxA QQ mulmx1 -[Q *m T1 *m T1^H]mulmxA -e1 /M1 QH !mulmxA QQ mul1mx.
  by rewrite -mulmxA QQ mulmx1.
move=> j l; rewrite QE; have gK : involutive g := tpermK _ _; rewrite -{2}[l]gK -{2}[j]gK.
case: (split_ordP (g j : 'I_(1 + n))) => j1 ->; case: (split_ordP (g l : 'I_(1 + n))) => l1 -> h2.
- by rewrite !ord1.
- by move: h2; rewrite Tur eqxx.
- have -> : lshift n l1 = 0 :> 'I_(1 + n) by rewrite (ord1 l1); apply: val_inj.
  by rewrite [g 0]tpermR.
by move: h2; rewrite Tdr => /oT; rewrite -!rshift1.
Qed.
End Chol.

Section Necessary.
Variable K : starField.
Local Notation ofR := (@ofR K).
Local Notation toR := (@toR K).
Local Notation "A ^H" := (adj A) (at level 8, format "A ^H").
Lemma factor_order n (al : 'I_n -> R) (P G : 'M[K]_n) : pd P -> G \in unitmx ->
  exists G', [/\ G' \in unitmx, P = G' *m G'^H & forall j l, (invmx G' *m G) j l != 0 -> al l <= al j].
Proof.
move=> pP uG; have uG' : invmx G \in unitmx by rewrite unitmx_inv.
have pM := pd_congr uG' pP; have [T [uT eT oT]] := chol_order (fun j => - al j) (pd_inv pM).
have uH : T^H \in unitmx by rewrite unitmx_adj.
have eP : P = G *m (invmx (T^H) *m invmx T) *m G^H.
  rewrite -invmxM' // -eT invmxK !mulmxA mulmxV // mul1mx adjV -mulmxA mulVmx ?mulmx1 //.
  by rewrite unitmx_adj.
exists (G *m invmx T^H); split.
- by rewrite unitmx_mul uG unitmx_inv.
- by rewrite adjM adjV adjK {1}eP !mulmxA.
move=> j l; have -> : invmx (G *m invmx T^H) *m G = T^H by rewrite invmxM' ?unitmx_inv // invmxK mulmxKV.
by rewrite adjE fmorph_eq0 => /oT; rewrite ler_opp2.
Qed.
Variables (N a b : nat) (X : 'M[K]_(N, a * b)).
Lemma kcoord_order (G G' : 'M[K]_a) (H H' : 'M[K]_b) i l m : G \in unitmx -> H \in unitmx -> G' \in unitmx -> H' \in unitmx ->
  kcoord X G' H' i l m != 0 -> exists j k, [/\ (invmx G' *m G) l j != 0, (invmx H' *m H) m k != 0 & kcoord X G H i j k != 0].
Proof.
move=> uG uH uG' uH' h; apply: NNPP => no; move/eqP: h; apply.
have [u1 _] := tens_inv uG uH; have [u2 e2] := tens_inv uG' uH'.
have E : invmx (G' *t H') *m samp X i = ((invmx G' *m G) *t (invmx H' *m H)) *m (invmx (G *t H) *m samp X i).
  by rewrite -tensmx_mul -e2 mulmxA mulmxK.
rewrite /kcoord E mxE big_tens; apply: big1 => j _; apply: big1 => k _; rewrite tensmxE -/(kcoord X G H i j k).
apply/eqP; rewrite !mulf_eq0; apply: contraT; rewrite !negb_or => /andP[/andP[h1 h2] h3]; case: no; by exists j, k.
Qed.
Hypotheses (nz : nonzero_samples X) (N0 : (0 < N)%N) (a0 : (0 < a)%N) (b0 : (0 < b)%N).
Lemma min_fixed P B : kron_minimiser X P B -> MA X P^T B = P^T /\ MB X P^T B = B.
Proof.
move=> mi; have [sc sr] := minimiser_spans N0 a0 b0 mi; have [pP pB le] := mi; have pA := tr_pd pP.
have gs : good (P^T, B) by [].
have [pA' pB'] := pass_good nz sc sr gs.
have D e e0 := pass_drop nz sc sr N0 a0 b0 gs (e := e) e0.
move: D pA' pB'; move: (pass X (P^T, B)) => [A' B'] D pA' pB'; rewrite /= in D pA' pB'.
have ge : kc X (P^T, B) <= kc X (A', B') by rewrite /kc /= trmxK; apply: le pB'; exact: tr_pd.
have H (e : R) : 0 < e -> [/\ close e A' P^T, cl e 2 (MA X P^T B) P^T & cl e 2 (MB X A' B) B].
  move=> e0; have [_ _ _ _ h] := D e e0.
  have dl : 0 < (e / (1 + e)) ^+ 2 by rewrite exprn_gt0 // divr_gt0 // addr_gt0 ?ltr01.
  have lt : kc X (P^T, B) - (e / (1 + e)) ^+ 2 < kc X (A', B') by rewrite ltr_subl_addr; apply: (le_lt_trans ge); rewrite ltr_addl.
  by have [h1 _ h2 h3] := h lt; split.
have eA : A' = P^T by apply: close_eq pA' pA _ => e e0; have [] := H e e0.
split.
  by apply: (cl_eq (m := 2) (MA_pd pA pB nz sc) pA) => f f0; have [h1 h2 h3] := H f f0.
by apply: (cl_eq (m := 2) (MB_pd pA pB nz sr) pB) => f f0; have [h1 h2] := H f f0; rewrite eA.
Qed.
Lemma dia_prop n (G P : 'M[K]_n) (al : 'I_n -> R) (c : R) : G \in unitmx -> P = G *m G^H -> G *m dia K (\row_j exp (al j)) *m G^H = ofR c *: P ->
  \sum_j al j = 0 -> forall j, al j = 0.
Proof.
move=> uG -> ; have -> : ofR c *: (G *m G^H) = G *m (ofR c)%:M *m G^H by rewrite mul_mx_scalar -scalemxAl.
move=> e s0; have uH : G^H \in unitmx by rewrite unitmx_adj.
have e2 : dia K (\row_j exp (al j)) = (ofR c)%:M.
  by move/(congr1 (fun M => invmx G *m M *m invmx G^H)): e; rewrite !mulmxA mulVmx // !mul1mx !mulmxK.
have ex j : exp (al j) = c.
  by move/matrixP: e2 => /(_ j j); rewrite diaE !mxE eqxx !mulr1n => /ofR_inj.
have al1 j : al j = ln c by rewrite -(ex j) ln_expR.
move=> j; move: s0; rewrite (eq_bigr (fun=> ln c)) => [|i _]; last exact: al1.
rewrite sumr_const card_ord => /eqP; rewrite mulrn_eq0 al1 => /orP[/eqP n0|/eqP //].
by case: j (al1) => [j' hj] _; move: hj; rewrite n0.
Qed.
Lemma unique_stable P B : kron_minimiser X P B -> kron_unique X P B -> kron_stable X.
Proof.
move=> mi un G H al be uG uH sa sb z; have [fA fB] := min_fixed mi; have [pP pB le] := mi.
have [G' [uG' eP oG]] := factor_order al pP uG; have [H' [uH' eB oH]] := factor_order be pB uH.
have eP' : P^T^T = G' *m G'^H by rewrite trmxK.
have kst : kstat X G' H' := fixed_stat N0 uG' uH' eP' eB fA fB.
pose w i l m : R := sq (kcoord X G' H' i l m); pose q i := \sum_l \sum_m w i l m.
have q0 i : 0 < q i := ksum_gt0 nz uG' uH' i.
have w0 i l m : 0 <= w i l m by exact: sq_ge0.
have [mu hmu] : exists mu : 'I_N -> 'I_a * 'I_b, forall i, kcoord X G' H' i (mu i).1 (mu i).2 != 0 /\
    forall l m, kcoord X G' H' i l m != 0 -> al (mu i).1 + be (mu i).2 <= al l + be m.
  have Q i : exists x : 'I_a * 'I_b, kcoord X G' H' i x.1 x.2 != 0 /\ forall l m, kcoord X G' H' i l m != 0 -> al x.1 + be x.2 <= al l + be m.
    have [x0 hx0] : exists x : 'I_a * 'I_b, kcoord X G' H' i x.1 x.2 != 0.
      apply: NNPP => no; have := q0 i; rewrite /q big1 ?ltxx // => l _; rewrite big1 // => m _.
      apply/eqP; rewrite eq_sym; apply: contraT => h; case: no; exists (l, m) => /=.
      by rewrite -(kc_neq0 X G' H') lt_neqAle h w0.
    case: (@arg_minP _ _ _ x0 (fun x => kcoord X G' H' i x.1 x.2 != 0) (fun x => al x.1 + be x.2) hx0) => x hx mx.
    by exists x; split=> // l m h; apply: (mx (l, m)).
  pose x0 : 'I_a * 'I_b := (Ordinal a0, Ordinal b0).
  exists (fun i => epsilon (inhabits x0) (fun x => kcoord X G' H' i x.1 x.2 != 0 /\ forall l m, kcoord X G' H' i l m != 0 -> al x.1 + be x.2 <= al l + be m)) => i.
  exact: (epsilon_spec (inhabits x0) _ (Q i)).
have [c hc] : exists c : 'I_N -> 'I_a * 'I_b, forall i, kcoord X G H i (c i).1 (c i).2 != 0 /\ al (c i).1 + be (c i).2 <= al (mu i).1 + be (mu i).2.
  have Q i : exists x : 'I_a * 'I_b, kcoord X G H i x.1 x.2 != 0 /\ al x.1 + be x.2 <= al (mu i).1 + be (mu i).2.
    have [j [k [h1 h2 h3]]] := kcoord_order uG uH uG' uH' (hmu i).1; exists (j, k); split=> //=; apply: ler_add; [exact: oG|exact: oH].
  pose x0 : 'I_a * 'I_b := (Ordinal a0, Ordinal b0).
  exists (fun i => epsilon (inhabits x0) (fun x => kcoord X G H i x.1 x.2 != 0 /\ al x.1 + be x.2 <= al (mu i).1 + be (mu i).2)) => i.
  exact: (epsilon_spec (inhabits x0) _ (Q i)).
pose M i := al (mu i).1 + be (mu i).2.
exists c; first by move=> i; exact: (hc i).1.
apply: (@le_lt_trans _ _ (\sum_i M i)); first by apply: ler_sum => i _; exact: (hc i).2.
rewrite ltNge; apply/negP => M0.
(* the weighted mean of the weights is 0 *)
have S0 : \sum_i \sum_l \sum_m w i l m / q i * (al l + be m) = 0.
  have [s1 s2] := kst.
  have E1 : \sum_i \sum_l \sum_m w i l m / q i * al l = 0.
    rewrite exchange_big /=; transitivity (\sum_l N%:R / a%:R * al l); last by rewrite -mulr_sumr sa mulr0.
    apply: eq_bigr => l _; rewrite -(s1 l) [a%:R * _]mulrC mulfK ?pnatr_eq0 -?lt0n // mulr_suml; apply: eq_bigr => i _.
    by rewrite -!mulr_suml.
  have E2 : \sum_i \sum_l \sum_m w i l m / q i * be m = 0.
    rewrite (eq_bigr (fun i => \sum_m \sum_l w i l m / q i * be m)) => [|i _]; last by rewrite exchange_big.
    rewrite exchange_big /=; transitivity (\sum_m N%:R / b%:R * be m); last by rewrite -mulr_sumr sb mulr0.
    apply: eq_bigr => l _; rewrite -(s2 l) [b%:R * _]mulrC mulfK ?pnatr_eq0 -?lt0n // mulr_suml; apply: eq_bigr => i _.
    by rewrite -!mulr_suml.
  rewrite -[RHS](addr0 0) -[X in _ = X + _]E1 -[X in _ = _ + X]E2 -big_split; apply: eq_bigr => i _; rewrite -big_split; apply: eq_bigr => l _.
  by rewrite -big_split; apply: eq_bigr => m _; rewrite /= mulrDr.
have v1 i : \sum_l \sum_m w i l m / q i = 1.
  under eq_bigr => j _ do rewrite -mulr_suml.
  by rewrite -mulr_suml -/(q i) divff // gt_eqF.
have T0 i l m : 0 <= w i l m / q i * (al l + be m - M i).
  have := w0 i l m; rewrite le_eqVlt => /orP[/eqP<-|]; first by rewrite !mul0r.
  rewrite kc_neq0 => h; apply: mulr_ge0; first by rewrite divr_ge0 // ltW.
  by rewrite subr_ge0; exact: (hmu i).2.
have D i : \sum_l \sum_m w i l m / q i * (al l + be m - M i) = \sum_l \sum_m w i l m / q i * (al l + be m) - M i.
  rewrite -[M i in RHS]mul1r -(v1 i) mulr_suml -sumrB; apply: eq_bigr => l _; rewrite mulr_suml -sumrB; apply: eq_bigr => m _; exact: mulrBr.
have Z : \sum_i \sum_l \sum_m w i l m / q i * (al l + be m - M i) = - \sum_i M i.
  by rewrite (eq_bigr _ (fun i _ => D i)) sumrB S0 sub0r.
have Z0 : \sum_i \sum_l \sum_m w i l m / q i * (al l + be m - M i) = 0.
  apply/eqP; rewrite eq_le {1}Z oppr_le0 M0 /=; apply: sumr_ge0 => i _; apply: sumr_ge0 => l _; apply: sumr_ge0 => m _; exact: T0.
have M1 : \sum_i M i = 0 by apply/eqP; rewrite -oppr_eq0 -Z Z0.
have eqM i l m : 0 < w i l m -> al l + be m = M i.
  move=> wp; move/psumr_eq0P: Z0 => /(_ _ i isT) h1.
  have {}h1 : \sum_l \sum_m w i l m / q i * (al l + be m - M i) = 0 by apply: h1 => i' _; apply: sumr_ge0 => l' _; apply: sumr_ge0 => m' _; exact: T0.
  move/psumr_eq0P: h1 => /(_ _ l isT) h1.
  have {}h1 : \sum_m w i l m / q i * (al l + be m - M i) = 0 by apply: h1 => l' _; apply: sumr_ge0 => m' _; exact: T0.
  move/psumr_eq0P: h1 => /(_ (fun m' _ => T0 i l m') m isT) /eqP; rewrite mulf_eq0 subr_eq0 gt_eqF ?divr_gt0 //= => /eqP //.
(* another pair with the same cost *)
pose d : 'rV[R]_a := \row_j exp (al j); pose e : 'rV[R]_b := \row_k exp (be k).
have d0 j : 0 < d 0 j by rewrite mxE expR_gt0.
have e0 k : 0 < e 0 k by rewrite mxE expR_gt0.
pose P1 := G' *m dia K d *m G'^H; pose B1 := H' *m dia K e *m H'^H.
have C1 : kron_cost X P1 B1 = kron_cost X P B.
  rewrite /P1 /B1 kcostT // eP eB kcostS //.
  have -> : \sum_j ln (d 0 j) = 0 by rewrite -[RHS]sa; apply: eq_bigr => j _; rewrite mxE ln_expR.
  have -> : \sum_k ln (e 0 k) = 0 by rewrite -[RHS]sb; apply: eq_bigr => k _; rewrite mxE ln_expR.
  rewrite !mulr0 !addr0; congr (_ * _ + _); rewrite -[RHS]subr0 -[X in _ = _ - X]M1 -sumrB; apply: eq_bigr => i _.
  have -> : ln (\sum_j \sum_k sq (kcoord X G' H' i j k)) - M i = ln (q i / exp (M i)) by rewrite lnD ?expR_gt0 // ln_expR.
  congr (ln _); rewrite /q mulr_suml; apply: eq_bigr => l _; rewrite mulr_suml; apply: eq_bigr => m _.
  have := w0 i l m; rewrite le_eqVlt => /orP[/eqP|] h; first by rewrite -/(w i l m) -h !mul0r.
  by rewrite !mxE -exp_addR (eqM _ _ _ h).
have pP1 : pd P1 by apply: pd_congr => //; exact: pd_dia.
have pB1 : pd B1 by apply: pd_congr => //; exact: pd_dia.
have mi1 : kron_minimiser X P1 B1 by split=> // P' B' pP' pB'; rewrite C1; exact: le.
have [[c1 _ e1] [c2 _ e2]] := un _ _ mi1.
case: z => -[j]; [rewrite (dia_prop uG' eP e1 sa)|rewrite (dia_prop uH' eB e2 sb)]; by rewrite eqxx.
Qed.
End Necessary.
