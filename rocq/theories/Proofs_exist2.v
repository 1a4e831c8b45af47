(* Existence of solutions of Tyler's and Student's equations and its converse.  Nothing here models code. *)
From Coq Require Import Reals String Lra Epsilon Classical_Prop.
From mathcomp Require Import all_ssreflect all_algebra.
From mathcomp Require Import complex zify.
From Verif Require Import RealsMC RealTac RealTac2 Star StarInst FunCalc Compact Spec_covariance Spec_fixedpoint Spec_exist Proofs_mest Proofs_cost
  Proofs_unique Proofs_unique2 Props_cost Props_unique Proofs_converge Proofs_exist Props_natgrad Props_converge.
Set Implicit Arguments.
Unset Strict Implicit.
Unset Printing Implicit Defensive.
Local Open Scope ring_scope.
Import GRing.Theory Num.Theory Order.TTheory.

Lemma weightN (N P q r : R) : 0 < N -> N * (P / N / q * r) = P * (r / q).
Proof. by move=> N0; rewrite [P / N]mulrC -!mulrA (mulrA N) divff ?gt_eqF // mul1r [q^-1 * r]mulrC. Qed.
Section Projection.
Variable K : starField.
Local Notation ofR := (@ofR K).
Local Notation toR := (@toR K).
Local Notation "A ^H" := (adj A) (at level 8, format "A ^H").
Variables (N p : nat) (X : 'M[K]_(N, p)) (S V : 'M[K]_p).
Hypothesis pS : pd S.
Let Q := invmx S.
Let B : 'M[K]_(p, \rank V) := (row_base V)^T.
Let G := B^H *m Q *m B.
Lemma base_inj c : B *m c = 0 -> c = 0 :> 'cV[K]_(\rank V).
Proof.
move=> h; have : c^T *m row_base V = 0 by rewrite -[row_base V]trmxK -trmx_mul h trmx0.
rewrite -[X in _ = X](mul0mx _ (row_base V)) => /(row_free_inj (row_base_free V)) e; by rewrite -[c]trmxK e trmx0.
Qed.
Lemma gram_pd : pd G.
Proof.
have [hQ pQ] := pd_inv pS; have qE c : qf G c = qf Q (B *m c) by rewrite /qf /sesq /G adjM !mulmxA.
split=> [|c c0]; first by rewrite /herm /G !adjM adjK -mulmxA [Q^H]hQ.
by rewrite qE; apply: pQ; apply: contra_neq c0; exact: base_inj.
Qed.
(* the projection on the row space of V, orthogonal for the inner product given by S^-1 *)
Definition proj : 'M[K]_p := B *m invmx G *m B^H *m Q.
Lemma proj_idem : proj *m proj = proj.
Proof.
have uG := pd_unit gram_pd; rewrite /proj -!mulmxA (mulmxA Q B) (mulmxA B^H) (mulmxA B^H Q B) -/G (mulmxA G) mulmxV // mul1mx //.
Qed.
Lemma tr_proj : \tr proj = (\rank V)%:R.
Proof.
have uG := pd_unit gram_pd; rewrite /proj -!mulmxA mxtrace_mulC -!mulmxA (mulmxA B^H) -/G mulVmx // mxtrace1 //.
Qed.
Lemma in_base i : (row i X <= V)%MS -> exists c, samp X i = B *m c.
Proof. by rewrite -(eq_row_base V) => /submxP [D e]; exists D^T; rewrite /B -trmx_mul -e. Qed.
Lemma proj_in i : (row i X <= V)%MS -> proj *m samp X i = samp X i.
Proof.
move=> /in_base [c ->]; have uG := pd_unit gram_pd; rewrite /proj -!mulmxA (mulmxA Q B) (mulmxA B^H) (mulmxA B^H Q B) -/G (mulmxA (invmx G)) mulVmx // mul1mx //.
Qed.
(* x^H S^-1 P x *)
Definition pmaha x : R := toR (qf (Q *m proj) x).
Lemma pmahaE x : qf (Q *m proj) x = qf (invmx G) (B^H *m Q *m x).
Proof.
have [hQ _] := pd_inv pS; rewrite /qf /sesq /proj !adjM adjK [Q^H]hQ !mulmxA //.
Qed.
Lemma pmaha_ge0 x : 0 <= pmaha x.
Proof. by apply: toR_ge0; rewrite pmahaE; have [_ h] := pd_psd (pd_inv gram_pd); exact: h. Qed.
Lemma pmaha_in i : (row i X <= V)%MS -> pmaha (samp X i) = maha S (samp X i).
Proof.
move=> h; rewrite /pmaha /qf /sesq; have -> (x : 'cV[K]_p) : x^H *m (Q *m proj) *m x = x^H *m Q *m (proj *m x) by rewrite !mulmxA.
by rewrite proj_in.
Qed.
Lemma pmaha_eq0 x : pmaha x = 0 -> proj *m x = 0.
Proof.
move=> h; have [_ pG] := pd_inv gram_pd; suff z : B^H *m Q *m x = 0 by rewrite /proj -!mulmxA (mulmxA B^H) z !mulmx0.
apply/eqP/negPn/negP => /pG; rewrite -pmahaE => lt; have := toR_gt0 lt; by rewrite -/(pmaha x) h ltxx.
Qed.
Lemma tr_sum (w : 'I_N -> R) (M : 'M[K]_p) : \tr (M *m wsum w X) = \sum_i ofR (w i) * qf M (samp X i).
Proof. by rewrite /wsum mulmx_sumr linear_sum; apply: eq_bigr => i _; rewrite -scalemxAr linearZ /= tr_mul_outer. Qed.
Lemma rank_sum (w : 'I_N -> R) : S = wsum w X -> (\rank V)%:R = \sum_i w i * pmaha (samp X i).
Proof.
move=> e; rewrite -(toR_nat K) -tr_proj; have -> : \tr proj = \tr ((Q *m proj) *m S).
  by rewrite [RHS]mxtrace_mulC mulmxA mulmxV ?mul1mx // pd_unit.
have := tr_sum w (Q *m proj); rewrite -e => ->; rewrite raddf_sum; apply: eq_bigr => i _; by rewrite /= toRZ.
Qed.
End Projection.

Section Converse.
Variable K : starField.
Local Notation ofR := (@ofR K).
Local Notation toR := (@toR K).
Variables (N p : nat) (X : 'M[K]_(N, p.+1)).
Hypothesis X0 : forall i, row i X != 0.
Lemma tyler_necessary S : tyler_solution X S -> irreducible X -> tyler_condition X.
Proof.
move=> sol irr V /andP[r0 rp]; have [pS eS] := sol; have N0 := spanning_N (tyler_spanning sol).
have q0 i := maha_gt0 pS (samp0 X0 i); have NR : 0 < N%:R :> R by rewrite ltr0n.
have PR : 0 < p.+1%:R :> R by rewrite ltr0n.
have rs := rank_sum V pS eS; pose I := [set i | (row i X <= V)%MS].
have E : N%:R * (\rank V)%:R = p.+1%:R * (count_in X V)%:R + p.+1%:R * (\sum_(i | i \notin I) pmaha S V (samp X i) / maha S (samp X i)).
  rewrite rs -mulrDr /count_in -/I -sum1_card natr_sum mulr_sumr (bigID (mem I)) /= mulrDr !mulr_sumr; congr (_ + _); apply: eq_bigr => i.
    by rewrite inE => iV; rewrite pmaha_in // divfK ?gt_eqF // mulrCA divff ?gt_eqF.
  by move=> _; rewrite weightN.
have T0 : 0 <= \sum_(i | i \notin I) pmaha S V (samp X i) / maha S (samp X i).
  by apply: sumr_ge0 => i _; rewrite divr_ge0 ?pmaha_ge0 // ltW.
rewrite -(ltr_nat [numDomainType of R]) !natrM E ltr_addl pmulr_rgt0 // lt_neqAle T0 andbT eq_sym; apply/negP => z.
have z' i : i \notin I -> proj S V *m samp X i = 0.
  move=> iI; apply: (pmaha_eq0 pS); move: z; rewrite psumr_eq0 => [|j _]; last by rewrite divr_ge0 ?pmaha_ge0 // ltW.
  move=> /allP /(_ i); rewrite mem_index_enum iI => /(_ isT) /implyP /(_ isT); rewrite mulf_eq0 invr_eq0 (gt_eqF (q0 i)) orbF => /eqP //.
have tP := tr_proj V pS.
have [i|e|e] := irr (proj S V) (proj_idem V pS).
- by case: (boolP (i \in I)) => iI; [right; apply: proj_in => //; rewrite inE in iI | left; exact: z'].
- by move: tP; rewrite e linear0 => /esym /eqP; rewrite pnatr_eq0 gtn_eqF.
- by move: tP; rewrite e mxtrace1 => /eqP; rewrite eqr_nat gtn_eqF.
Qed.
Lemma student_necessary (a : R) S : 0 < a -> student_solution a X S -> student_condition a X.
Proof.
move=> a0 sol V rp; have [pS eS] := sol; have sp := student_spanning sol; have N0 := spanning_N sp.
have q0 i := maha_gt0 pS (samp0 X0 i); have NR : 0 < N%:R :> R by rewrite ltr0n.
have b0 : 0 < a + p.+1%:R by rewrite ltr_spaddl ?ler0n.
have aq i : 0 < a + maha S (samp X i) by rewrite addr_gt0.
have rs := rank_sum V pS eS; pose I := [set i | (row i X <= V)%MS].
have rs1 : p.+1%:R = \sum_i (a + p.+1%:R) / N%:R / (a + maha S (samp X i)) * maha S (samp X i).
  have := tr_sum X (fun i => (a + p.+1%:R) / N%:R / (a + maha S (samp X i))) (invmx S); rewrite -eS mulVmx ?pd_unit // mxtrace1 => /(congr1 toR).
  by rewrite toR_nat raddf_sum => e; apply: etrans e _; apply: eq_bigr => i _; rewrite /= toRZ.
have tot : (a + p.+1%:R) * (\sum_i a / (a + maha S (samp X i))) = N%:R * a.
  have : N%:R * p.+1%:R = (a + p.+1%:R) * N%:R - (a + p.+1%:R) * (\sum_i a / (a + maha S (samp X i))).
    rewrite {1}rs1 mulr_sumr -mulrBr -[X in _ = _ * (X - _)]mulr1 mulr_natl -[X in _ = _ * (_ *+ X - _)]card_ord -sumr_const -sumrB mulr_sumr; apply: eq_bigr => i _.
    rewrite weightN //; congr (_ * _).
    by rewrite -{1}(divff (lt0r_neq0 (aq i))) -mulrBl [a + _]addrC addrK.
  move=> h; apply/eqP; rewrite -subr_eq0; apply/eqP; move: h; move: (\sum_i _) (p.+1%:R) (N%:R) => u v w h.
  have -> : (a + v) * u - w * a = (a + v) * w - ((a + v) * w - (a + v) * u) - w * a by rring.
  by rewrite -h; rring.
have ni : exists i, i \notin I.
  apply: NNPP => no; have all i : (row i X <= V)%MS.
    have iI : i \in I by apply/negPn/negP => h; apply: no; exists i.
    by rewrite inE in iI.
  have : (X <= V)%MS by apply/row_subP.
  by move=> /mxrankS; rewrite (rank_spanning sp) leqNgt rp.
have i1 : (a + p.+1%:R) * (\sum_(i in I) maha S (samp X i) / (a + maha S (samp X i))) <= N%:R * (\rank V)%:R.
  rewrite rs [X in _ <= _ * X](bigID (mem I)) /= [X in _ <= X]mulrDr -[X in X <= _]addr0; apply: ler_add; last first.
    by rewrite mulr_ge0 ?ler0n // sumr_ge0 // => i _; rewrite mulr_ge0 ?pmaha_ge0 // !divr_ge0 ?ler0n // ltW.
  rewrite !mulr_sumr; apply: ler_sum => i; rewrite inE => iV; rewrite pmaha_in //.
  by rewrite weightN.
have i2 : \sum_(i in I) a / (a + maha S (samp X i)) < \sum_i a / (a + maha S (samp X i)).
  have [i iI] := ni; rewrite [X in _ < X](bigID (mem I)) /= ltr_addl (bigD1 i) //= ltr_paddr //; last by rewrite divr_gt0.
  by apply: sumr_ge0 => j _; rewrite divr_ge0 // ltW.
have i3 : \sum_(i in I) maha S (samp X i) / (a + maha S (samp X i)) = (count_in X V)%:R - \sum_(i in I) a / (a + maha S (samp X i)).
  rewrite /count_in -/I -sum1_card natr_sum -sumrB; apply: eq_bigr => i _.
  by rewrite -{1}(divff (lt0r_neq0 (aq i))) -mulrBl [a + _]addrC addrK.
rewrite i3 in i1; rewrite -(ltr_pmul2l b0) tot in i2.
move: i1 i2; rewrite mulrBr mulrDr; move: ((a + _) * _) ((a + _) * _) (N%:R * a) (N%:R * _) => u v w x i1 i2.
by apply: (@le_lt_trans _ _ (x + u)); [rewrite -ler_subl_addr | rewrite addrC ltr_add2r].
Qed.
End Converse.

Section Existence.
Variable K : starField.
Local Notation ofR := (@ofR K).
Local Notation toR := (@toR K).
Local Notation "A ^H" := (adj A) (at level 8, format "A ^H").
Lemma eig_up p (T : 'M[K]_p) d U (l : R) : eigdec T d U -> (forall j, d 0 j <= l) -> loewner T (ofR l *: 1%:M).
Proof.
move=> [uU eT] h; have -> : ofR l *: 1%:M = U *m dia K (const_mx l) *m U^H.
  by rewrite dia_const mul_mx_scalar -scalemxAl unitaryV.
rewrite /loewner eT -mulmxBl -mulmxBr diaB; apply/psd_congr/psd_dia => j; by rewrite !mxE subr_ge0.
Qed.
Lemma eig_lo p (T : 'M[K]_p) d U (l : R) : eigdec T d U -> (forall j, 1 <= l * d 0 j) -> loewner 1%:M (ofR l *: T).
Proof.
move=> [uU eT] h; have -> : 1%:M = U *m dia K (const_mx 1) *m U^H.
  by rewrite dia_const rmorph1 mulmx1 unitaryV.
rewrite /loewner eT scalemxAl scalemxAr dia_scale -mulmxBl -mulmxBr diaB; apply/psd_congr/psd_dia => j; by rewrite !mxE subr_ge0.
Qed.
Hypothesis cK : compactK K.
Variables (N p : nat) (X : 'M[K]_(N, p.+1)).
Hypothesis X0 : forall i, row i X != 0.
Lemma full_count (V : 'M[K]_p.+1) : (X <= V)%MS -> count_in X V = N.
Proof.
move=> h; rewrite /count_in -[RHS]card_ord -cardsT; congr #|pred_of_set _|; apply/setP => i; rewrite !inE; apply: submx_trans h; exact: row_sub.
Qed.
Lemma hull : exists2 V : 'M[K]_p.+1, (X <= V)%MS & \rank V = \rank X.
Proof. by exists <<X>>%MS; [rewrite genmxE | exact: mxrank_gen]. Qed.
Lemma tyler_condition_spanning : (0 < N)%N -> tyler_condition X -> spanning X.
Proof.
move=> N0 cond; apply: spanning_rank; have [V XV rV] := hull; apply/eqP; rewrite eqn_leq rank_leq_col /= leqNgt; apply/negP => lt.
have r0 : (0 < \rank V)%N.
  rewrite rV lt0n mxrank_eq0; apply: contra_neq (X0 (Ordinal N0)) => ->; exact: row0.
have := cond V; rewrite rV lt -rV r0 full_count // => /(_ isT); rewrite mulnC ltn_mul2l N0 /= ltnNge rank_leq_row //.
Qed.
Lemma student_condition_N a : 0 < a -> student_condition a X -> (0 < N)%N.
Proof.
move=> a0 cond; have := cond 0; rewrite mxrank0 => /(_ isT) h; rewrite lt0n; apply/negP => /eqP e; move: h; rewrite {2}e mul0r ltNge mulr_ge0 ?ler0n //.
by rewrite addr_ge0 ?ler0n // ltW.
Qed.
Lemma student_condition_spanning a : 0 < a -> student_condition a X -> spanning X.
Proof.
move=> a0 cond; apply: spanning_rank; have [V XV rV] := hull; apply/eqP; rewrite eqn_leq rank_leq_col /= leqNgt; apply/negP => lt.
have := cond V; rewrite rV => /(_ lt); rewrite full_count // mulrC ltNge => /negP; apply; apply: ler_wpmul2l; first exact: ler0n.
by rewrite ler_add2l ler_nat ltnW.
Qed.
Lemma cost_decreases (w rho : R -> R) S k : spanning X -> (0 < N)%N -> (forall T, pd T -> pd (mstep w X T)) ->
  (forall q q', 0 < q -> 0 < q' -> rho q' <= rho q + N%:R * w q * (q' - q)) -> pd S ->
  pd (iter k (mstep w X) S) /\ mcost rho X (iter k (mstep w X) S) <= mcost rho X S.
Proof.
move=> sp N0 Fpd cv pS; elim: k => [|k [pk IH]] //=; split; first exact: Fpd.
by apply: le_trans IH; have [h _] := update_drop X0 Fpd cv ltr01 pk.
Qed.
Lemma tyler_exists : (0 < N)%N -> tyler_condition X -> exists S, tyler_solution X S.
Proof.
move=> N0 cond; have sp := tyler_condition_spanning N0 cond; have Fpd T := @tyl_pd K N p X X0 T N0 sp.
pose F := mstep (tyl_w N p.+1) X; pose rho (q : R) := p.+1%:R * ln q.
have cv q q' : 0 < q -> 0 < q' -> rho q' <= rho q + N%:R * tyl_w N p.+1 q * (q' - q) by move=> q0 q'0; rewrite scaledN //; exact: tyler_concave.
have p1 := pd1 K p.+1; pose u k := iter k F 1%:M.
have hk k := cost_decreases k sp N0 Fpd cv p1; rewrite -/F in hk.
have [C hC] := tyler_coercive cK X0 N0 cond.
have dec k := specdecP (pd_herm (hk k).1); pose d k := (specdec (u k)).1.
have d0 k j : 0 < d k 0 j by exact: (eigdec_pos (hk k).1 (dec k)).
pose B := mcost rho X 1%:M - C; pose r := Rtrigo_def.exp B; have r0 : 0 < r by apply/RltP/exp_pos.
have rat k j j' : d k 0 j <= r * d k 0 j'.
  have : ln (d k 0 j) - ln (d k 0 j') <= B.
    by rewrite ler_subr_addl; apply: le_trans (hk k).2; exact: (hC _ _ _ (hk k).1 (dec k) j j').
  rewrite -lnD // => h; rewrite -ler_pdivr_mulr //; have q0 : 0 < d k 0 j / d k 0 j' by rewrite divr_gt0.
  move: h q0; move: (_ / _) => q h q0; rewrite -[q](exp_ln q); last exact/RltP.
  case: (ltgtP (ln q) B) h => // [lt|->] _; last by rewrite lexx.
  by apply/ltW/RltP/exp_increasing/RltP.
pose t k := (d k 0 0)^-1; have t0 k : 0 < t k by rewrite invr_gt0.
pose s k := ofR (t k) *: u k.
have ps k : pd (s k) by apply: pdZ; [rewrite ofR_gt0 | exact: (hk k).1].
have decs k := eigdecZ (t k) (dec k).
have up k : loewner (s k) (ofR r *: 1%:M).
  by apply: (eig_up (decs k)) => j; rewrite mxE mulrC ler_pdivr_mulr //; exact: rat.
have lo k : loewner 1%:M (ofR r *: s k).
  by apply: (eig_lo (decs k)) => j; rewrite mxE mulrCA mulrC ler_pdivl_mulr // mul1r; exact: rat.
have Fs k : F (s k) = ofR (t k) *: u k.+1.
  rewrite /F /mstep /s /wsum scaler_sumr; apply: eq_bigr => i _; rewrite maha_scale //; last exact: (hk k).1.
  by rewrite scalerA -rmorphM /tyl_w invfM invrK mulrA mulrC.
have ev (e : R) : 0 < e -> exists k0, forall k, (k0 <= k)%N -> close e (F (s k)) (s k).
  move=> e0; have low k : C <= mcost rho X (iter k F 1%:M).
    by have := hC _ _ _ (hk k).1 (dec k) 0 0; rewrite subrr addr0.
  have [k0 h0] := eventually_close X0 N0 Fpd cv p1 low e0; exists k0 => k kk; rewrite Fs; apply: close_scale; [exact: ltW | exact: h0].
have [L [pL fL _]] := fixed_cluster X0 (tyl_subhom p N0) Fpd cK r0 ps lo up ev.
by exists L; split=> //; rewrite -{1}fL.
Qed.
Lemma stu_subhom a : 0 < a -> (0 < N)%N -> subhom (stu_w N p.+1 a).
Proof.
move=> a0 N0 q r l q0 r0 l1 h; rewrite /stu_w mulrCA; apply: ler_wpmul2l; first by rewrite divr_ge0 ?ler0n // addr_ge0 ?ler0n // ltW.
have aq : 0 < a + q by rewrite addr_gt0.
have ar : 0 < a + r by rewrite addr_gt0.
rewrite ler_pdivl_mulr // mulrC ler_pdivr_mulr // mulrDr; apply: ler_add => //; by rewrite ler_pemull // ltW.
Qed.
Lemma student_exists a : 0 < a -> student_condition a X -> exists S, student_solution a X S.
Proof.
move=> a0 cond; have sp := student_condition_spanning a0 cond; have N0 := student_condition_N a0 cond.
have Fpd T := @student_mstep_pd K N p a X T a0 sp.
pose F := mstep (stu_w N p.+1 a) X; pose rho (q : R) := (a + p.+1%:R) * ln (a + q).
have b0 : 0 < a + p.+1%:R by rewrite ltr_spaddl ?ler0n.
have cv q q' : 0 < q -> 0 < q' -> rho q' <= rho q + N%:R * stu_w N p.+1 a q * (q' - q) by move=> q0 q'0; rewrite scaledN //; exact: student_concave.
have p1 := pd1 K p.+1; pose u k := iter k F 1%:M.
have hk k := cost_decreases k sp N0 Fpd cv p1; rewrite -/F in hk.
have [C [g g0 hC]] := student_coercive cK X0 a0 cond.
have dec k := specdecP (pd_herm (hk k).1); pose d k := (specdec (u k)).1.
have d0 k j : 0 < d k 0 j by exact: (eigdec_pos (hk k).1 (dec k)).
have le_exp (q B : R) : 0 < q -> ln q <= B -> q <= Rtrigo_def.exp B.
  move=> q0 h; rewrite -[q](exp_ln q); last exact/RltP.
  case: (ltgtP (ln q) B) h => // [lt|->] _; last by rewrite lexx.
  by apply/ltW/RltP/exp_increasing/RltP.
pose B := mcost rho X 1%:M - C.
have NR : 0 < N%:R :> R by rewrite ltr0n.
have upl k j : ln (d k 0 j) <= B / N%:R.
  rewrite ler_pdivl_mulr // mulrC ler_subr_addl; apply: le_trans (hk k).2; exact: (hC _ _ _ (hk k).1 (dec k) j).1.
have lol k j : ln (d k 0 j)^-1 <= B / g.
  rewrite lnV // ler_pdivl_mulr // mulrC mulrN ler_subr_addl; apply: le_trans (hk k).2; exact: (hC _ _ _ (hk k).1 (dec k) j).2.
have [r r0 [r1 r2]] : exists2 r : R, 0 < r & Rtrigo_def.exp (B / N%:R) <= r /\ Rtrigo_def.exp (B / g) <= r.
  exists (Num.max (Rtrigo_def.exp (B / N%:R)) (Rtrigo_def.exp (B / g))); first by rewrite lt_maxr; apply/orP; left; apply/RltP/exp_pos.
  by split; rewrite le_maxr lexx ?orbT.
have ps k := (hk k).1.
have up k : loewner (u k) (ofR r *: 1%:M).
  by apply: (eig_up (dec k)) => j; apply: le_trans r1; apply: le_exp; [exact: d0 | exact: upl].
have lo k : loewner 1%:M (ofR r *: u k).
  apply: (eig_lo (dec k)) => j; rewrite -ler_pdivr_mulr; last exact: d0.
  by rewrite mul1r; apply: le_trans r2; apply: le_exp; [rewrite invr_gt0; exact: d0 | exact: lol].
have low k : C - g * (B / N%:R) <= mcost rho X (iter k F 1%:M).
  apply: le_trans (hC _ _ _ (hk k).1 (dec k) 0).2; rewrite ler_add2l ler_opp2 ler_pmul2l //; exact: upl.
have [L [pL fL _]] := fixed_cluster X0 (stu_subhom a0 N0) Fpd cK r0 ps lo up (eventually_close X0 N0 Fpd cv p1 low).
by exists L; split=> //; rewrite -{1}fL.
Qed.
End Existence.
