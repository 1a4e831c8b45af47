(* Theorems about the estimate that the MM algorithm for Kronecker structured covariances computes: C89, C90, C91. *)
From Coq Require Import Reals Lra Classical_Prop.
From mathcomp Require Import all_ssreflect all_algebra.
From mathcomp Require Import mxtens.
From Verif Require Import RealsMC RealTac RealTac2 Star FunCalc Model_featurearray Model_covariance Spec_covariance Proofs_loop Props_covariance Proofs_unique2 Proofs_linalg
  Model_structured Proofs_structured Props_structured
  StarInst Compact Proofs_converge Props_converge Spec_exist Spec_kron Proofs_kron Proofs_kron1 Proofs_kron2 Proofs_kron4 Proofs_kron5 Proofs_kron6 Proofs_kron7 Proofs_kron8 Proofs_kron9.
Set Implicit Arguments.
Unset Strict Implicit.
Unset Printing Implicit Defensive.
Local Open Scope ring_scope.
Import GRing.Theory Num.Theory Order.TTheory.

Section Kron.
Variables (K : starField) (ssqrtm : forall n, 'M[K]_n -> 'M[K]_n).
Hypothesis sq_ok : sqrtm_psd_ok ssqrtm.
Local Notation ofR := (@ofR K).
Local Notation MM := (estimation_cov_kronecker_MM ssqrtm).
Local Notation fsqrt := (fmx R_sqrt.sqrt).
Section Data.
Variables (N a b : nat) (X : 'M[K]_(N, a * b)).
Hypotheses (nz : nonzero_samples X) (N0 : (0 < N)%N) (a0 : (0 < a)%N) (b0 : (0 < b)%N).
Local Notation step := (@mm_step K ssqrtm N (a * b) a b X).
Local Notation start := ((1%:M, invmx 1%:M, 1%:M) : mm_state K a b).

(* ------------------------------------------------------------------ C89 *)
Lemma gmean_id n (A : 'M[K]_n) : pd A -> gmean A A = A.
Proof.
move=> pA; have [ur _] := fsqrtP pA; rewrite /gmean.
have -> : invmx (fsqrt A) *m A *m invmx (fsqrt A) = 1%:M.
  by rewrite -{2}(fsqrt_sqr pA) mulmxA mulVmx // mul1mx mulmxV.
have -> : fsqrt (1%:M : 'M[K]_n) = 1%:M by apply/esym/psd_sqrt_uniq; [exact/pd_psd/pd1|rewrite mulmx1].
by rewrite mulmx1 fsqrt_sqr.
Qed.
(* The states that a pass leaves unchanged are the global minimisers of the cost, among all pairs of factors: the
   algorithm has no other place to stop. *)
Theorem C89_fixed_point (A : 'M[K]_a) (B : 'M[K]_b) : pd A -> pd B ->
  (step (A, invmx A, B) = Ok (A, invmx A, B) <-> kron_minimiser X A^T B).
Proof.
move=> pA pB; rewrite mm_stepE //; move/nonzeroE: (nz) => -> /=; split.
  case: ifP => // uA' [eA _]; rewrite eA => eB; apply: (fixed_min nz N0 pA pB).
    by have := gmean_eq pA (MA_psd X pA pB); rewrite eA mulmxV ?pd_unit // mul1mx.
  by have := gmean_eq pB (MB_psd X pA pB); rewrite eB mulmxV ?pd_unit // mul1mx.
move=> mi; have [] := min_fixed nz N0 a0 b0 mi; rewrite trmxK => fA fB.
by rewrite fA gmean_id // pd_unit // fB gmean_id.
Qed.
(* ------------------------------------------------------------------ C91: the passes as a sequence *)
Section Run.
Hypotheses (sc : span_columns X) (sr : span_rows X).
Definition embed (s : pair K a b) : mm_state K a b := (s.1, invmx s.1, s.2).
Let s0 : pair K a b := (1%:M, 1%:M).
Local Notation s k := (iter k (pass X) s0).
Lemma g0 : good s0. Proof. by split; exact: pd1. Qed.
Lemma gk k : good (s k). Proof. by elim: k => [|k IH]; [exact: g0|exact: (pass_good nz sc sr)]. Qed.
Lemma step_pass t : good t -> step (embed t) = Ok (embed (pass X t)).
Proof.
case: t => A B gs; have [pA' _] := pass_good nz sc sr gs; move: gs => [pA pB]; rewrite /embed mm_stepE //.
by move/nonzeroE: (nz) => -> /=; rewrite (pd_unit pA').
Qed.
Lemma updates_pass k : updates step k start = Ok (embed (s k)).
Proof. by elim: k => // k IH; rewrite -[LHS]/(bindr (updates step k start) step) IH; exact: (step_pass (gk k)). Qed.
Definition rc n (A' A : 'M[K]_n) : R := fro (A' - A) / fro A.
Definition chg k : R := Num.max (rc (s k.+1).1 (s k).1) (rc (s k.+1).2 (s k).2).
Lemma fro_gt0 n (A : 'M[K]_n) : (0 < n)%N -> pd A -> 0 < fro A.
Proof. by case: n A => // n A _ pA; rewrite lt_neqAle eq_sym (pd_fro pA) fro_ge0. Qed.
Lemma relE n (A' A : 'M[K]_n) : (0 < n)%N -> pd A -> rel_change A' A = Fin (rc A' A).
Proof. by move=> n0 pA; rewrite /rel_change /divf gt_eqF ?fro_gt0. Qed.
Lemma change_pass k : mm_change (embed (s k.+1)) (embed (s k)) = Fin (chg k).
Proof.
have [pA pB] := gk k; rewrite /mm_change /embed !relE // /maxf /=; set x := rc _ _; set y := rc _ _.
by rewrite /chg -/x -/y maxElt; case: ifP.
Qed.
Lemma run_pass tol m A B t k : MM a b X tol m = Ok (Some (A, B, t, k)) ->
  [/\ A = (s k).1, B = (s k).2, (k <= m)%N, (forall x, tol = Fin x -> (k < m)%N -> exists2 j, k = j.+1 & chg j <= x) &
      forall x j, tol = Fin x -> (j.+1 < k)%N -> x < chg j].
Proof.
move=> /(C56_result) [iA [d [up rep km st pr]]]; rewrite updates_pass in up; case: up => eA _ eB; split=> //.
  move=> x ex lt; subst tol; case: k {eA eB} rep km st pr lt => [|k] rep km st pr lt.
    by move: rep st lt => -> /(_ isT) ->; rewrite ltnn.
  exists k => //; case: rep => s1 [s2 [e1 e2 ed]]; move: e1 e2; rewrite !updates_pass => -[e1] [e2]; subst s1 s2.
  rewrite change_pass in ed; rewrite leNgt; apply/negP => h; move: st; rewrite ed => /(_ h) e.
  by move: lt; rewrite -e ltnn.
move=> x j ex jk; subst tol; apply: (pr j.+1 (Fin (chg j)) jk); exists (embed (s j)), (embed (s j.+1)).
by rewrite !updates_pass change_pass.
Qed.
End Run.

(* ------------------------------------------------------------------ C90, C91 *)
Hypothesis cK : compactK K.
(* There is one minimiser, and only one up to a factor for each matrix, if and only if the samples are stable. *)
Lemma stable_iff : kron_stable X <-> exists P B, kron_minimiser X P B /\ kron_unique X P B.
Proof.
split=> [st|[P [B [mi un]]]]; last exact: (unique_stable nz N0 a0 b0 mi un).
have [L [M [pL pM [fA fB] _]]] := pass_converges cK nz N0 a0 b0 st g0.
exists L^T, M; split; first exact: fixed_min.
by move=> P' B' [pP' pB' mi]; apply: (stable_unique nz N0 a0 b0 st pL pM fA fB) => //; apply: mi => //; exact: tr_pd.
Qed.
Lemma small_close (e : R) : 0 < e -> exists2 f : R, 0 < f & (1 + f) * (1 + f) - 1 <= e.
Proof. by move=> e0; have [f f0 h] := small_pow 2 e0; exists f => //; rewrite -expr2. Qed.
Lemma mm_converges : kron_stable X -> exists L M, [/\ pd L, pd M, kron_minimiser X L^T M &
  forall e : R, 0 < e ->
  [/\ exists k0, forall tol m A B t k, MM a b X tol m = Ok (Some (A, B, t, k)) -> (k0 <= k)%N -> near e L A /\ near e M B,
      exists2 t0 : R, 0 < t0 & forall x m A B t k, x <= t0 -> MM a b X (Fin x) m = Ok (Some (A, B, t, k)) -> (k < m)%N -> near e L A /\ near e M B &
      exists k1, forall m, (k1 < m)%N -> exists A B k, MM a b X (Fin e) m = Ok (Some (A, B, Fin e, k)) /\ (k <= k1)%N]].
Proof.
move=> st; have [L [M [pL pM [fA fB] cv]]] := pass_converges cK nz N0 a0 b0 st g0.
have [sc sr] := stable_spans cK nz N0 a0 b0 st.
exists L, M; split=> //; first exact: fixed_min.
move=> e e0; pose s k := iter k (pass X) (1%:M, 1%:M).
have gs k : good (s k) := gk sc sr k.
have [k0 hk] : exists k0, forall k, (k0 <= k)%N -> near e L (s k).1 /\ near e M (s k).2.
  have [k0 hk] := cv e e0; exists k0 => k /hk [[h1 h2] [h3 h4]]; have [pA pB] := gs k.
  by split; apply: loewner_fro => //; exact: ltW.
split.
- by exists k0 => tol m A B t k /(run_pass sc sr) [-> -> _ _ _]; exact: hk.
- have [t0 t00 ht] := small_pos (fun j => chg j) k0; exists t0 => // x m A B t k xt /(run_pass sc sr) [-> -> _ /(_ x erefl) h _] /h [j -> hj].
  case: (leqP k0 j) => [jk|jk]; first exact: (hk j.+1 (leqW jk)).
  have := ht j jk (le_trans hj xt); rewrite /chg le_maxl => /andP[c1 c2].
  have same n (A' A1 : 'M[K]_n) : (0 < n)%N -> pd A1 -> rc A' A1 <= 0 -> A' = A1.
    move=> n0 pA1; rewrite /rc ler_pdivr_mulr ?fro_gt0 // mul0r => h'.
    by apply/eqP; rewrite -subr_eq0; apply/eqP/fro_eq0/eqP; rewrite eq_le h' fro_ge0.
  have [pA pB] := gs j; have e1 := same _ _ _ a0 pA c1; have e2 := same _ _ _ b0 pB c2.
  have es : s j.+1 = s j by rewrite [LHS]surjective_pairing [RHS]surjective_pairing; congr (_, _).
  have stay n : s (n + j)%N = s j by elim: n => // n IH; rewrite addSn /s iterS -/(s (n + j)%N) IH -[RHS]es.
  by have := hk (k0 + j.+1)%N (leq_addr _ _); rewrite addnS -addSn stay -es.
have [f f0 hf] := small_close e0; have [k1 hk1] := cv f f0.
exists k1.+1 => m lt; have [A [B [k [ok km _ _]]]] := C56_succeeds sq_ok (Fin e) m nz sc sr.
exists A, B, k; split=> //; rewrite leqNgt; apply/negP => kk.
have [_ _ _ _ h] := run_pass sc sr ok; have := h e k1 erefl kk; apply/negP; rewrite -leNgt /chg le_maxl.
have [pA pB] := gs k1; have [pA' pB'] := gs k1.+1.
have [c1 c2] := hk1 k1 (leqnn _); have [c3 c4] := hk1 k1.+1 (leqnSn _).
have r n (T' T W : 'M[K]_n) : (0 < n)%N -> pd T' -> pd T -> close f T' W -> close f T W -> rc T' T <= e.
  move=> n0 pT' pT h1 h2; rewrite /rc ler_pdivr_mulr ?fro_gt0 //.
  have [h3 h4] := close_le (pd_psd pT') (pd_psd pT) hf (close_trans (ltW f0) (ltW f0) h1 (close_sym h2)).
  by apply: loewner_fro => //; exact: ltW.
by apply/andP; split; [exact: r c3 c1|exact: r c4 c2].
Qed.
End Data.
End Kron.

(* ------------------------------------------------------------------ C90 *)
(* There is a minimiser, unique up to a factor for each matrix, if and only if the samples are stable. *)
Theorem C90_exists_unique_iff N a b : (0 < N)%N -> (0 < a)%N -> (0 < b)%N ->
  (forall X : 'M[real_sf]_(N, a * b), nonzero_samples X -> (kron_stable X <-> exists P B, kron_minimiser X P B /\ kron_unique X P B)) /\
  (forall X : 'M[complex_sf]_(N, a * b), nonzero_samples X -> (kron_stable X <-> exists P B, kron_minimiser X P B /\ kron_unique X P B)).
Proof. by move=> N0 a0 b0; split=> X nz; [exact: (stable_iff nz N0 a0 b0 real_compact)|exact: (stable_iff nz N0 a0 b0 complex_compact)]. Qed.
(* Samples for which Tyler's estimate exists without structure are stable ... *)
Theorem C90_tyler_stable (K : starField) N a b (X : 'M[K]_(N, a * b)) : (0 < N)%N -> (0 < a)%N -> (0 < b)%N -> nonzero_samples X ->
  tyler_condition X -> kron_stable X.
Proof. move=> N0 a0 b0 nz; exact: tyler_stable. Qed.
(* ... but fewer may do: with two by two factors, samples that are invertible once unstacked and send no vector into a line. *)
Theorem C90_two_by_two (K : starField) N (X : 'M[K]_(N, 2 * 2)) : (forall i, unstack X i \in unitmx) ->
  (forall u v : 'cV[K]_2, u != 0 -> v != 0 -> exists i, (v^T *m unstack X i *m u) 0 0 != 0) -> kron_stable X.
Proof. exact: pencil_stable. Qed.

(* ------------------------------------------------------------------ C91 *)
(* For stable samples the function converges to a minimiser: its results approach the same pair (L, M) when the number of
   iterations grows or the tolerance decreases, and it stops before iter_max when this is large. *)
Definition mm_convergence (K : starField) (ssqrtm : forall n, 'M[K]_n -> 'M[K]_n) N a b (X : 'M[K]_(N, a * b)) :=
  exists (L : 'M[K]_a) (M : 'M[K]_b), [/\ pd L, pd M, kron_minimiser X L^T M & forall e : R, 0 < e ->
  [/\ exists k0, forall tol m A B t k, estimation_cov_kronecker_MM ssqrtm a b X tol m = Ok (Some (A, B, t, k)) -> (k0 <= k)%N -> near e L A /\ near e M B,
      exists2 t0 : R, 0 < t0 & forall x m A B t k, x <= t0 -> estimation_cov_kronecker_MM ssqrtm a b X (Fin x) m = Ok (Some (A, B, t, k)) -> (k < m)%N ->
         near e L A /\ near e M B &
      exists k1, forall m, (k1 < m)%N -> exists A B k, estimation_cov_kronecker_MM ssqrtm a b X (Fin e) m = Ok (Some (A, B, Fin e, k)) /\ (k <= k1)%N]].
Theorem C91_converges N a b : (0 < N)%N -> (0 < a)%N -> (0 < b)%N ->
  (forall (ssqrtm : forall n, 'M[real_sf]_n -> 'M[real_sf]_n) (X : 'M[real_sf]_(N, a * b)), sqrtm_psd_ok ssqrtm -> nonzero_samples X -> kron_stable X ->
     mm_convergence ssqrtm X) /\
  (forall (ssqrtm : forall n, 'M[complex_sf]_n -> 'M[complex_sf]_n) (X : 'M[complex_sf]_(N, a * b)), sqrtm_psd_ok ssqrtm -> nonzero_samples X -> kron_stable X ->
     mm_convergence ssqrtm X).
Proof.
by move=> N0 a0 b0; split=> ssqrtm X ok nz st; [exact: (mm_converges ok nz N0 a0 b0 real_compact st)|exact: (mm_converges ok nz N0 a0 b0 complex_compact st)].
Qed.

(* ------------------------------------------------------------------ examples *)
(* three samples of dimension 4, the unstacked matrices are 1, diag(1, -1) and [[0, 1], [-1, 0]] *)
Definition kX (K : starField) : 'M[K]_(3, 2 * 2) :=
  \matrix_(i, l) nth 0 (nth [::] [:: [:: 1; 0; 0; 1]; [:: 1; 0; 0; -1]; [:: 0; -1; 1; 0]] i) l.
Lemma kX_unstack (K : starField) i r c : unstack (kX K) i r c = nth 0 (nth [::] [:: [:: 1; 0; 0; 1]; [:: 1; 0; 0; -1]; [:: 0; -1; 1; 0]] i) (2 * c + r).
Proof. by rewrite !mxE /=; congr (nth _ _ _); rewrite mulnC. Qed.
Example C89_C90_C91_hypotheses (K : starField) : [/\ nonzero_samples (kX K), kron_stable (kX K) & ~ tyler_condition (kX K)].
Proof.
have O i : unstack (kX K) i *m (unstack (kX K) i)^T = 1%:M.
  apply/matrixP => r c; rewrite mxE big_ord_recl big_ord1 ![_^T _ _]mxE !kX_unstack !mxE.
  by case: i => -[|[|[|//]]] hi; case: r => -[|[|//]] hr; case: c => -[|[|//]] hc; rewrite /= ?(mul0r, mulr0, mul1r, mulr1, addr0, add0r, mulrNN).
have U i : unstack (kX K) i \in unitmx by case: (mulmx1_unit (O i)).
have nzK : nonzero_samples (kX K).
  move=> i; rewrite -(unstack_eq0 (a := 2) (b := 2) (kX K) i); apply/eqP => z; have := O i; rewrite z mul0mx => /matrixP /(_ 0 0) /eqP.
  by rewrite !mxE eqxx eq_sym oner_eq0.
split=> //.
- apply: C90_two_by_two => // u v u0 v0; apply: NNPP => no.
  have Z i : (v^T *m unstack (kX K) i *m u) 0 0 = 0 by apply/eqP; apply: contraT => h; case: no; exists i.
  have E i : (v^T *m unstack (kX K) i *m u) 0 0 = \sum_c (\sum_r v r 0 * unstack (kX K) i r c) * u c 0.
    by rewrite mxE; apply: eq_bigr => c _; rewrite mxE; congr (_ * _); apply: eq_bigr => r _; rewrite mxE.
  have o1 (f : 'I_2 -> K) : \sum_c f c = f 0 + f 1 by rewrite big_ord_recl big_ord1; congr (_ + f _); apply: val_inj.
  have z0 := Z ord0; have z1 := Z (Ordinal (isT : (1 < 3)%N)); have z2 := Z (Ordinal (isT : (2 < 3)%N)).
  move: z0 z1 z2; rewrite !E !o1 !kX_unstack /= !(mulr1, mulr0, addr0, add0r, mulrN) !mulNr => z0 z1 z2.
  have p0 : v 0 0 * u 0 0 = 0.
    have : (v 0 0 * u 0 0) *+ 2 = 0 by rewrite mulr2n -[RHS](addr0 0) -{1}z0 -z1 addrACA subrr addr0.
    by move/eqP; rewrite mulrn_eq0 /= => /eqP.
  move: z0 z2; rewrite p0 add0r => p1 /eqP; rewrite addrC subr_eq0 => /eqP p2.
  have n0 (x : 'cV[K]_2) : x 0 0 = 0 -> x 1 0 = 0 -> x = 0.
    by move=> h0 h1; apply/colP => -[[|[|//]] h]; rewrite [RHS]mxE; [rewrite -[RHS]h0|rewrite -[RHS]h1]; congr (x _ _); apply: val_inj.
  move/eqP: p0; rewrite mulf_eq0 => /orP[/eqP q|/eqP q].
    have v1 : v 1 0 != 0 by apply: contraNneq v0 => h; rewrite (n0 v q h).
    move/eqP: p1; rewrite mulf_eq0 (negbTE v1) /= => /eqP u1; move: p2; rewrite q u1 mul0r => /eqP.
    by rewrite ?(eq_sym 0) mulf_eq0 (negbTE v1) /= => /eqP u00; move/eqP: u0; apply; exact: n0.
  have u1 : u 1 0 != 0 by apply: contraNneq u0 => h; rewrite (n0 u q h).
  move/eqP: p1; rewrite mulf_eq0 (negbTE u1) orbF => /eqP v1; move: p2; rewrite q v1 mul0r => /eqP.
  by rewrite mulf_eq0 (negbTE u1) orbF => /eqP v00; move/eqP: v0; apply; exact: n0.
move=> cond; have r0 : row ord0 (kX K) != 0.
  by apply: contraNneq (nzK ord0) => h; rewrite /samp h trmx0.
have r1 : \rank <<row ord0 (kX K)>>%MS = 1%N by rewrite mxrank_gen rank_rV r0.
have := cond <<row ord0 (kX K)>>%MS; rewrite r1 => /(_ isT); rewrite muln1.
have : (0 < count_in (kX K) <<row ord0 (kX K)>>%MS)%N by apply/card_gt0P; exists ord0; rewrite inE genmxE submx_refl.
by case: (count_in _ _) => // n _; rewrite mulnS.
Qed.

Print Assumptions C89_fixed_point.
Print Assumptions C90_exists_unique_iff.
Print Assumptions C90_tyler_stable.
Print Assumptions C90_two_by_two.
Print Assumptions C91_converges.
