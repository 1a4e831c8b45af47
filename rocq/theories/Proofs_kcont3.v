(* The passes of the MM algorithm when the samples move a little.  Nothing here models code. *)
From Coq Require Import Reals Lra Classical_Prop Epsilon.
From mathcomp Require Import all_ssreflect all_algebra.
From mathcomp Require Import mxtens.
From Verif Require Import RealsMC RealTac RealTac2 Star FunCalc Spec_covariance Spec_fixedpoint Spec_breakdown Proofs_mest Proofs_cost Proofs_unique Proofs_unique2 Proofs_structured Props_structured
  Compact Proofs_converge Props_cost Props_converge Proofs_exist2 Spec_kron Proofs_kron Proofs_kron1 Proofs_kron2 Proofs_kron3 Proofs_kron4 Proofs_kron5 Proofs_kron6 Proofs_kron7 Proofs_kron8
  Proofs_breakdown Proofs_stable Proofs_stable2 Proofs_tycont Props_tycont Proofs_deriv Proofs_kcont Proofs_kcont2 Props_structured2 Props_kron Model_structured.
Set Implicit Arguments.
Unset Strict Implicit.
Unset Printing Implicit Defensive.
Local Open Scope ring_scope.
Import GRing.Theory Num.Theory Order.TTheory.

Local Notation "A ^H" := (adj A) (at level 8, format "A ^H").
Lemma gmean_le (K : starField) n (A M A' M' : 'M[K]_n) (c : R) : 0 < c -> pd A -> pd M -> pd A' -> pd M' -> loewner A (@ofR K c *: A') -> loewner M (@ofR K c *: M') ->
  loewner (gmean A M) (@ofR K c *: gmean A' M').
Proof.
move=> c0 pA pM pA' pM' h1 h2; have pZ := gmean_pd pA pM; have pZ' := gmean_pd pA' pM'.
have eZ := gmean_eq pA (pd_psd pM); have eZ' := gmean_eq pA' (pd_psd pM').
move: (gmean A M) (gmean A' M') pZ pZ' eZ eZ' => Z Z' pZ pZ' eZ eZ'.
have [G [d [uG eG eG' d0]]] := simdiag pZ pZ'.
have uH : G^H \in unitmx by rewrite unitmx_adj.
have dj j : 1 <= c * d 0 j.
  pose w := G *m delta_mx j 0 : 'cV[K]_n; pose u := invmx G^H *m delta_mx j 0 : 'cV[K]_n.
  have u1 : Z *m u = w by rewrite eG /u mulmxA mulmxK.
  have u2 : Z' *m u = @ofR K (d 0 j) *: w.
    by rewrite eG' /u mulmxA mulmxK // -mulmxA /w scalemxAr; congr (_ *m _); apply/colP => i; rewrite mul_diag_mx !mxE; case: eqP => [->|] //=; rewrite ?mulr0.
  have q1 : qf M u = qf (invmx A) w by rewrite -eZ -u1 /qf /sesq adjM (pd_herm pZ) !mulmxA.
  have q2 : qf M' u = @ofR K (d 0 j ^+ 2) * qf (invmx A') w.
    rewrite -eZ' /qf /sesq; have -> : u^H *m (Z' *m invmx A' *m Z') *m u = (Z' *m u)^H *m invmx A' *m (Z' *m u) by rewrite adjM (pd_herm pZ') !mulmxA.
    by rewrite u2 adjZ -!scalemxAl -scalemxAr scalerA !mxE cj_ofR expr2 rmorphM.
  have u0 : u != 0.
    apply/eqP => z; have : w = 0 by rewrite -u1 z mulmx0.
    move/(congr1 (mulmx (invmx G))); rewrite /w mulmxA mulVmx // mul1mx mulmx0 => /colP /(_ j); rewrite !mxE !eqxx => /eqP; by rewrite oner_eq0.
  have q0 : 0 < qf M u by exact: pM.2.
  have l1 : qf M u <= @ofR K c * qf M' u by have := h2.2 u; rewrite qfD -scaleN1r !qfZ mulN1r subr_ge0.
  have l2 : qf (invmx A') w <= @ofR K c * qf M u by rewrite q1; have := (loewner_inv pA pA' h1).2 w; rewrite qfD -scaleN1r !qfZ mulN1r subr_ge0.
  have : qf M u <= @ofR K ((c * d 0 j) ^+ 2) * qf M u.
    apply: le_trans l1 _; rewrite q2 exprMn expr2 !rmorphM -!mulrA ler_pmul2l ?ofR_gt0 // [X in _ <= X]mulrCA ler_pmul2l // ?ofR_gt0 // [X in _ <= X]mulrCA ler_pmul2l ?ofR_gt0 //.
  rewrite -{1}[qf M u]mul1r (ler_pmul2r q0) -(rmorph1 (@Star.ofR K)) ofR_le -{1}(expr1n _ 2); have cd : 0 <= c * d 0 j by apply/ltW; rewrite mulr_gt0.
  by rewrite ler_sqr ?nnegrE ?ler01.
have e1 : G *m G^H = G *m 1%:M *m G^H by [rewrite mulmx1]; rewrite /loewner eG eG' e1 scalemxAl scalemxAr -mulmxBl -mulmxBr; apply: psd_congr.
have -> : @ofR K c *: dia K d - 1%:M = dia K (\row_j (c * d 0 j - 1)).
  apply/matrixP => i j; rewrite !diaE !mxE; case: eqP => _; rewrite ?mulr1n ?mulr0n ?mulr0 ?subr0 // rmorphB rmorphM (rmorph1 (@Star.ofR K)) //.
by apply: psd_dia => j; rewrite mxE subr_ge0.
Qed.
Lemma gmean_close (K : starField) n (A M A' M' : 'M[K]_n) (e : R) : 0 <= e -> pd A -> pd M -> pd A' -> pd M' -> close e A A' -> close e M M' ->
  close e (gmean A M) (gmean A' M').
Proof. by move=> e0 pA pM pA' pM' [h1 h2] [h3 h4]; split; apply: gmean_le => //; rewrite ltr_spaddl ?ltr01. Qed.

Section Passes.
Variable K : starField.
Local Notation ofR := (@ofR K).
Local Notation toR := (@toR K).
Variables (N a b : nat) (X : 'M[K]_(N, a * b)).
Hypotheses (nz : nonzero_samples X).
Hypotheses (sc : span_columns X) (sr : span_rows X).
Implicit Type Y : 'M[K]_(N, a * b).
(* matrices that depend continuously on the samples *)
Definition cmx m n (F : 'M[K]_(N, a * b) -> 'M[K]_(m, n)) := forall i j, contK (fun Y => F Y i j) X.
Lemma cont_ext (f g : 'M[K]_(N, a * b) -> K) : (forall Y, f Y = g Y) -> contK f X -> contK g X.
Proof. by move=> E cf e e0; apply: near_imp (cf e e0) => Y; rewrite !E. Qed.
Lemma cmx_const m n (M : 'M[K]_(m, n)) : cmx (fun=> M). Proof. by move=> i j; exact: cont_const. Qed.
Lemma cmx_mul m n p (F : 'M[K]_(N, a * b) -> 'M[K]_(m, n)) (G : 'M[K]_(N, a * b) -> 'M[K]_(n, p)) : cmx F -> cmx G -> cmx (fun Y => F Y *m G Y).
Proof.
move=> cF cG i j; apply: (@cont_ext (fun Y => \sum_k F Y i k * G Y k j)) => [Y|]; first by rewrite mxE.
by apply: cont_sum => k; apply: cont_mul; [exact: cF | exact: cG].
Qed.
Lemma cmx_adj m n (F : 'M[K]_(N, a * b) -> 'M[K]_(m, n)) : cmx F -> cmx (fun Y => (F Y)^H).
Proof. move=> cF i j; have h := cont_cj (cF j i); apply: cont_ext h => Y; by rewrite adjE. Qed.
Lemma cmx_cell i : cmx (fun Y => cell Y a b i).
Proof. by move=> r c; apply: (@cont_ext (fun Y => Y i (mxtens_index (c, r)))) => [Y|]; [rewrite cellE mxE | exact: cont_entry]. Qed.
Lemma cmx_M n (num : 'M[K]_(N, a * b) -> 'I_N -> 'M[K]_n) (den : 'M[K]_(N, a * b) -> 'I_N -> K) : (forall i, cmx (fun Y => num Y i)) ->
  (forall i, contK (fun Y => den Y i) X) -> (forall i, den X i != 0) -> cmx (fun Y => mm_M (num Y) (den Y)).
Proof.
move=> cn cd d0 j k; apply: (@cont_ext (fun Y => \sum_i n%:R / N%:R * ((den Y i)^-1 * num Y i j k))) => [Y|].
  by rewrite /mm_M summxE; apply: eq_bigr => i _; rewrite !mxE.
apply: cont_sum => i; apply: cont_mul; first exact: cont_const.
by apply: cont_mul; [apply: cont_inv | exact: cn].
Qed.
Lemma cont_tr n (F : 'M[K]_(N, a * b) -> 'M[K]_n) : cmx F -> contK (fun Y => \tr (F Y)) X.
Proof. by move=> cF; apply: cont_sum => i; exact: cF. Qed.
Lemma cmx_num (Q : 'M[K]_b) i : cmx (fun Y => mm_numerator a Y Q i).
Proof. by apply: cmx_mul; [apply: cmx_mul; [apply/cmx_adj/cmx_cell | exact: cmx_const] | exact: cmx_cell]. Qed.
Lemma cmx_numB (Q : 'M[K]_a) i : cmx (fun Y => mm_numerator_B b Y Q i).
Proof. by apply: cmx_mul; [apply: cmx_mul; [exact: cmx_cell | exact: cmx_const] | apply/cmx_adj/cmx_cell]. Qed.
Lemma cont_den (Q : 'M[K]_a) (T : 'M[K]_b) i : contK (fun Y => mm_denominator Y Q T i) X.
Proof. by apply: cont_tr; apply: cmx_mul; [exact: cmx_const | exact: cmx_num]. Qed.
Lemma den_neq0 (A : 'M[K]_a) (B : 'M[K]_b) i : pd A -> pd B -> mm_denominator X (invmx A) (invmx B) i != 0.
Proof. by move=> pA pB; rewrite gt_eqF // den_gt0 ?cellE ?unstack_eq0 //; exact: pd_inv. Qed.
Definition near_pd n (F : 'M[K]_(N, a * b) -> 'M[K]_n) := [/\ pd (F X), near_data X (fun Y => pd (F Y)) & forall e : R, 0 < e -> near_data X (fun Y => close e (F Y) (F X))].
Lemma cmx_close n (F : 'M[K]_(N, a * b) -> 'M[K]_n) : cmx F -> pd (F X) -> (forall Y, herm (F Y)) -> forall e : R, 0 < e -> near_data X (fun Y => close e (F Y) (F X)).
Proof.
move=> cF pF hF e e0; have [d d0 hd] := close_fro pF e0; apply: near_imp (cont_mx cF d0) => Y h; exact: hd.
Qed.
Lemma near_nz : near_data X (@nonzero_samples K N (a * b)).
Proof.
have X0 i : row i X != 0 by have := nz i; rewrite /samp trmx_eq0.
by apply: near_imp (near_nonzero X0) => Y h i; rewrite /samp trmx_eq0; exact: h.
Qed.
Lemma close_pd n (S T : 'M[K]_n) e : 0 <= e -> herm S -> pd T -> close e S T -> pd S.
Proof.
move=> e0 hS pT [_ h]; have e1 : 0 < 1 + e by rewrite ltr_spaddl ?ltr01.
have -> : S = ofR (1 + e)^-1 *: (ofR (1 + e) *: S) by rewrite scalerA -rmorphM mulVf ?gt_eqF // rmorph1 scale1r.
apply: pdZ; first by rewrite ofR_gt0 invr_gt0.
by have := pdD pT h; rewrite addrC subrK.
Qed.
Lemma near_of_close n (F : 'M[K]_(N, a * b) -> 'M[K]_n) : pd (F X) -> near_data X (fun Y => psd (F Y)) -> (forall e : R, 0 < e -> near_data X (fun Y => close e (F Y) (F X))) -> near_pd F.
Proof.
move=> pF hF h; split=> //; apply: near_imp (near_and hF (h 1 ltr01)) => Y [pY cY].
exact: (close_pd ler01 (psd_herm pY) pF cY).
Qed.
Lemma near_MA (F : 'M[K]_(N, a * b) -> 'M[K]_a) (G : 'M[K]_(N, a * b) -> 'M[K]_b) : near_pd F -> near_pd G -> near_pd (fun Y => MA Y (F Y) (G Y)).
Proof.
move=> [pF nF cF] [pG nG cG]; have pM := MA_pd pF pG nz sc; apply: near_of_close => //.
  by apply: near_imp (near_and nF nG) => Y [h1 h2]; exact: MA_psd.
move=> e e0; have [f f0 hf] := small_pow 4 e0.
have c1 : near_data X (fun Y => close f (MA Y (F X) (G X)) (MA X (F X) (G X))).
  apply: (cmx_close (F := fun Y => MA Y (F X) (G X))) => // [|Y]; last exact/psd_herm/MA_psd.
  by apply: cmx_M => i; [exact: cmx_num | exact: cont_den | exact: den_neq0].
apply: near_imp (near_and near_nz (near_and (near_and nF nG) (near_and (near_and (cF f f0) (cG f f0)) c1))) => Y [nY [[pFY pGY] [[h1 h2] h3]]].
apply: close_le hf _; [exact/MA_psd | exact/pd_psd |].
exact: (cl_trans (ltW f0) (MA_cl nY (ltW f0) pFY pF pGY pG (cl1 h1) (cl1 h2)) (cl1 h3)).
Qed.
Lemma near_MB (F : 'M[K]_(N, a * b) -> 'M[K]_a) (G : 'M[K]_(N, a * b) -> 'M[K]_b) : near_pd F -> near_pd G -> near_pd (fun Y => MB Y (F Y) (G Y)).
Proof.
move=> [pF nF cF] [pG nG cG]; have pM := MB_pd pF pG nz sr; apply: near_of_close => //.
  by apply: near_imp (near_and nF nG) => Y [h1 h2]; exact: MB_psd.
move=> e e0; have [f f0 hf] := small_pow 4 e0.
have c1 : near_data X (fun Y => close f (MB Y (F X) (G X)) (MB X (F X) (G X))).
  apply: (cmx_close (F := fun Y => MB Y (F X) (G X))) => // [|Y]; last exact/psd_herm/MB_psd.
  by apply: cmx_M => i; [exact: cmx_numB | exact: cont_den | exact: den_neq0].
apply: near_imp (near_and near_nz (near_and (near_and nF nG) (near_and (near_and (cF f f0) (cG f f0)) c1))) => Y [nY [[pFY pGY] [[h1 h2] h3]]].
apply: close_le hf _; [exact/MB_psd | exact/pd_psd |].
exact: (cl_trans (ltW f0) (MB_cl nY (ltW f0) pFY pF pGY pG (cl1 h1) (cl1 h2)) (cl1 h3)).
Qed.
Lemma near_gmean n (F G : 'M[K]_(N, a * b) -> 'M[K]_n) : near_pd F -> near_pd G -> near_pd (fun Y => gmean (F Y) (G Y)).
Proof.
move=> [pF nF cF] [pG nG cG]; split; first exact: gmean_pd.
  by apply: near_imp (near_and nF nG) => Y [h1 h2]; exact: gmean_pd.
move=> e e0; apply: near_imp (near_and (near_and nF nG) (near_and (cF e e0) (cG e e0))) => Y [[h1 h2] [h3 h4]].
by apply: gmean_close => //; exact: ltW.
Qed.
(* so do the passes *)
Lemma near_pass k (A : 'M[K]_a) (B : 'M[K]_b) : pd A -> pd B ->
  near_pd (fun Y => (iter k (pass Y) (A, B)).1) /\ near_pd (fun Y => (iter k (pass Y) (A, B)).2).
Proof.
move=> pA pB; elim: k => [|k [IH1 IH2]].
  have cst n (S : 'M[K]_n) : pd S -> near_pd (fun=> S).
    move=> pS; split=> //; first by exists 1 => //; exact: ltr01.
    move=> e e0; exists 1 => [|Y _]; [exact: ltr01 | split; rewrite -{1}[S]scale1r -(rmorph1 (@Star.ofR K)); apply: loewner_le (pd_psd pS) _; by rewrite ler_addl ltW].
  by split; exact: cst.
have h1 : near_pd (fun Y => (iter k.+1 (pass Y) (A, B)).1) by exact: (near_gmean IH1 (near_MA IH1 IH2)).
by split=> //; exact: (near_gmean IH2 (near_MB h1 IH2)).
Qed.
End Passes.
