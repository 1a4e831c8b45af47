(* Lemmas about the MM algorithm of structured.py. *)
From Coq Require Import Reals.
From mathcomp Require Import all_ssreflect all_algebra.
From mathcomp Require Import mxtens.
From Verif Require Import RealsMC RealTac RealTac2 Star StarInst FunCalc Model_featurearray Model_linalg Proofs_linalg Model_covariance Spec_covariance
  Proofs_loop Proofs_cost Model_structured.
Set Implicit Arguments.
Unset Strict Implicit.
Unset Printing Implicit Defensive.
Local Open Scope ring_scope.
Import GRing.Theory Num.Theory Order.TTheory.

(* What scipy.linalg.sqrtm promises on Hermitian positive semidefinite matrices *)
Definition sqrtm_psd_ok (K : starField) (ssqrtm : forall n, 'M[K]_n -> 'M[K]_n) :=
  forall n (A : 'M[K]_n), psd A -> psd (ssqrtm n A) /\ ssqrtm n A *m ssqrtm n A = A.

Section S.
Variable K : starField.
Local Notation ofR := (@ofR K).
Local Notation toR := (@toR K).
Local Notation fsqrt := (@fmx K _ R_sqrt.sqrt).

Lemma sqrtm_psd_exists : sqrtm_psd_ok (fun n (A : 'M[K]_n) => fmx R_sqrt.sqrt A).
Proof.
move=> n A pA; have hA := psd_herm pA; split; first by apply: fmx_psd => // r _; exact: sqrtR_ge0.
rewrite fmxM // -[RHS](fmx_id hA); apply: eq_in_fmx => // x /(eigval_ge0 pA) x0.
exact: sqrtR_sqr.
Qed.
Lemma fsqrt_psd n (A : 'M[K]_n) : psd A -> psd (fsqrt A). Proof. by case/sqrtm_psd_exists. Qed.
Lemma fsqrt_sq n (A : 'M[K]_n) : psd A -> fsqrt A *m fsqrt A = A. Proof. by case/sqrtm_psd_exists. Qed.
Lemma psd_unit_pd n (A : 'M[K]_n) : psd A -> A \in unitmx -> pd A.
Proof.
move=> pA uA; apply: pdP; first exact: psd_herm.
move=> r er; rewrite lt_neqAle (eigval_ge0 pA er) andbT eq_sym; apply/eqP => r0.
case: er => u u0; rewrite r0 rmorph0 scale0r => Au.
by case/eqP: u0; rewrite -[u]mul1mx -(mulVmx uA) -mulmxA Au mulmx0.
Qed.
Lemma fsqrtP n (A : 'M[K]_n) : pd A -> fsqrt A \in unitmx /\ fsqrt A *m (fsqrt A)^H = A.
Proof.
move=> pA; have e := fsqrt_sq (pd_psd pA); rewrite (fmx_herm _ _ : _ = _); split=> //.
by have := pd_unit pA; rewrite -{1}e unitmx_mul => /andP[].
Qed.
Lemma fsqrt_pd n (A : 'M[K]_n) : pd A -> pd (fsqrt A).
Proof. by move=> pA; apply: psd_unit_pd; [exact/fsqrt_psd/pd_psd|case: (fsqrtP pA)]. Qed.
Lemma fsqrt_sqr n (A : 'M[K]_n) : pd A -> fsqrt A *m fsqrt A = A. Proof. by move=> /pd_psd/fsqrt_sq. Qed.
Lemma invmxM' n (A B : 'M[K]_n) : A \in unitmx -> B \in unitmx -> invmx (A *m B) = invmx B *m invmx A.
Proof.
move=> uA uB; have uAB : A *m B \in unitmx by rewrite unitmx_mul uA.
by rewrite -[RHS]mulmx1 -(mulmxV uAB) !mulmxA mulmxKV // mulVmx // mul1mx.
Qed.
Lemma tr_fro a b (P : 'M[K]_a) (Q : 'M[K]_b) (M : 'M[K]_(b, a)) (G : 'M[K]_a) (H : 'M[K]_b) : P = G *m G^H -> Q = H *m H^H ->
  \tr (P *m (M^H *m Q *m M)) = ofR (fro2 (H^H *m M *m G)).
Proof.
move=> -> ->; rewrite fro2_tr [RHS]mxtrace_mulC !adjM adjK -(mulmxA G) [LHS]mxtrace_mulC.
by rewrite !mulmxA.
Qed.
Lemma tr_pos a b (P : 'M[K]_a) (Q : 'M[K]_b) (M : 'M[K]_(b, a)) : pd P -> pd Q -> M != 0 -> 0 < \tr (P *m (M^H *m Q *m M)).
Proof.
move=> pP pQ M0; have [uG eG] := fsqrtP pP; have [uH eH] := fsqrtP pQ.
rewrite (tr_fro M (esym eG) (esym eH)) ofR_gt0 lt_neqAle fro2_ge0 andbT eq_sym; apply/eqP => /fro2_eq0 h.
case/eqP: M0; have uH' : (fmx R_sqrt.sqrt Q)^H \in unitmx by rewrite unitmx_adj.
by rewrite -[M](mulKmx uH') -[_ *m M](mulmxK uG) h mul0mx mulmx0.
Qed.
Lemma tr_ge0 a b (P : 'M[K]_a) (Q : 'M[K]_b) (M : 'M[K]_(b, a)) : pd P -> pd Q -> 0 <= \tr (P *m (M^H *m Q *m M)).
Proof. by case: (eqVneq M 0) => [->|M0] pP pQ; [rewrite mulmx0 mulmx0 mxtrace0|exact/ltW/tr_pos]. Qed.

(* ---------- the geometric mean of A and M ---------- *)
Section GM.
Variables (n : nat) (A M : 'M[K]_n).
Hypotheses (pA : pd A) (pM : psd M).
Let r := fsqrt A.
Let W := invmx r *m M *m invmx r.
Definition gmean := fsqrt A *m fsqrt (invmx (fsqrt A) *m M *m invmx (fsqrt A)) *m fsqrt A.
Let hr : herm r. Proof. exact: fmx_herm. Qed.
Let ur : r \in unitmx. Proof. by case: (fsqrtP pA). Qed.
Let pW : psd W.
Proof. by rewrite /W -{2}hr -adjV; apply: psd_congr. Qed.
Let S := fsqrt W.
Let gE : gmean = r *m S *m r. Proof. by []. Qed.
Lemma gmean_psd : psd gmean.
Proof. by rewrite gE -{2}hr; apply: psd_congr; exact: fsqrt_psd. Qed.
Lemma gmean_pd : pd M -> pd gmean.
Proof.
move=> pdM; rewrite gE -{2}hr; apply: pd_congr => //; apply: fsqrt_pd.
by rewrite /W -{2}hr -adjV; apply: pd_congr; rewrite ?unitmx_inv.
Qed.
(* A' A^-1 A' = M *)
Lemma gmean_eq : gmean *m invmx A *m gmean = M.
Proof.
have eA : invmx A = invmx r *m invmx r by rewrite -invmxM' // fsqrt_sqr.
have SS : S *m S = invmx r *m M *m invmx r := fsqrt_sq pW.
rewrite gE eA; move: ur SS; clear; clearbody S; clear W; clearbody r => ur SS.
rewrite !mulmxA mulmxK // mulmxKV // -(mulmxA r S S).
by rewrite SS !mulmxA mulmxV // mul1mx mulmxKV.
Qed.
Lemma gm_abs : exists r S : 'M[K]_n, [/\ r \in unitmx, r *m r = A, psd S, S *m S = invmx r *m M *m invmx r & gmean = r *m S *m r].
Proof. exists r, S; split=> //; [exact: fsqrt_sqr|exact: fsqrt_psd|exact: fsqrt_sq]. Qed.
(* traces and determinant, through the eigenvalues of S *)
Lemma gmean_spec : pd gmean -> exists s : 'I_n -> R,
  [/\ forall j, 0 < s j, ln (toR (\det gmean)) = ln (toR (\det A)) + \sum_j ln (s j),
      \tr (invmx gmean *m M) = ofR (\sum_j s j), \tr (invmx A *m M) = ofR (\sum_j s j ^+ 2) &
      (forall j, s j = 1) -> gmean = A].
Proof.
move=> pg; have [q [T [uq rr pT SS gT]]] := gm_abs.
have uT : T \in unitmx by have := pd_unit pg; rewrite gT !unitmx_mul => /andP[/andP[]].
have pdT : pd T by exact: psd_unit_pd.
have [d [V dec]] := spectral (pd_herm pdT); have [uV eT] := dec.
exists (fun j => d 0 j); have s0 j : 0 < d 0 j by apply: (eigval_gt0 pdT); apply: eigdec_eigval dec.
split=> //.
- have -> : \det gmean = \det T * \det A by rewrite gT -rr !det_mulmx mulrAC mulrC.
  rewrite (eigdec_det dec) toRZ lnM ?toR_gt0 ?det_pd //; last by apply: prodr_gt0.
  by rewrite ln_prod // addrC.
- have -> : invmx gmean = invmx q *m invmx T *m invmx q by rewrite gT !invmxM' ?unitmx_mul ?uq // mulmxA.
  have -> : \tr (invmx q *m invmx T *m invmx q *m M) = \tr (invmx T *m (invmx q *m M *m invmx q)).
    by rewrite -!mulmxA mxtrace_mulC !mulmxA.
  rewrite -SS mulmxA mulVmx // mul1mx; exact: eigdec_tr dec.
- have -> : \tr (invmx A *m M) = \tr (invmx q *m M *m invmx q) by rewrite -rr invmxM' // -mulmxA mxtrace_mulC.
  rewrite -SS; have -> : T *m T = V *m dia K (\row_j (d 0 j * d 0 j)) *m V^H.
    by rewrite eT -diaM !mulmxA -(mulmxA _ V^H) uV mulmx1.
  rewrite mxtrace_mulC mulmxA uV mul1mx /mxtrace rmorph_sum; apply: eq_bigr => j _.
  by rewrite diaE eqxx mulr1n mxE expr2.
- move=> s1; have e1 : d = const_mx 1 by apply/rowP => j; rewrite s1 mxE.
  by rewrite gT eT e1 dia_const rmorph1 mulmx1 (unitaryV uV) mulmx1.
Qed.
(* the descent of the MM update *)
Lemma gmean_descent N (T : 'I_N -> 'M[K]_n) (t t' : 'I_N -> R) : (0 < N)%N ->
  (forall i, 0 < t i) -> (forall i, 0 < t' i) ->
  (forall i, \tr (invmx A *m T i) = ofR (t i)) -> (forall i, \tr (invmx gmean *m T i) = ofR (t' i)) ->
  M = \sum_i (n%:R / N%:R) *: ((\tr (invmx A *m T i))^-1 *: T i) -> pd gmean ->
  let f (B : 'M[K]_n) u := ln (toR (\det B)) + n%:R / N%:R * (\sum_(i < N) ln (u i)) in
  f gmean t' <= f A t /\ (f gmean t' = f A t -> gmean = A).
Proof.
move=> N0 t0 t'0 et et' eM pg f; have [s [s0 eD e1 e2 eA]] := gmean_spec pg.
have N1 : N%:R != 0 :> R by rewrite pnatr_eq0 -lt0n.
have trM (B : 'M[K]_n) (u : 'I_N -> R) : (forall i, \tr (B *m T i) = ofR (u i)) ->
    \tr (B *m M) = ofR (n%:R / N%:R * \sum_i (u i / t i)).
  move=> h; rewrite eM mulmx_sumr raddf_sum rmorphM rmorph_sum /= mulr_sumr; apply: eq_bigr => i _.
  rewrite -!scalemxAr !mxtraceZ h et rmorphM fmorphV rmorphM fmorphV !ofR_nat; congr (_ * _); exact: mulrC.
have E2 : \sum_j s j ^+ 2 = n%:R.
  apply: (@ofR_inj K); rewrite -e2 (trM _ t et); congr (ofR _).
  rewrite (eq_bigr (fun=> 1)) => [|i _]; last by rewrite divff // gt_eqF.
  by rewrite sumr_const card_ord -mulrA mulVf ?mulr1.
have E1 : n%:R / N%:R * (\sum_i (t' i / t i)) = \sum_j s j by apply: (@ofR_inj K); rewrite -(trM _ t' et') e1.
have sumln : n%:R / N%:R * (\sum_(i < N) ln (t' i)) <= n%:R / N%:R * (\sum_(i < N) ln (t i)) + (\sum_j s j - n%:R).
  have -> : \sum_j s j - n%:R = n%:R / N%:R * (\sum_i (t' i / t i - 1)).
    by rewrite sumrB mulrBr E1 sumr_const card_ord -mulrA mulVf ?mulr1.
  rewrite -mulrDr -big_split /=; apply: ler_wpmul2l; first by rewrite divr_ge0 ?ler0n.
  apply: ler_sum => i _; rewrite -ler_subl_addl -lnD //.
  by apply: ln_le_sub1; rewrite divr_gt0.
have two : \sum_j (s j - 1) + (\sum_j s j - n%:R) = - \sum_j (s j - 1) ^+ 2.
  have -> : \sum_j (s j - 1) ^+ 2 = \sum_j s j ^+ 2 - (\sum_j s j) *+ 2 + n%:R.
    rewrite (eq_bigr (fun j => s j ^+ 2 - s j *+ 2 + 1)) => [|j _]; last by rewrite sqrrB1.
    by rewrite big_split sumrB sumrMnl sumr_const card_ord.
  rewrite sumrB sumr_const card_ord E2; move: (\sum_j s j) (n%:R : R) => u v; rewrite mulr2n.
  rring.
have hle : f gmean t' - f A t <= - \sum_j (s j - 1) ^+ 2.
  rewrite -two /f eD; have lnS : \sum_j ln (s j) <= \sum_j (s j - 1) by apply: ler_sum => j _; exact: ln_le_sub1.
  move: lnS sumln; move: (\sum_j ln (s j)) (\sum_j (s j - 1)) (n%:R / N%:R * _) (n%:R / N%:R * _) (\sum_j s j - n%:R) (ln _) => u v w x y z h1 h2.
  have -> : z + u + x - (z + w) = u + (x - w) by rring.
  by apply: ler_add => //; rewrite ler_subl_addl.
have sq0 : 0 <= \sum_j (s j - 1) ^+ 2 by apply: sumr_ge0 => j _; exact: sqr_ge0.
split; first by rewrite -subr_le0; apply: le_trans hle _; rewrite oppr_le0.
move=> e; apply: eA => j; move: hle; rewrite e subrr oppr_ge0 => hle.
have z : \sum_j (s j - 1) ^+ 2 = 0 by apply/le_anti; rewrite sq0 hle.
by move/psumr_eq0P: z => /(_ (fun j _ => sqr_ge0 _) j isT) /eqP; rewrite sqrf_eq0 subr_eq0 => /eqP.
Qed.
End GM.

(* ---------- the pass of the loop ---------- *)
Section MM.
Variable ssqrtm : forall n, 'M[K]_n -> 'M[K]_n.
Hypothesis sq_ok : sqrtm_psd_ok ssqrtm.
Variables (N q a b : nat) (X : 'M[K]_(N, q)).
Local Notation M_i := (cell X a b).
Lemma ssqE n (A : 'M[K]_n) : psd A -> ssqrtm A = fsqrt A.
Proof. by move=> pA; have [p1 e1] := sq_ok pA; exact: psd_sqrt_uniq. Qed.
Lemma mm_newE n (A M : 'M[K]_n) : pd A -> psd M -> mm_new ssqrtm A M (invmx (ssqrtm A)) = gmean A M.
Proof.
move=> pA pM; rewrite /mm_new (ssqE (pd_psd pA)) ssqE //.
have hr : herm (fsqrt A) by exact: fmx_herm.
by rewrite -{2}hr -adjV; apply: psd_congr.
Qed.
Lemma np_invP n (A : 'M[K]_n) i : np_inv A = Ok i -> A \in unitmx /\ i = invmx A.
Proof. by rewrite /np_inv; case: ifP => // uA [<-]. Qed.
Lemma den_ge0 (iA : 'M[K]_a) (iB : 'M[K]_b) i : pd iA -> pd iB -> 0 <= mm_denominator X iA iB i.
Proof. exact: tr_ge0. Qed.
Lemma den_gt0 (iA : 'M[K]_a) (iB : 'M[K]_b) i : pd iA -> pd iB -> (0 < mm_denominator X iA iB i) = (M_i i != 0).
Proof.
move=> pA pB; case: eqP => [e|/eqP]; last exact: tr_pos.
by rewrite /mm_denominator /mm_numerator e mulmx0 mulmx0 mxtrace0 ltxx.
Qed.
Lemma den_exists (iA : 'M[K]_a) (iB : 'M[K]_b) : pd iA -> pd iB ->
  [exists i, mm_denominator X iA iB i == 0] = ~~ [forall i, M_i i != 0].
Proof.
move=> pA pB; rewrite negb_forall; apply: eq_existsb => i.
by have := den_gt0 i pA pB; rewrite lt_neqAle den_ge0 // andbT eq_sym negbK => /negb_inj.
Qed.
Lemma mm_M_psd n (num : 'I_N -> 'M[K]_n) den : (forall i, psd (num i)) -> (forall i, 0 <= den i) -> psd (mm_M num den).
Proof.
move=> pn pd; apply: psd_sum => i _; apply: psdZ; first by rewrite divr_ge0 ?ler0n.
by apply: psdZ; rewrite ?invr_ge0.
Qed.
Lemma mm_M_pd n (num : 'I_N -> 'M[K]_n) den : (forall i, psd (num i)) -> (forall i, 0 < den i) ->
  (forall y : 'cV[K]_n, (forall i, qf (num i) y = 0) -> y = 0) -> pd (mm_M num den).
Proof.
move=> pn pd sp; have pM := mm_M_psd pn (fun i => ltW (pd i)); split; first exact: psd_herm.
move=> y y0; rewrite lt_neqAle (proj2 pM y) andbT eq_sym; apply/eqP => e; case/eqP: y0; apply: (sp) => i {sp}.
case: n num pn pM y e => [|n] num pn pM y e; first by rewrite /qf /sesq !mxE big_ord0.
have c0 j : 0 < (n.+1%:R / N%:R : K) * (den j)^-1.
  by rewrite mulr_gt0 ?invr_gt0 // divr_gt0 ?ltr0n //; case: (N) j => // -[].
have := e; rewrite /mm_M qf_sum (eq_bigr (fun j => (n.+1%:R / N%:R * (den j)^-1) * qf (num j) y)) => [|j _]; last first.
  by rewrite !qfZ mulrA.
have ge j : 0 <= n.+1%:R / N%:R * (den j)^-1 * qf (num j) y.
  by rewrite mulr_ge0 ?(ltW (c0 j)) //; exact: (proj2 (pn j)).
move/psumr_eq0P => /(_ (fun j _ => ge j) i isT) /eqP; rewrite mulf_eq0 gt_eqF ?c0 //= => /eqP //.
Qed.
Lemma num_psd (iB : 'M[K]_b) i : pd iB -> psd (mm_numerator a X iB i).
Proof. by move=> pB; rewrite /mm_numerator -{2}(adjK (M_i i)); apply/psd_congr/pd_psd. Qed.
Lemma numB_psd (iA : 'M[K]_a) i : pd iA -> psd (mm_numerator_B b X iA i).
Proof. by move=> pA; apply/psd_congr/pd_psd. Qed.
(* invariant: A is positive definite, i_A its inverse, B positive semidefinite *)
Definition mm_inv (s : mm_state K a b) := let: (A, i_A, B) := s in [/\ pd A, i_A = invmx A & psd B].
Definition MA (A : 'M[K]_a) (B : 'M[K]_b) := mm_M (mm_numerator a X (invmx B)) (mm_denominator X (invmx A) (invmx B)).
Definition MB (A' : 'M[K]_a) (B : 'M[K]_b) := mm_M (mm_numerator_B b X (invmx A')) (mm_denominator X (invmx A') (invmx B)).
Lemma MA_psd A B : pd A -> pd B -> psd (MA A B).
Proof. by move=> /pd_inv pA /pd_inv pB; apply: mm_M_psd => i; [exact: num_psd|exact: den_ge0]. Qed.
Lemma MB_psd A B : pd A -> pd B -> psd (MB A B).
Proof. by move=> /pd_inv pA /pd_inv pB; apply: mm_M_psd => i; [exact: numB_psd|exact: den_ge0]. Qed.
Lemma sq_inv n (A : 'M[K]_n) : pd A -> np_inv (ssqrtm A) = Ok (invmx (ssqrtm A)).
Proof. by move=> pA; rewrite /np_inv ssqE ?(proj1 (fsqrtP pA)) //; exact: pd_psd. Qed.
(* the pass, on positive definite factors *)
Lemma mm_stepE (A : 'M[K]_a) (B : 'M[K]_b) : pd A -> pd B ->
  mm_step ssqrtm X (A, invmx A, B) =
  if ~~ [forall i, M_i i != 0] then Err ValueErr
  else let A' := gmean A (MA A B) in
       if A' \in unitmx then Ok (A', invmx A', gmean B (MB A' B)) else Err LinAlgErr.
Proof.
move=> pA pB; rewrite /mm_step /np_inv (pd_unit pB) /= -!/(np_inv _) !sq_inv //=.
rewrite den_exists; try exact: pd_inv; case: ifP => // nz.
rewrite mm_newE //; last exact: MA_psd.
rewrite -/(MA A B) /np_inv; case: ifP => //= uA'; have pA' : pd (gmean A (MA A B)).
  by apply: psd_unit_pd => //; apply: gmean_psd => //; exact: MA_psd.
rewrite den_exists ?nz; try exact: pd_inv.
rewrite mm_newE //; exact: MB_psd.
Qed.
Lemma mm_step_singular (A iA : 'M[K]_a) (B : 'M[K]_b) : B \notin unitmx -> mm_step ssqrtm X (A, iA, B) = Err LinAlgErr.
Proof. by move=> /negbTE uB; rewrite /mm_step /np_inv uB. Qed.
Lemma mm_step_inv s s' : mm_inv s -> mm_step ssqrtm X s = Ok s' -> mm_inv s'.
Proof.
case: s => [[A iA] B] [pA -> pB]; case uB: (B \in unitmx); last by rewrite mm_step_singular ?uB.
have {pB uB} pB : pd B by exact: psd_unit_pd.
rewrite mm_stepE //; case: ifP => // _ /=; case: ifP => // uA' [<-].
have pA' : pd (gmean A (MA A B)) by apply: psd_unit_pd => //; apply: gmean_psd => //; exact: MA_psd.
by split=> //; apply: gmean_psd => //; exact: MB_psd.
Qed.
Lemma mm_inv0 : mm_inv (1%:M, invmx 1%:M, 1%:M).
Proof. by split=> //; [exact: pd1|exact/pd_psd/pd1]. Qed.
End MM.
End S.
