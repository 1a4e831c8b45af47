(* How the results of the MM algorithm for Kronecker structured covariances depend on the order, the norms and the
   coordinates of the samples: C114. *)
From Coq Require Import Reals Lra.
From mathcomp Require Import all_ssreflect all_algebra fingroup perm.
From mathcomp Require Import complex mxtens.
From Verif Require Import RealsMC RealTac RealTac2 Star StarInst FunCalc Model_featurearray Model_covariance Spec_covariance Proofs_mest Proofs_loop Props_covariance
  Proofs_unique2 Proofs_linalg Compact Proofs_converge Props_converge Model_structured Proofs_structured Props_structured Spec_kron Props_kron Proofs_estimators Proofs_cost Props_cost.
Set Implicit Arguments.
Unset Strict Implicit.
Unset Printing Implicit Defensive.
Local Open Scope ring_scope.
Import GRing.Theory Num.Theory Order.TTheory.

(* ------------------------------------------------------------------ specification *)
Section Spec.
Variable K : starField.
(* Y is made of the samples of X in another order, each multiplied by a number and by the matrix W *)
Definition moved N p (s : 'S_N) (c : 'I_N -> K) (W : 'M[K]_p) (X Y : 'M[K]_(N, p)) :=
  forall i, samp Y i = c i *: (W *m samp X (s i)).
(* what the results of the function on X become: the covariance models are A^T (x) B, multiplied by G (x) H on both sides *)
Definition moved_result a b (G : 'M[K]_a) (H : 'M[K]_b) (r : res (option ('M[K]_a * 'M[K]_b * flt * nat))) :=
  match r with
  | Ok (Some (A, B, t, k)) => Ok (Some ((G *m A^T *m G^H)^T, H *m B *m H^H, t, k))
  | _ => r end.
End Spec.

Section Inv.
Variable K : starField.
Local Notation ofR := (@ofR K).
Local Notation toR := (@toR K).
Local Notation fsqrt := (@fmx K _ R_sqrt.sqrt).

(* the geometric mean is equivariant *)
Lemma gmean_uniq n (A M Z : 'M[K]_n) : pd A -> psd M -> psd Z -> Z *m invmx A *m Z = M -> Z = gmean A M.
Proof.
move=> pA pM pZ e; have [ur _] := fsqrtP pA; have rr := fsqrt_sqr pA.
have hr : herm (fsqrt A) by exact: fmx_herm.
rewrite /gmean; set r := fsqrt A in ur rr hr *.
have <- : invmx r *m Z *m invmx r = fsqrt (invmx r *m M *m invmx r).
  apply: psd_sqrt_uniq; first by rewrite -{2}hr -adjV; apply: psd_congr.
  have eA : invmx A = invmx r *m invmx r by rewrite -invmxM' // rr.
  by rewrite -e eA !mulmxA.
by move: ur; clearbody r => {rr hr} ur; rewrite mulmxA mulmxA mulmxV // mul1mx mulmxKV.
Qed.
Lemma invmx_congr n (U A : 'M[K]_n) : U \in unitmx -> A \in unitmx -> invmx (U *m A *m U^H) = (invmx U)^H *m invmx A *m invmx U.
Proof. by move=> uU uA; rewrite !invmxM' ?unitmx_mul ?unitmx_adj ?uU // adjV mulmxA. Qed.
Lemma unit_congr n (U A : 'M[K]_n) : U \in unitmx -> (U *m A *m U^H \in unitmx) = (A \in unitmx).
Proof. by move=> uU; rewrite !unitmx_mul unitmx_adj uU andbT. Qed.
Lemma gmean_congr n (U A M : 'M[K]_n) : U \in unitmx -> pd A -> psd M -> gmean (U *m A *m U^H) (U *m M *m U^H) = U *m gmean A M *m U^H.
Proof.
move=> uU pA pM; apply/esym/gmean_uniq; [exact: pd_congr|exact: psd_congr|apply/psd_congr/gmean_psd => //|].
rewrite (invmx_congr uU (pd_unit pA)) adjV !mulmxA -(mulmxA _ U^H) mulmxV ?unitmx_adj // mulmx1.
by rewrite -(mulmxA _ (invmx U) U) mulVmx // mulmx1 -[in RHS](gmean_eq pA pM) !mulmxA.
Qed.

Section Data.
Variables (ssqrtm : forall n, 'M[K]_n -> 'M[K]_n) (N a b : nat) (X Y : 'M[K]_(N, a * b)).
Hypothesis sq_ok : sqrtm_psd_ok ssqrtm.
Variables (s : 'S_N) (c : 'I_N -> K) (G : 'M[K]_a) (H : 'M[K]_b).
Hypotheses (c0 : forall i, c i != 0) (uG : G \in unitmx) (uH : H \in unitmx) (mv : moved s c (G *t H) X Y).
Local Notation U := (G^T^H).
Lemma uU : U \in unitmx. Proof. by rewrite unitmx_adj unitmx_tr. Qed.
Lemma unstack_moved i : unstack Y i = c i *: (H *m unstack X (s i) *m U^H).
Proof.
apply/matrixP => r k; have -> : unstack Y i r k = samp Y i (mxtens_index (k, r)) 0 by rewrite !mxE.
rewrite mv !mxE big_tens; congr (_ * _); apply: eq_bigr => k' _.
rewrite [X in _ = X * _]mxE big_distrl; apply: eq_bigr => r' _.
rewrite tensmxE; have -> : samp X (s i) (mxtens_index (k', r')) 0 = unstack X (s i) r' k' by rewrite !mxE.
by rewrite adjK [G^T _ _]mxE -[RHS]/(_ * _) -mulrA [RHS]mulrC.
Qed.
Definition q i : K := c i * @cj K (c i).
Lemma q0 i : q i != 0. Proof. by rewrite mul_cj_eq0. Qed.
Definition rot (t : mm_state K a b) : mm_state K a b := (U *m t.1.1 *m U^H, invmx (U *m t.1.1 *m U^H), H *m t.2 *m H^H).
Lemma num_moved (B : 'M[K]_b) i : B \in unitmx -> mm_numerator a Y (invmx (H *m B *m H^H)) i = q i *: (U *m mm_numerator a X (invmx B) (s i) *m U^H).
Proof.
move=> uB; rewrite /mm_numerator !cellE unstack_moved (invmx_congr uH uB) adjZ !adjM !adjK -!scalemxAl -scalemxAr scalerA -/(q i) mulrC -/(q i).
by congr (_ *: _); rewrite adjV !mulmxA mulmxK ?unitmx_adj // mulmxKV.
Qed.
Lemma numB_moved (A : 'M[K]_a) i : A \in unitmx -> mm_numerator_B b Y (invmx (U *m A *m U^H)) i = q i *: (H *m mm_numerator_B b X (invmx A) (s i) *m H^H).
Proof.
move=> uA; rewrite /mm_numerator_B !cellE unstack_moved (invmx_congr uU uA) adjZ !adjM !adjK -!scalemxAl -scalemxAr scalerA -/(q i).
by congr (_ *: _); rewrite adjV adjK !mulmxA mulmxK ?unitmx_tr // mulmxKV ?uU.
Qed.
Lemma den_moved (A : 'M[K]_a) (B : 'M[K]_b) i : A \in unitmx -> B \in unitmx ->
  mm_denominator Y (invmx (U *m A *m U^H)) (invmx (H *m B *m H^H)) i = q i * mm_denominator X (invmx A) (invmx B) (s i).
Proof.
move=> uA uB; rewrite /mm_denominator num_moved // (invmx_congr uU uA) -scalemxAr mxtraceZ; congr (_ * _).
have uV := uU; have e : U^H *m (invmx U)^H = 1%:M by rewrite -adjM mulVmx // adj1.
by rewrite -!mulmxA (mulKmx uV) mxtrace_mulC -!mulmxA e mulmx1 /mm_numerator !mulmxA.
Qed.
Lemma M_moved n (P : 'M[K]_n) (num num' : 'I_N -> 'M[K]_n) den den' : (forall i, num' i = q i *: (P *m num (s i) *m P^H)) ->
  (forall i, den' i = q i * den (s i)) -> mm_M num' den' = P *m mm_M num den *m P^H.
Proof.
move=> hn hd; rewrite /mm_M mulmx_sumr mulmx_suml [RHS](reindex_inj (@perm_inj _ s)); apply: eq_bigr => i _.
rewrite hn hd [X in _ *: X = _]scalerA invfM mulrAC mulVf ?q0 // mul1r.
by rewrite -!scalemxAr -!scalemxAl.
Qed.
Lemma step_moved t : mm_inv t -> rres (fun t t' => mm_inv t /\ t' = rot t) (mm_step ssqrtm X t) (mm_step ssqrtm Y (rot t)).
Proof.
case: t => [[A iA] B] [pA -> pB]; rewrite -[rot _]/((U *m A *m U^H, invmx (U *m A *m U^H), H *m B *m H^H)).
case uB: (B \in unitmx); last first.
  by rewrite (mm_step_singular ssqrtm X _ _ (negbT uB)) (mm_step_singular ssqrtm Y _ _ (_ : H *m B *m H^H \notin unitmx)) // !unitmx_mul uB andbF.
have {pB uB} pB : pd B by exact: psd_unit_pd.
have := @mm_step_inv _ ssqrtm sq_ok _ _ _ _ X (A, invmx A, B) _ (And3 pA erefl (pd_psd pB)).
have pA2 : pd (U *m A *m U^H) by apply: pd_congr => //; exact: uU.
have pB2 : pd (H *m B *m H^H) by apply: pd_congr.
rewrite !mm_stepE //.
have -> : [forall i, cell Y a b i != 0] = [forall i, cell X a b i != 0].
  apply/forallP/forallP => h i; last first.
    rewrite cellE unstack_moved scaler_eq0 (negbTE (c0 i)) /= -cellE; apply: contraNneq (h (s i)) => e.
    by rewrite -[cell X a b (s i)](mulKmx uH) -[X in _ *m X](mulmxK (_ : U^H \in unitmx)) ?e ?mul0mx ?mulmx0 // unitmx_adj uU.
  have := h (s^-1 i)%g; rewrite !cellE unstack_moved permKV; apply: contraNneq => ->.
  by rewrite mulmx0 mul0mx scaler0.
case: ifP => // nz /=.
have -> : MA Y (U *m A *m U^H) (H *m B *m H^H) = U *m MA X A B *m U^H.
  by apply: M_moved => i; [exact/num_moved/pd_unit|apply: den_moved; exact: pd_unit].
rewrite gmean_congr ?uU //; last exact: MA_psd.
rewrite unit_congr ?uU //; case: ifP => // uA' hi.
have pA' : pd (gmean A (MA X A B)) by apply: psd_unit_pd => //; apply: gmean_psd => //; exact: MA_psd.
split; first exact: hi.
have -> : MB Y (U *m gmean A (MA X A B) *m U^H) (H *m B *m H^H) = H *m MB X (gmean A (MA X A B)) B *m H^H.
  by apply: M_moved => i; [exact/numB_moved/pd_unit|apply: den_moved; exact: pd_unit].
by rewrite gmean_congr //; exact: MB_psd.
Qed.
Section Unitary.
Hypotheses (oG : unitary G) (oH : unitary H).
Lemma oU : unitary U.
Proof.
have e : U = (G^H)^T by apply/matrixP => i j; rewrite !mxE.
by rewrite /unitary adjK e -trmx_mul oG trmx1.
Qed.
Lemma rel_moved n (P A A' : 'M[K]_n) : unitary P -> rel_change (P *m A' *m P^H) (P *m A *m P^H) = rel_change A' A.
Proof. by move=> uP; rewrite /rel_change -mulmxBl -mulmxBr !fro_congr. Qed.
Lemma trU (A : 'M[K]_a) : (G *m A^T *m G^H)^T = U *m A *m U^H.
Proof. by rewrite !trmx_mul trmxK adjK mulmxA; congr (_ *m _ *m _); apply/matrixP => i j; rewrite !mxE. Qed.
Definition Rel t t' := mm_inv t /\ t' = rot t.
Definition out (tol : flt) (r : option (res (mm_state K a b * flt * nat))) : res (option ('M[K]_a * 'M[K]_b * flt * nat)) := match r with
  | Some (Ok (A, _, B, delta, iteration)) => Ok (Some (A, B, tol, iteration))
  | Some (Err e) => Err e
  | None => Ok None end.
Lemma out_moved tol r1 r2 : rout Rel r1 r2 -> out tol r2 = moved_result G H (out tol r1).
Proof.
case: r1 => [[[[[[A iA] B] d] k]|e]|]; case: r2 => [[[[[[A' iA'] B'] d'] k']|e']|] h; try by case: h.
- by case: h => -[_ [-> _ ->]] _ ->; rewrite /moved_result /out trU.
- by rewrite h.
Qed.
Lemma mm_moved tol m : estimation_cov_kronecker_MM ssqrtm a b Y tol m = moved_result G H (estimation_cov_kronecker_MM ssqrtm a b X tol m).
Proof.
rewrite /estimation_cov_kronecker_MM eqxx [~~ true]/=; cbv iota.
have st t t' : Rel t t' -> rres Rel (mm_step ssqrtm X t) (mm_step ssqrtm Y t') by move=> [i ->]; exact: step_moved.
have ch t t' t1 t1' : Rel t t' -> mm_step ssqrtm X t = Ok t1 -> mm_step ssqrtm Y t' = Ok t1' -> Rel t1 t1' ->
    mm_change t1 t = mm_change t1' t'.
  move=> [_ ->] _ _ [_ ->]; case: t t1 => [[A iA] B] [[A1 iA1] B1].
  by rewrite /mm_change /rot /= !rel_moved //; exact: oU.
have r0 : Rel (1%:M, invmx 1%:M, 1%:M) (1%:M, invmx 1%:M, 1%:M).
  by split; [exact: mm_inv0|rewrite /rot /= !mulmx1 (unitaryV oU) (unitaryV oH)].
exact: (out_moved tol (loop_sim gtf PInf st ch tol m r0)).
Qed.
End Unitary.
End Data.
End Inv.

(* ------------------------------------------------------------------ C114, along the iterations *)
Lemma moved_result1 (K : starField) a b (r : res (option ('M[K]_a * 'M[K]_b * flt * nat))) : moved_result 1%:M 1%:M r = r.
Proof. by case: r => [[[[[A B] t] k]|]|] //=; rewrite !adj1 !mulmx1 !mul1mx trmxK. Qed.
(* The order of the samples and their norms do not matter: same results, same errors, same number of iterations. *)
Theorem C114_order_and_norms (K : starField) (ssqrtm : forall n, 'M[K]_n -> 'M[K]_n) N a b (X Y : 'M[K]_(N, a * b)) (s : 'S_N) (c : 'I_N -> K) tol m :
  sqrtm_psd_ok ssqrtm -> (forall i, c i != 0) -> (forall i, samp Y i = c i *: samp X (s i)) ->
  estimation_cov_kronecker_MM ssqrtm a b Y tol m = estimation_cov_kronecker_MM ssqrtm a b X tol m.
Proof.
move=> ok c0 e; have mv : moved s c (1%:M *t 1%:M) X Y by move=> i; rewrite tens_one mul1mx.
rewrite (mm_moved ok c0 (unitmx1 _ _) (unitmx1 _ _) mv (unitary1 _ _) (unitary1 _ _)); exact: moved_result1.
Qed.
(* Unitary changes of the coordinates of rows and columns: the results are moved by them, after the same number of iterations. *)
Theorem C114_rotations (K : starField) (ssqrtm : forall n, 'M[K]_n -> 'M[K]_n) N a b (X Y : 'M[K]_(N, a * b)) (s : 'S_N) (c : 'I_N -> K)
    (G : 'M[K]_a) (H : 'M[K]_b) tol m :
  sqrtm_psd_ok ssqrtm -> (forall i, c i != 0) -> unitary G -> unitary H -> moved s c (G *t H) X Y ->
  estimation_cov_kronecker_MM ssqrtm a b Y tol m = moved_result G H (estimation_cov_kronecker_MM ssqrtm a b X tol m).
Proof. by move=> ok c0 oG oH mv; apply: (mm_moved ok c0 _ _ mv) => //; exact: unitary_unit. Qed.
(* In terms of the covariances modelled by the two factors (C57: A^T (x) B). *)
Theorem C114_covariance (K : starField) (ssqrtm : forall n, 'M[K]_n -> 'M[K]_n) N a b (X Y : 'M[K]_(N, a * b)) (s : 'S_N) (c : 'I_N -> K)
    (G : 'M[K]_a) (H : 'M[K]_b) tol m A B t k :
  sqrtm_psd_ok ssqrtm -> (forall i, c i != 0) -> unitary G -> unitary H -> moved s c (G *t H) X Y ->
  estimation_cov_kronecker_MM ssqrtm a b X tol m = Ok (Some (A, B, t, k)) ->
  exists A' B', estimation_cov_kronecker_MM ssqrtm a b Y tol m = Ok (Some (A', B', t, k)) /\
    A'^T *t B' = (G *t H) *m (A^T *t B) *m (G *t H)^H.
Proof.
move=> ok c0 oG oH mv e; rewrite (C114_rotations tol m ok c0 oG oH mv) e; do 2 eexists; split; first by [].
by rewrite trmxK tens_adj !tensmx_mul.
Qed.
(* The covariance stored by the estimators, kron(A, B), moves with the conjugate of G instead. *)
Theorem C114_stored (K : starField) (ssqrtm : forall n, 'M[K]_n -> 'M[K]_n) N a b (X Y : 'M[K]_(N, a * b)) (s : 'S_N) (c : 'I_N -> K)
    (G : 'M[K]_a) (H : 'M[K]_b) tol m A B t k :
  sqrtm_psd_ok ssqrtm -> (forall i, c i != 0) -> unitary G -> unitary H -> moved s c (G *t H) X Y ->
  estimation_cov_kronecker_MM ssqrtm a b X tol m = Ok (Some (A, B, t, k)) ->
  exists A' B', estimation_cov_kronecker_MM ssqrtm a b Y tol m = Ok (Some (A', B', t, k)) /\
    A' *t B' = ((G^H)^T *t H) *m (A *t B) *m ((G^H)^T *t H)^H.
Proof.
move=> ok c0 oG oH mv e; rewrite (C114_rotations tol m ok c0 oG oH mv) e; do 2 eexists; split; first by [].
rewrite tens_adj !tensmx_mul; congr (_ *t _); rewrite !trmx_mul trmxK mulmxA; congr (_ *m _ *m _);
  by apply/matrixP => i j; rewrite !mxE ?cjK.
Qed.

(* ------------------------------------------------------------------ C114, for the limits *)
Section Limit.
Variable K : starField.
Local Notation ofR := (@ofR K).
Variables (N a b : nat) (X Y : 'M[K]_(N, a * b)) (s : 'S_N) (c : 'I_N -> K) (G : 'M[K]_a) (H : 'M[K]_b).
Hypotheses (nz : nonzero_samples X) (c0 : forall i, c i != 0) (uG : G \in unitmx) (uH : H \in unitmx) (mv : moved s c (G *t H) X Y).
Let W := G *t H.
Let uW : W \in unitmx. Proof. by case: (tens_inv uG uH). Qed.
Lemma YE : Y = scale_samples c (row_perm s X *m W^T).
Proof.
apply/matrixP => i j; have := congr1 (fun x : 'cV_(a * b) => x j 0) (mv i).
by rewrite [LHS]mxE mxE => ->; rewrite -samp_row_perm -samp_mulmx !mxE.
Qed.
Definition shift : R := N%:R * ln (@toR K (\det W * @cj K (\det W))) + (a * b)%:R * (\sum_i ln (@toR K (c i * @cj K (c i)))).
Lemma cost_moved P B : pd P -> pd B -> kron_cost Y (G *m P *m G^H) (H *m B *m H^H) = kron_cost X P B + shift.
Proof.
move=> pP pB; have pPB := tens_pd pP pB; rewrite -[LHS]/(tcost Y _) -[kron_cost X P B]/(tcost X (P *t B)).
have -> : (G *m P *m G^H) *t (H *m B *m H^H) = W *m (P *t B) *m W^H by rewrite tens_adj !tensmx_mul.
rewrite YE tcost_scale_samples //; last exact: pd_congr.
- rewrite tcost_affine // -addrA; congr (_ + _).
  by rewrite /tcost; congr (_ * _ + _); rewrite [RHS](reindex_inj (@perm_inj _ s)); apply: eq_bigr => i _; rewrite samp_row_perm.
- move=> i; rewrite -trmx_eq0 -/(samp _ i) samp_mulmx samp_row_perm; apply: contraNneq (nz (s i)) => e.
  by rewrite -[samp X (s i)](mulKmx uW) e mulmx0.
Qed.
Lemma un_congr n (P Q : 'M[K]_n) : P \in unitmx -> pd Q -> exists2 Q', pd Q' & Q = P *m Q' *m P^H.
Proof.
move=> uP pQ; exists (invmx P *m Q *m (invmx P)^H); first by apply: pd_congr; rewrite ?unitmx_inv.
by rewrite adjV !mulmxA mulmxV // mul1mx mulmxKV ?unitmx_adj.
Qed.
Lemma congr_inj n (P Q Q' : 'M[K]_n) (d : R) : P \in unitmx -> Q' = ofR d *: Q -> P *m Q' *m P^H = ofR d *: (P *m Q *m P^H).
Proof. by move=> uP ->; rewrite -scalemxAr -scalemxAl. Qed.
Lemma min_moved P B : kron_minimiser X P B -> kron_minimiser Y (G *m P *m G^H) (H *m B *m H^H).
Proof.
move=> [pP pB mi]; split; [exact: pd_congr|exact: pd_congr|move=> P' B' pP' pB'].
have [P1 pP1 ->] := un_congr uG pP'; have [B1 pB1 ->] := un_congr uH pB'.
by rewrite !cost_moved // ler_add2r; exact: mi.
Qed.
Lemma min_movedV P B : pd P -> pd B -> kron_minimiser Y (G *m P *m G^H) (H *m B *m H^H) -> kron_minimiser X P B.
Proof.
move=> pP pB [_ _ mi]; split=> // P' B' pP' pB'; rewrite -(ler_add2r shift) -!cost_moved //.
by apply: mi; apply: pd_congr.
Qed.
Lemma unique_moved P B : kron_unique X P B -> kron_unique Y (G *m P *m G^H) (H *m B *m H^H).
Proof.
move=> un P' B' mi'; have [pP' pB' _] := mi'.
have [P1 pP1 e1] := un_congr uG pP'; have [B1 pB1 e2] := un_congr uH pB'.
rewrite e1 e2 in mi' *; have [[d d0 ed] [f f0 ef]] := un _ _ (min_movedV pP1 pB1 mi').
by split; [exists d|exists f] => //; apply: congr_inj.
Qed.
Lemma nz_moved : nonzero_samples Y.
Proof.
move=> i; rewrite mv scaler_eq0 (negbTE (c0 i)) /=; apply: contraNneq (nz (s i)) => e.
by rewrite -[samp X (s i)](mulKmx uW) e mulmx0.
Qed.
Variables (ssqrtm : forall n, 'M[K]_n -> 'M[K]_n).
Hypotheses (cK : compactK K) (sq_ok : sqrtm_psd_ok ssqrtm) (N0 : (0 < N)%N) (a0 : (0 < a)%N) (b0 : (0 < b)%N).
Lemma stable_moved : kron_stable X -> kron_stable Y.
Proof.
move=> /(stable_iff nz N0 a0 b0 cK) [P [B [mi un]]]; apply/(stable_iff nz_moved N0 a0 b0 cK).
by exists (G *m P *m G^H), (H *m B *m H^H); split; [exact: min_moved|exact: unique_moved].
Qed.
End Limit.
(* (L, M) is the limit of the results of the function on X: they approach it when the number of iterations grows or the
   tolerance decreases, and the function stops on the tolerance *)
Definition mm_limit (K : starField) (ssqrtm : forall n, 'M[K]_n -> 'M[K]_n) N a b (X : 'M[K]_(N, a * b)) (L : 'M[K]_a) (M : 'M[K]_b) :=
  forall e : R, 0 < e ->
  [/\ exists k0, forall tol m A B t k, estimation_cov_kronecker_MM ssqrtm a b X tol m = Ok (Some (A, B, t, k)) -> (k0 <= k)%N -> near e L A /\ near e M B,
      exists2 t0 : R, 0 < t0 & forall x m A B t k, x <= t0 -> estimation_cov_kronecker_MM ssqrtm a b X (Fin x) m = Ok (Some (A, B, t, k)) -> (k < m)%N ->
         near e L A /\ near e M B &
      exists k1, forall m, (k1 < m)%N -> exists A B k, estimation_cov_kronecker_MM ssqrtm a b X (Fin e) m = Ok (Some (A, B, Fin e, k)) /\ (k <= k1)%N].
(* Any invertible changes of the coordinates of rows and columns: the limits are moved by them, up to a factor for each matrix. *)
Definition limits_moved (K : starField) := forall (ssqrtm : forall n, 'M[K]_n -> 'M[K]_n) N a b (X Y : 'M[K]_(N, a * b)) (s : 'S_N) (c : 'I_N -> K)
    (G : 'M[K]_a) (H : 'M[K]_b), sqrtm_psd_ok ssqrtm -> (0 < N)%N -> (0 < a)%N -> (0 < b)%N -> nonzero_samples X -> kron_stable X ->
  (forall i, c i != 0) -> G \in unitmx -> H \in unitmx -> moved s c (G *t H) X Y ->
  nonzero_samples Y /\ kron_stable Y /\
  exists L M L' M', [/\ mm_limit ssqrtm X L M, mm_limit ssqrtm Y L' M', pd L /\ pd M,
    exists2 d : R, 0 < d & L'^T = @ofR K d *: (G *m L^T *m G^H) &
    exists2 d : R, 0 < d & M' = @ofR K d *: (H *m M *m H^H)].
Lemma limits_moved_gen (K : starField) : compactK K -> limits_moved K.
Proof.
move=> cK ssqrtm N a b X Y s c G H ok N0 a0 b0 nz st c0 uG uH mv.
have nzY := nz_moved nz c0 uG uH mv; have stY := stable_moved nz c0 uG uH mv cK N0 a0 b0 st.
do 2 split=> //.
have [L [M [pL pM mi h]]] := mm_converges ok nz N0 a0 b0 cK st.
have [L' [M' [pL' pM' mi' h']]] := mm_converges ok nzY N0 a0 b0 cK stY.
have /(stable_iff nzY N0 a0 b0 cK) [P [B [mP un]]] := stY.
have [[d1 d10 e1] [f1 f10 g1]] := un _ _ (min_moved nz c0 uG uH mv mi).
have [[d2 d20 e2] [f2 f20 g2]] := un _ _ mi'.
have sc n (A1 A2 A : 'M[K]_n) (x y : R) : 0 < x -> A1 = @ofR K x *: A -> A2 = @ofR K y *: A -> A2 = @ofR K (y / x) *: A1.
  by move=> x0 -> ->; rewrite scalerA -rmorphM /= divfK // gt_eqF.
exists L, M, L', M'; split; [exact: h|exact: h'|by split| |].
- by exists (d2 / d1); [rewrite divr_gt0|exact: sc e1 e2].
- by exists (f2 / f1); [rewrite divr_gt0|exact: sc g1 g2].
Qed.
Theorem C114_limits : limits_moved real_sf /\ limits_moved complex_sf.
Proof. by split; apply: limits_moved_gen; [exact: real_compact|exact: complex_compact]. Qed.

(* ------------------------------------------------------------------ examples *)
Lemma moved_ok (K : starField) N p (s : 'S_N) (c : 'I_N -> K) (W : 'M[K]_p) (X : 'M[K]_(N, p)) :
  moved s c W X (scale_samples c (row_perm s X *m W^T)).
Proof. by move=> i; rewrite samp_scale samp_mulmx samp_row_perm. Qed.
(* three samples of dimension 4 as in C90, two of them exchanged, all doubled, the rows exchanged, the columns multiplied by -1 *)
Definition swap3 : 'S_3 := tperm 0 1.
Definition rowsw (K : starField) : 'M[K]_2 := perm_mx (tperm 0 1).
Definition kY (K : starField) : 'M[K]_(3, 2 * 2) := scale_samples (fun _ => 2%:R) (row_perm swap3 (kX K) *m (- 1%:M *t rowsw K)^T).
Example C114_hypotheses (K : starField) : [/\ nonzero_samples (kX K), kron_stable (kX K), (forall i : 'I_3, (2%:R : K) != 0) &
  [/\ unitary (- 1%:M : 'M[K]_2), unitary (rowsw K), moved swap3 (fun _ => 2%:R) (- 1%:M *t rowsw K) (kX K) (kY K) & - 1%:M <> 1%:M :> 'M[K]_2]].
Proof.
have [h1 h2 _] := C89_C90_C91_hypotheses K; have n2 : (2%:R : K) != 0 by rewrite pnatr_eq0.
split=> //; split.
- by rewrite /unitary adjN adj1 mulNmx mulmxN opprK mulmx1.
- have -> : unitary (rowsw K) = ((rowsw K)^H *m rowsw K = 1%:M) by [].
  have -> : (rowsw K)^H = (rowsw K)^T by apply/matrixP => i j; rewrite adjE !mxE; case: (_ == _); rewrite ?rmorph1 ?rmorph0.
  by rewrite tr_perm_mx -perm_mxM mulVg perm_mx1.
- exact: moved_ok.
move/matrixP => /(_ 0 0); rewrite !mxE eqxx => /eqP; rewrite -subr_eq0 -opprD oppr_eq0 -[1 + 1]/(2%:R) (negbTE n2) //.
Qed.
Print Assumptions C114_order_and_norms.
Print Assumptions C114_rotations.
Print Assumptions C114_covariance.
Print Assumptions C114_stored.
Print Assumptions C114_limits.
Print Assumptions C114_hypotheses.
