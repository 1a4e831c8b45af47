(* Differentiability of the estimates in the samples. *)
From Coq Require Import Reals Lra Classical Epsilon.
From mathcomp Require Import all_ssreflect all_algebra perm.
From mathcomp Require Import complex zify.
From Verif Require Import RealsMC RealTac RealTac2 Star FunCalc Compact Spec_covariance Spec_deriv
  Proofs_mest Proofs_cost Proofs_unique Proofs_unique2 Proofs_converge Proofs_kron3 Proofs_stable Proofs_stable2 Proofs_tylip.
Set Implicit Arguments.
Unset Strict Implicit.
Unset Printing Implicit Defensive.
Local Open Scope ring_scope.
Import GRing.Theory Num.Theory Order.TTheory.

Section Seq.
Variable K : starField.
Local Notation ofR := (@ofR K).
Local Notation cj := (@cj K).
Local Notation "A ^H" := (adj A) (at level 8, format "A ^H").
Lemma cvg_fsum (T : finType) (z : nat -> T -> K) (l : T -> K) : (forall t, cvg (fun k => z k t) (l t)) -> cvg (fun k => \sum_t z k t) (\sum_t l t).
Proof.
move=> h; rewrite /index_enum; elim: (Finite.enum T) => [|t r IH].
  by rewrite big_nil; apply: cvg_ext (cvg_const 0) => k; rewrite big_nil.
by rewrite big_cons; apply: cvg_ext (cvgD (h t) IH) => k; rewrite big_cons.
Qed.
Lemma cvg_fprod (T : finType) (z : nat -> T -> K) (l : T -> K) : (forall t, cvg (fun k => z k t) (l t)) -> cvg (fun k => \prod_t z k t) (\prod_t l t).
Proof.
move=> h; rewrite /index_enum; elim: (Finite.enum T) => [|t r IH].
  by rewrite big_nil; apply: cvg_ext (cvg_const 1) => k; rewrite big_nil.
by rewrite big_cons; apply: cvg_ext (cvgM (h t) IH) => k; rewrite big_cons.
Qed.
Lemma cvg_inv (z : nat -> K) l : l != 0 -> cvg z l -> cvg (fun k => (z k)^-1) l^-1.
Proof.
move=> l0 h; have [k0 hk0] := cvg_neq0 h l0; have s0 := sq_gt0 l0.
apply/cvgP => e e0; have [k1 hk1] := (cvgP _ _).1 h (e * (sq l * sq l / 4%:R)) (mulr_gt0 e0 (divr_gt0 (mulr_gt0 s0 s0) (ltr0n _ 4))).
exists (maxn k0 k1) => k; rewrite geq_max => /andP[a b]; have H := hk0 k a.
have z0 : z k != 0.
  apply/negP => /eqP z0; move: H; rewrite z0 Proofs_stable2.sq0 leNgt => /negP; apply; exact: divr_gt0 (ltr0n _ 4).
have -> : (z k)^-1 - l^-1 = (l - z k) / (z k * l).
  by rewrite mulrBl invfM; congr (_ - _); [rewrite mulrCA divff // mulr1 | rewrite mulrA divff // mul1r].
rewrite Proofs_stable2.sqM Proofs_stable2.sqV Proofs_stable2.sqM -[l - z k]opprB sqN ler_pdivr_mulr; last by rewrite mulr_gt0 // sq_gt0.
apply: le_trans (hk1 k b) _; rewrite ler_pmul2l // [sq (z k) * _]mulrC -mulrA; by rewrite ler_pmul2l.
Qed.
Lemma cvg_det n (A : nat -> 'M[K]_n) B : cvgm A B -> cvg (fun k => \det (A k)) (\det B).
Proof.
move=> h; apply: cvg_fsum => s; apply: cvgM; first exact: cvg_const.
by apply: cvg_fprod => i; exact: h.
Qed.
Lemma cvgm_inv n (A : nat -> 'M[K]_n) B : (forall k, A k \in unitmx) -> B \in unitmx -> cvgm A B -> cvgm (fun k => invmx (A k)) (invmx B).
Proof.
move=> uA uB h i j; rewrite /invmx uB mxE.
have : cvg (fun k => (\det (A k))^-1 * (\adj (A k)) i j) ((\det B)^-1 * (\adj B) i j).
  apply: cvgM; first by apply: cvg_inv (cvg_det h); rewrite -unitfE.
  rewrite !mxE /cofactor; apply: (@cvg_ext _ (fun k => (-1) ^+ (j + i) * \det (row' j (col' i (A k))))) => [k|]; first by rewrite mxE.
  apply: cvgM; [exact: cvg_const | apply: cvg_det => x y].
  by rewrite !mxE; apply: cvg_ext (h (lift j x) (lift i y)) => k; rewrite !mxE.
by move=> H; apply: cvg_ext H => k; rewrite uA [in RHS]mxE.
Qed.
Lemma cvgmD m n (A B : nat -> 'M[K]_(m, n)) A' B' : cvgm A A' -> cvgm B B' -> cvgm (fun k => A k + B k) (A' + B').
Proof. by move=> h h' i j; rewrite mxE; apply: cvg_ext (cvgD (h i j) (h' i j)) => k; rewrite mxE. Qed.
Lemma cvgmZ m n (z : nat -> K) (A : nat -> 'M[K]_(m, n)) l A' : cvg z l -> cvgm A A' -> cvgm (fun k => z k *: A k) (l *: A').
Proof. by move=> h h' i j; rewrite mxE; apply: cvg_ext (cvgM h (h' i j)) => k; rewrite mxE. Qed.
Lemma cvgmN m n (A : nat -> 'M[K]_(m, n)) A' : cvgm A A' -> cvgm (fun k => - A k) (- A').
Proof. by move=> h; rewrite -scaleN1r; apply: cvgm_ext (cvgmZ (cvg_const (-1)) h) => k; rewrite scaleN1r. Qed.
Lemma cvgmB m n (A B : nat -> 'M[K]_(m, n)) A' B' : cvgm A A' -> cvgm B B' -> cvgm (fun k => A k - B k) (A' - B').
Proof. by move=> h h'; exact: cvgmD h (cvgmN h'). Qed.
Lemma cvgm_sum (T : finType) m n (A : nat -> T -> 'M[K]_(m, n)) A' : (forall t, cvgm (fun k => A k t) (A' t)) -> cvgm (fun k => \sum_t A k t) (\sum_t A' t).
Proof. by move=> h i j; rewrite summxE; apply: cvg_ext (cvg_fsum (fun t => h t i j)) => k; rewrite summxE. Qed.
Lemma cvgm_samp N p (Y : nat -> 'M[K]_(N, p)) X i : cvgm Y X -> cvgm (fun k => samp (Y k) i) (samp X i).
Proof. by move=> h a b; rewrite !mxE; apply: cvg_ext (h i a) => k; rewrite !mxE. Qed.
Lemma cvg_ofR (t : nat -> R) l : tends t l -> cvg (fun k => ofR (t k)) (ofR l).
Proof.
move=> h; apply/cvgP => e e0; have m0 : 0 < Num.min 1 e by rewrite lt_minr ltr01.
have [k0 hk] := h _ m0; exists k0 => k kk; have := hk k kk; rewrite le_minr => /andP[a b].
rewrite -rmorphB -[ofR (t k - l)]mulr1 sq_scale Proofs_stable2.sq1 mulr1 -real_normK ?num_real // expr2; apply: le_trans b; apply: ler_pimull => //; exact: normr_ge0.
Qed.
(* the limit in norm *)
Lemma cvgm_fro m n (A : nat -> 'M[K]_(m, n)) L (e : R) : cvgm A L -> 0 < e -> exists k0, forall k, (k0 <= k)%N -> fro (A k - L) <= e.
Proof.
move=> h e0; have H : tends (fun k => \sum_i \sum_j sq (A k i j - L i j)) (\sum_(i < m) \sum_(j < n) 0).
  by apply: tends_sum => i; apply: tends_sum => j; exact: h.
have [k0 hk] := H (e ^+ 2) (exprn_gt0 2 e0); exists k0 => k /hk.
have -> : \sum_(i < m) \sum_(j < n) (0 : R) = 0 by rewrite big1 // => i _; rewrite big1.
rewrite subr0 => /(le_trans (ler_norm _)) le; rewrite -ler_sqr ?nnegrE ?fro_ge0 ?(ltW e0) // fro_sq fro2E.
by move: le; congr (_ <= _); apply: eq_bigr => i _; apply: eq_bigr => j _; rewrite !mxE.
Qed.
End Seq.

Lemma ratio_diff (c a x y : R) : a + x != 0 -> a + y != 0 -> c / (a + y) = c / (a + x) - c / ((a + y) * (a + x)) * (y - x).
Proof.
move=> x0 y0; have -> : y - x = (a + y) - (a + x) by rewrite opprD addrACA subrr add0r.
by rewrite invfM mulrA mulrBr mulfVK // [X in _ - (X - _)]mulrAC mulfVK // opprB [RHS]addrC subrK.
Qed.
Section Step.
Variables (K : starField) (N p : nat).
Local Notation ofR := (@ofR K).
Local Notation "A ^H" := (adj A) (at level 8, format "A ^H").
Implicit Types (X Y U : 'M[K]_(N, p.+1)) (S T D v : 'M[K]_p.+1).
Lemma sampDZ X U (t : K) i : samp (X + t *: U) i = samp X i + t *: samp U i.
Proof. by apply/matrixP => a b; rewrite !mxE. Qed.
Definition dq S T (x y u : 'cV[K]_p.+1) D : K := (u^H *m invmx T *m y + x^H *m invmx T *m u - x^H *m invmx S *m D *m invmx T *m x) 0 0.
Lemma dqE S T (x u : 'cV[K]_p.+1) D (t : R) : pd S -> pd T -> T = S + ofR t *: D -> let y := x + ofR t *: u in
  ofR (maha T y) - ofR (maha S x) = ofR t * dq S T x y u D.
Proof.
move=> pS pT eT y; have uS := pd_unit pS; have uT := pd_unit pT.
have eD : T - S = ofR t *: D by rewrite eT addrC addKr.
have eI : invmx T = invmx S - ofR t *: (invmx S *m D *m invmx T).
  have -> : ofR t *: (invmx S *m D *m invmx T) = invmx S *m (T - S) *m invmx T by rewrite eD -scalemxAr -scalemxAl.
  by rewrite mulmxBr mulmxBl mulVmx // mul1mx -mulmxA mulmxV // mulmx1 opprB addrC subrK.
rewrite !ofR_maha // /qf /sesq /y adjD adjZ cj_ofR.
have -> : (x^H + ofR t *: u^H) *m invmx T *m (x + ofR t *: u) =
    x^H *m invmx T *m x + ofR t *: (x^H *m invmx T *m u + u^H *m invmx T *m (x + ofR t *: u)).
  by rewrite !mulmxDl !mulmxDr -!scalemxAr -!scalemxAl !scalerDr !addrA.
rewrite {1}eI mulmxBr mulmxBl -scalemxAr -scalemxAl /dq !mxE -/y !mulmxA.
move: (\sum_j _) (\sum_j _) (\sum_j _) (\sum_j _) => q1 q2 q3 q4.
by rewrite [q1 + q2]addrC mulrBr addrAC [q4 - _]addrC addrK addrC.
Qed.
(* the difference of two updates, divided by t *)
Definition dstep (c a : R) X U S D Y T : 'M[K]_p.+1 :=
  \sum_i (ofR (c / (a + maha S (samp X i))) *: (samp U i *m (samp Y i)^H + samp X i *m (samp U i)^H) -
          (ofR (c / ((a + maha T (samp Y i)) * (a + maha S (samp X i)))) * dq S T (samp X i) (samp Y i) (samp U i) D) *: (samp Y i *m (samp Y i)^H)).
Lemma dstepE (c a : R) X U S D (t : R) : pd S -> pd (S + ofR t *: D) -> 0 <= a -> (forall i, row i X != 0) -> (forall i, row i (X + ofR t *: U) != 0) ->
  mstep (ratio c a) (X + ofR t *: U) (S + ofR t *: D) - mstep (ratio c a) X S = ofR t *: dstep c a X U S D (X + ofR t *: U) (S + ofR t *: D).
Proof.
move=> pS pT a0 X0 Y0; rewrite /mstep /wsum -sumrB /dstep scaler_sumr; apply: eq_bigr => i _.
set x := samp X i; set y := samp _ i; set u := samp U i; set T := S + _.
have ey : y = x + ofR t *: u by exact: sampDZ.
have qx : a + maha S x != 0 by rewrite gt_eqF // ltr_paddl // maha_gt0 // samp0.
have qy : a + maha T y != 0 by rewrite gt_eqF // ltr_paddl // maha_gt0 // samp0.
have eo : outer y = outer x + ofR t *: (u *m y^H + x *m u^H).
  by rewrite /outer {1}ey mulmxDl -scalemxAl scalerDr addrA [RHS]addrAC; congr (_ + _); rewrite ey adjD adjZ cj_ofR mulmxDr -scalemxAr.
have ew : ofR (ratio c a (maha T y)) = ofR (ratio c a (maha S x)) - ofR t * (ofR (c / ((a + maha T y) * (a + maha S x))) * dq S T x y u D).
  have := dqE x u pS pT (erefl T); rewrite /= -ey -/T => hd.
  rewrite mulrCA -hd -rmorphB -rmorphM -rmorphB; congr (ofR _).
  exact: ratio_diff.
rewrite ew scalerBl {1}eo [RHS]scalerBr scalerDr !scalerA -/(outer y).
rewrite /ratio; move: (ofR (c / (a + maha S x))) (_ * dq _ _ _ _ _ _) => w d.
by rewrite [LHS]addrAC [w *: outer x + _]addrC addrK [w * _]mulrC.
Qed.
(* its limit *)
Lemma cvg_dstep (c a : R) X (U : nat -> 'M[K]_(N, p.+1)) U' S (D : nat -> 'M[K]_p.+1) D' (Y : nat -> 'M[K]_(N, p.+1)) (T : nat -> 'M[K]_p.+1) :
  pd S -> (forall k, pd (T k)) -> 0 <= a -> (forall i, row i X != 0) -> cvgm U U' -> cvgm D D' -> cvgm Y X -> cvgm T S ->
  cvgm (fun k => dstep c a X (U k) S (D k) (Y k) (T k)) (dupdate c a X U' S D').
Proof.
move=> pS pT a0 X0 hU hD hY hT; apply: cvgm_sum => i.
have uS := pd_unit pS; have hI := cvgm_inv (fun k => pd_unit (pT k)) uS hT.
have hy := cvgm_samp i hY; have hu := cvgm_samp i hU.
have qx : a + maha S (samp X i) != 0 by rewrite gt_eqF // ltr_paddl // maha_gt0 // samp0.
have hq : cvg (fun k => dq S (T k) (samp X i) (samp (Y k) i) (samp (U k) i) (D k)) (dmaha S (samp X i) (samp U' i) D').
  have cx := cvgm_const (samp X i); have cS := cvgm_const (invmx S).
  have h1 := cvgm_mul (cvgm_mul (cvgm_adj hu) hI) hy; have h2 := cvgm_mul (cvgm_mul (cvgm_adj cx) hI) hu.
  have h3 := cvgm_mul (cvgm_mul (cvgm_mul (cvgm_mul (cvgm_adj cx) cS) hD) hI) cx.
  exact: (cvgmB (cvgmD h1 h2) h3 0 0).
have hm : cvg (fun k => ofR (maha (T k) (samp (Y k) i))) (ofR (maha S (samp X i))).
  rewrite ofR_maha //; apply: cvg_ext (cvgm_mul (cvgm_mul (cvgm_adj hy) hI) hy 0 0) => k; by rewrite ofR_maha.
have h1 := cvgmD (cvgm_mul hu (cvgm_adj hy)) (cvgm_mul (cvgm_const (samp X i)) (cvgm_adj hu)).
have hw : cvg (fun k => ofR (c / ((a + maha (T k) (samp (Y k) i)) * (a + maha S (samp X i))))) (ofR (c / (a + maha S (samp X i)) ^+ 2)).
  have h := cvgM (cvgD (cvg_const (ofR a)) hm) (cvg_const (ofR a + ofR (maha S (samp X i)))).
  have n0 : (ofR a + ofR (maha S (samp X i))) * (ofR a + ofR (maha S (samp X i))) != 0 by rewrite -rmorphD mulf_neq0 // fmorph_eq0.
  have h' := cvg_scale (ofR c) (cvg_inv n0 h).
  rewrite expr2 rmorphM fmorphV rmorphM rmorphD; apply: cvg_ext h' => k; by rewrite !(rmorphM, fmorphV, rmorphD).
exact: cvgmB (cvgmZ (cvg_const _) h1) (cvgmZ (cvgM hw hq) (cvgm_mul hy (cvgm_adj hy))).
Qed.
Lemma dstep_self (c a : R) X U S D : dstep c a X U S D X S = dupdate c a X U S D.
Proof. by apply: eq_bigr => i _; rewrite expr2. Qed.
Lemma cvg_dupdate (c a : R) X (U : nat -> 'M[K]_(N, p.+1)) U' S (D : nat -> 'M[K]_p.+1) D' : pd S -> 0 <= a -> (forall i, row i X != 0) -> cvgm U U' -> cvgm D D' ->
  cvgm (fun k => dupdate c a X (U k) S (D k)) (dupdate c a X U' S D').
Proof.
move=> pS a0 X0 hU hD; have := cvg_dstep c pS (fun=> pS) a0 X0 hU hD (cvgm_const X) (cvgm_const S).
by apply: cvgm_ext => k; exact: dstep_self.
Qed.
Lemma dmahaL (S : 'M[K]_p.+1) x (r : R) u u' D D' : dmaha S x (ofR r *: u + u') (ofR r *: D + D') = ofR r * dmaha S x u D + dmaha S x u' D'.
Proof.
rewrite /dmaha adjD adjZ cj_ofR !mulmxDr !mulmxDl -!scalemxAr -!scalemxAl !mxE.
move: (\sum_j _) (\sum_j _) (\sum_j _) (\sum_j _) (\sum_j _) (\sum_j _) => q1 q2 q3 q4 q5 q6.
by rewrite mulrBr mulrDr opprD [ofR r * q6 + q5 + _]addrACA [LHS]addrACA.
Qed.
Lemma dupdateL (c a : R) X S (r : R) U U' D D' : dupdate c a X (ofR r *: U + U') S (ofR r *: D + D') = ofR r *: dupdate c a X U S D + dupdate c a X U' S D'.
Proof.
rewrite /dupdate scaler_sumr -big_split; apply: eq_bigr => i _ /=.
have -> : samp (ofR r *: U + U') i = ofR r *: samp U i + samp U' i by rewrite addrC sampDZ addrC.
rewrite dmahaL adjD adjZ cj_ofR mulmxDl mulmxDr -scalemxAl -scalemxAr addrACA -scalerDr.
move: (samp X i *m (samp X i)^H) (dmaha _ _ _ _) (dmaha _ _ _ _) (_ *m _ + _ *m _) (_ *m _ + _ *m _) (ofR (c / _)) (ofR (c / _)) => B d d' A A' w w'.
rewrite scalerDr mulrDr scalerDl opprD addrACA; congr (_ + _).
by rewrite scalerBr !scalerA [w' * _]mulrC mulrCA.
Qed.
End Step.

Lemma fchoice (A : Type) (x0 : A) (P : nat -> A -> Prop) : (forall k, exists x, P k x) -> exists f, forall k, P k (f k).
Proof. by move=> h; exists (fun k => epsilon (inhabits x0) (P k)) => k; exact: (epsilon_spec (inhabits x0) (P k) (h k)). Qed.
Definition eps (k : nat) : R := k.+1%:R^-1.
Lemma eps_gt0 k : 0 < eps k. Proof. by rewrite invr_gt0 ltr0n. Qed.
Lemma tends_eps (c : R) : tends (fun k => c * eps k) 0.
Proof.
move=> e e0; have [n hn] := arch `|c| e0; exists n => k nk; rewrite subr0 normrM [ `|eps k| ]ger0_norm ?(ltW (eps_gt0 k)) // /eps ler_pdivr_mulr ?ltr0n // mulrC.
by apply: le_trans (ltW hn) _; rewrite ler_pmul2r // ler_nat leqW.
Qed.
Lemma tends_le (u v : nat -> R) : (forall k, 0 <= u k <= v k) -> tends v 0 -> tends u 0.
Proof.
move=> h hv e /hv [k0 hk]; exists k0 => k /hk; rewrite !subr0 => le; have /andP[a b] := h k.
by rewrite ger0_norm //; apply: le_trans b (le_trans (ler_norm _) le).
Qed.

Section Core.
Variables (K : starField) (N p : nat).
Local Notation ofR := (@ofR K).
Local Notation "A ^H" := (adj A) (at level 8, format "A ^H").
Hypothesis cK : compactK K.
Variables (c a : R) (X : 'M[K]_(N, p.+1)) (S : 'M[K]_p.+1) (g : K) (t0 C0 : R).
Local Notation F := (mstep (ratio c a)).
Hypotheses (c0 : 0 <= c) (a0 : 0 <= a) (X0 : forall i, row i X != 0) (pS : pd S) (fS : F X S = S).
Hypotheses (t00 : 0 < t0) (t01 : t0 <= 1) (C00 : 0 <= C0).
Hypothesis res : forall v, pd v -> close t0 v S -> g * \tr (v - S) = 0 -> fro (v - S) <= C0 * fro (F X v - v).
Hypothesis exi : near_data X (fun Y => exists T, [/\ pd T, close t0 T S, F Y T = T & g * \tr (T - S) = 0]).
Implicit Types (U Y : 'M[K]_(N, p.+1)) (D v T : 'M[K]_p.+1).
Definition deriv U D := [/\ herm D, g * \tr D = 0 & D = dupdate c a X U S D].

Lemma deriv_lin (r : R) U U' D D' : deriv U D -> deriv U' D' -> deriv (ofR r *: U + U') (ofR r *: D + D').
Proof.
move=> [h1 g1 e1] [h2 g2 e2]; split.
- by apply: hermD => //; exact: hermZR.
- by rewrite mxtraceD mxtraceZ mulrDr g2 addr0 mulrCA g1 mulr0.
- by rewrite dupdateL -e1 -e2.
Qed.
Lemma deriv_scale (r : R) U D : deriv U D -> deriv (ofR r *: U) (ofR r *: D).
Proof.
move=> h; have := deriv_lin (r - 1) h h; by rewrite rmorphB (rmorph1 (@Star.ofR K)) !scalerBl !scale1r !subrK.
Qed.
Lemma deriv_lim (U : nat -> 'M[K]_(N, p.+1)) (D : nat -> 'M[K]_p.+1) U' D' (r : nat -> R) : cvgm U U' -> cvgm D D' -> tends r 0 ->
  (forall k, herm (D k)) -> (forall k, g * \tr (D k) = 0) ->
  (exists (Y : nat -> 'M[K]_(N, p.+1)) (T : nat -> 'M[K]_p.+1), [/\ cvgm Y X, cvgm T S, forall k, pd (T k) & forall k, fro (dstep c a X (U k) S (D k) (Y k) (T k) - D k) <= r k]) -> deriv U' D'.
Proof.
move=> hU hD hr hh hg [Y [T [hY hT pT hk]]]; split.
- apply: (cvgm_uniq (s := D)) => //; by apply: cvgm_ext (cvgm_adj hD) => k; exact: (hh k).
- apply: (cvg_uniq (z := fun k => g * \tr (D k))); last by apply: cvg_ext (cvg_const 0) => k; rewrite hg.
  by apply: cvg_scale; apply: cvg_fsum => i; exact: hD.
- have H := cvgmB (cvg_dstep c pS pT a0 X0 hU hD hY hT) hD.
  apply/esym/eqP; rewrite -subr_eq0; apply/eqP/fro_eq0/eqP; rewrite eq_le fro_ge0 andbT leNgt; apply/negP => l0.
  set L := dupdate _ _ _ _ _ _ - D' in H l0; have l3 : 0 < fro L / 3%:R by rewrite divr_gt0 ?ltr0n.
  have [k1 h1] := cvgm_fro H l3; have [k2 h2] := hr _ l3; pose k := maxn k1 k2.
  have := h1 k (leq_maxl _ _); have := h2 k (leq_maxr _ _); rewrite subr0 => /(le_trans (ler_norm _)) /(le_trans (hk k)); set A := _ - D k => hA hB.
  have : fro L <= fro L / 3%:R + fro L / 3%:R.
    have {1}-> : L = A - (A - L) by rewrite opprB addrC subrK.
    by apply: le_trans (froD _ _) _; rewrite froN; exact: ler_add.
  move: l0; move: (fro L) => l; clear => l0; have -> : l / 3%:R + l / 3%:R = l * (2%:R / 3%:R) by rfield.
  rewrite -subr_ge0; have -> : l * (2%:R / 3%:R) - l = - (l / 3%:R) by rfield.
  by rewrite oppr_ge0 leNgt divr_gt0 ?ltr0n.
Qed.
(* small Hermitian changes *)
Lemma small_close D : herm D -> exists2 t : R, 0 < t & forall s : R, 0 <= s -> s <= t -> pd (S + ofR s *: D) /\ close t0 (S + ofR s *: D) S.
Proof.
move=> hD; have [b [b1 _ s2]] := pd_comparable pS (pd1 K p.+1); have b0 := lt_le_trans ltr01 b1.
pose fd := fro D; have fd0 : 0 <= fd := fro_ge0 D; have e0 : 0 < fd * b + 1 by rewrite ltr_spaddr ?ltr01 // mulr_ge0 // ltW.
exists (t0 / 2%:R / (fd * b + 1)); first by rewrite !divr_gt0 ?ltr0n.
move=> s s0 st; pose x := s * fd * b; have x0 : 0 <= x by rewrite !mulr_ge0 // ltW.
have xt : x <= t0 / 2%:R.
  move: st; rewrite ler_pdivl_mulr // => st; apply: le_trans st; by rewrite /x -mulrA; apply: ler_wpmul2l => //; rewrite ler_addl ler01.
have h2 : fro2 (ofR s *: D) <= (s * fd) ^+ 2 by rewrite -fro_sq froZ.
have [q1 q2] := herm_le_fro (hermZR s hD) (mulr_ge0 s0 fd0) h2.
have l1 : loewner (ofR (s * fd) *: 1%:M) (ofR x *: S) by have := loewnerZ (mulr_ge0 s0 fd0) s2; rewrite scalerA -rmorphM.
have lo : loewner (ofR (1 - x) *: S) (S + ofR s *: D).
  have := psdD l1 q2; congr psd; rewrite addrA subrK rmorphB (rmorph1 (@Star.ofR K)) scalerBl scale1r opprB [S + _]addrC addrACA subrr addr0; exact: addrC.
have up : loewner (S + ofR s *: D) (ofR (1 + x) *: S).
  by have := psdD l1 q1; congr psd; rewrite addrA subrK rmorphD (rmorph1 (@Star.ofR K)) scalerDl scale1r opprD addrACA subrr add0r.
have t2 : t0 / 2%:R <= t0 by rewrite ler_pdivr_mulr ?ltr0n // ler_pmulr // ler1n.
have x1 : x < 1 by apply: le_lt_trans xt _; rewrite ltr_pdivr_mulr ?ltr0n // mul1r; apply: le_lt_trans t01 _; rewrite ltr1n.
have pv : pd (S + ofR s *: D).
  by rewrite -[S + _](subrK (ofR (1 - x) *: S)) addrC; apply: pdD lo; apply: pdZ => //; rewrite ofR_gt0 subr_gt0.
split=> //; split.
  by apply: loewner_trans up _; apply: loewner_le; [exact: pd_psd | rewrite ler_add2l; exact: le_trans t2].
have h3 : 1 <= (1 + t0) * (1 - x).
  apply: le_trans (_ : (1 + t0) * (1 - t0 / 2%:R) <= _); last by apply: ler_wpmul2l; [rewrite addr_ge0 ?ler01 // ltW | rewrite ler_add2l ler_opp2].
  move: (t00) t01; clear => ? ?; have -> : (1 + t0) * (1 - t0 / 2%:R) = 1 + t0 / 2%:R * (1 - t0) by rfield.
  by rewrite ler_addl mulr_ge0 ?divr_ge0 ?ler0n ?subr_ge0 // ltW.
apply: loewner_trans (_ : loewner _ (ofR ((1 + t0) * (1 - x)) *: S)) _.
  by rewrite -{1}[S]scale1r -(rmorph1 (@Star.ofR K)); apply: loewner_le => //; exact: pd_psd.
by rewrite rmorphM -scalerA; apply: loewnerZ => //; rewrite addr_ge0 ?ler01 // ltW.
Qed.
Lemma lip : exists2 C : R, 0 <= C & near_data X (fun Y => forall v, pd v -> close t0 v S -> g * \tr (v - S) = 0 -> fro (v - S) <= C * (fro (F Y v - v) + fro (Y - X))).
Proof.
have [d d0 [C1 C10 h]] := step_lip X0 pS c0 a0; exists (C0 * (1 + C1)); first by rewrite mulr_ge0 // addr_ge0 // ler01.
exists (d ^+ 2); first exact: exprn_gt0.
move=> Y hY v pv cl gv; have hd : fro (Y - X) <= d by rewrite -ler_sqr ?nnegrE ?fro_ge0 ?(ltW d0) // fro_sq.
apply: le_trans (res pv cl gv) _; rewrite -mulrA; apply: ler_wpmul2l => //.
have c1 : close 1 v S by apply: close_le cl => //; exact: pd_psd.
have := h Y v hd pv c1 => le; have -> : F X v - v = (F Y v - v) + (F X v - F Y v) by rewrite [RHS]addrC subrKA.
apply: le_trans (froD _ _) _; apply: le_trans (ler_add (lexx _) le) _.
by rewrite mulrDl mul1r mulrDr; apply: ler_add; [rewrite ler_addl fro_ge0 | rewrite ler_addr mulr_ge0 ?fro_ge0].
Qed.
Lemma cvg_line m n (A : 'M[K]_(m, n)) (t : nat -> R) (B : nat -> 'M[K]_(m, n)) L : tends t 0 -> cvgm B L -> cvgm (fun k => A + ofR (t k) *: B k) A.
Proof.
move=> ht hB; have := cvgmD (cvgm_const A) (cvgmZ (cvg_ofR K ht) hB); by rewrite rmorph0 scale0r addr0.
Qed.
(* F Y v - v divided by t *)
Lemma fixE U D (t : R) : pd (S + ofR t *: D) -> (forall i, row i (X + ofR t *: U) != 0) ->
  F (X + ofR t *: U) (S + ofR t *: D) - (S + ofR t *: D) = ofR t *: (dstep c a X U S D (X + ofR t *: U) (S + ofR t *: D) - D).
Proof.
by move=> pT Y0; rewrite scalerBr -dstepE // fS opprD addrA.
Qed.
Lemma deriv_uniq0 D : deriv 0 D -> D = 0.
Proof.
move=> [hD gD eD]; have [t tp ht] := small_close hD; pose s k := t * eps k.
have s0 k : 0 < s k by rewrite mulr_gt0 ?eps_gt0.
have st k : s k <= t by rewrite /s ger_pmulr // invf_le1 ?ltr0n // ler1n.
have Y0 k : (X + ofR (s k) *: 0 : 'M[K]_(N, p.+1)) = X by rewrite scaler0 addr0.
pose T k := S + ofR (s k) *: D; have pT k : pd (T k) by exact: (ht _ (ltW (s0 k)) (st k)).1.
have hs : tends s 0 := tends_eps t; have hT : cvgm T S := cvg_line S hs (cvgm_const D).
have := cvg_dstep c pS pT a0 X0 (cvgm_const (0 : 'M[K]_(N, p.+1))) (cvgm_const D) (cvgm_const X) hT; rewrite -eD => H.
have key k : fro D <= C0 * fro (dstep c a X 0 S D X (T k) - D).
  have [_ cl] := ht _ (ltW (s0 k)) (st k); have eT : T k - S = ofR (s k) *: D by rewrite /T addrC addKr.
  have := res (pT k) cl; rewrite eT mxtraceZ mulrCA gD mulr0 => /(_ erefl).
  have := @fixE 0 D (s k) (pT k); rewrite Y0 => /(_ X0) ->; rewrite !froZ ?(ltW (s0 k)) // mulrCA ler_pmul2l //.
apply: fro_eq0; apply/eqP; rewrite eq_le fro_ge0 andbT leNgt; apply/negP => d0.
have e0 : 0 < fro D / (C0 + 1) / 2%:R by rewrite !divr_gt0 ?ltr0n // ltr_spaddr ?ltr01.
have [k hk] := cvgm_fro H e0; have := le_trans (key k) (ler_wpmul2l C00 (hk k (leqnn k))).
apply/negP; rewrite -ltNge; apply: (@le_lt_trans _ _ (fro D / 2%:R)); last by rewrite ltr_pdivr_mulr ?ltr0n // ltr_pmulr // ltr1n.
rewrite mulrA ler_pmul2r ?invr_gt0 ?ltr0n // mulrCA ger_pmulr // ler_pdivr_mulr ?mul1r; [by rewrite ler_addl ler01 | by rewrite ltr_spaddr ?ltr01].
Qed.
Lemma deriv_uniq U D D' : deriv U D -> deriv U D' -> D = D'.
Proof.
move=> h h'; have := deriv_lin (-1) h' h; rewrite rmorphN (rmorph1 (@Star.ofR K)) !scaleN1r addNr => /deriv_uniq0 /eqP.
by rewrite addrC subr_eq0 => /eqP.
Qed.
Lemma cvg_small m n (A : nat -> 'M[K]_(m, n)) (r : nat -> R) : (forall k, fro (A k) <= r k) -> tends r 0 -> cvgm A 0.
Proof.
move=> h hr i j; apply/cvgP => e e0; have m0 : 0 < Num.min 1 e by rewrite lt_minr ltr01.
have [k0 hk] := hr _ m0; exists k0 => k /hk; rewrite subr0 => /(le_trans (ler_norm _)) /(le_trans (h k)); rewrite le_minr => /andP[x y].
rewrite mxE subr0; apply: (@le_trans _ _ (fro2 (A k))).
  rewrite fro2E (bigD1 i) //= (bigD1 j) //= -addrA ler_addl; apply: addr_ge0; first by apply: sumr_ge0 => ? _; exact: sq_ge0.
  by apply: sumr_ge0 => ? _; apply: sumr_ge0 => ? _; exact: sq_ge0.
rewrite -fro_sq expr2; apply: le_trans y; apply: ler_pimull => //; exact: fro_ge0.
Qed.
Lemma fro2_le m n (A : 'M[K]_(m, n)) (r : R) : fro A <= r -> fro2 A <= r ^+ 2.
Proof. by move=> h; rewrite -fro_sq ler_sqr ?nnegrE ?fro_ge0 //; exact: le_trans (fro_ge0 _) h. Qed.
Lemma near_fro' P : near_data X P -> exists2 d : R, 0 < d & forall Y, fro (Y - X) <= d -> P Y.
Proof.
move=> [d d0 h]; exists (Num.min 1 d); first by rewrite lt_minr ltr01.
move=> Y; rewrite le_minr => /andP[x y]; apply: h; rewrite -fro_sq expr2; apply: le_trans y; apply: ler_pimull => //; exact: fro_ge0.
Qed.
Lemma deriv_ex U : exists D, deriv U D.
Proof.
have [C C1 nl] := lip; have [d d0 hd] := near_fro' (near_and (near_nonzero X0) (near_and nl exi)).
pose tau := d / (fro U + 1); have u0 : 0 < fro U + 1 by rewrite ltr_spaddr ?ltr01 ?fro_ge0.
have tau0 : 0 < tau by rewrite divr_gt0. pose t k := tau * eps k; have tp k : 0 < t k by rewrite mulr_gt0 ?eps_gt0.
pose Y k := X + ofR (t k) *: U.
have fY k : fro (Y k - X) = t k * fro U by rewrite /Y addrC addKr froZ // ltW.
have nY k : fro (Y k - X) <= d.
  rewrite fY; apply: le_trans (_ : tau * fro U <= _).
    by apply: ler_wpmul2r; [exact: fro_ge0 | rewrite ger_pmulr // invf_le1 ?ltr0n // ler1n].
  by rewrite /tau mulrAC ler_pdivr_mulr // ler_pmul2l // ler_addl ler01.
have [T hT] := fchoice S (fun k => (hd (Y k) (nY k)).2.2).
pose D k := ofR (t k)^-1 *: (T k - S).
have eT k : T k = S + ofR (t k) *: D k by rewrite /D scalerA -rmorphM divff ?gt_eqF // (rmorph1 (@Star.ofR K)) scale1r addrC subrK.
have bD k : fro2 (D k) <= (C * fro U) ^+ 2.
  apply: fro2_le; have [pT cl fT gT] := hT k; rewrite /D froZ ?invr_ge0 ?(ltW (tp k)) // mulrC ler_pdivr_mulr //.
  by have := (hd (Y k) (nY k)).2.1 _ pT cl gT; rewrite fT subrr fro0 add0r fY mulrCA mulrC.
have [phi [L [lp hL]]] := compact_sub cK bD; exists L.
have ht : tends (t \o phi) 0 := tends_sub lp (tends_eps tau).
apply: (@deriv_lim (fun=> U) (D \o phi) U L (fun=> 0)) => //.
- exact: cvgm_const.
- exact: tends_const.
- by move=> k; have [pT _ _ _] := hT (phi k); apply: hermZR; apply: hermB; exact: pd_herm.
- by move=> k; have [_ _ _ gT] := hT (phi k); rewrite /= /D mxtraceZ mulrCA gT mulr0.
exists (Y \o phi), (T \o phi); split.
- exact: (cvg_line X ht (cvgm_const U)).
- by apply: cvgm_ext (cvg_line S ht hL) => k; rewrite /= -eT.
- by move=> k; have [] := hT (phi k).
move=> k; have [pT _ fT _] := hT (phi k); have Y0 := (hd (Y (phi k)) (nY (phi k))).1.
have := @fixE U (D (phi k)) (t (phi k)); rewrite -eT => /(_ pT Y0); rewrite -/(Y _) fT subrr => /esym/eqP.
rewrite scaler_eq0 fmorph_eq0 gt_eqF //= => /eqP ->; by rewrite fro0.
Qed.
Lemma deriv_bound : exists2 B : R, 0 <= B & forall U D, deriv U D -> fro D <= B * fro U.
Proof.
apply: NNPP => no; have ex k : exists x : 'M[K]_(N, p.+1) * 'M[K]_p.+1, deriv x.1 x.2 /\ k.+1%:R * fro x.1 < fro x.2.
  apply: NNPP => n; apply: no; exists k.+1%:R => [|U D h]; first exact: ler0n.
  by rewrite leNgt; apply/negP => lt; apply: n; exists (U, D).
have [f hf] := fchoice (0, 0) ex; pose r k := (fro (f k).2)^-1.
have d0 k : 0 < fro (f k).2 by have [_ lt] := hf k; apply: le_lt_trans lt; rewrite mulr_ge0 ?ler0n ?fro_ge0.
have r0 k : 0 < r k by rewrite invr_gt0.
pose U k := ofR (r k) *: (f k).1; pose D k := ofR (r k) *: (f k).2.
have dD k : deriv (U k) (D k) by apply: deriv_scale; case: (hf k).
have fD k : fro (D k) = 1 by rewrite /D froZ ?(ltW (r0 k)) // mulVf // gt_eqF.
have fU k : fro (U k) <= 1 * eps k.
  rewrite /U froZ ?(ltW (r0 k)) // mul1r /r mulrC ler_pdivr_mulr // mulrC ler_pdivl_mulr ?ltr0n // mulrC; by apply: ltW; case: (hf k).
have hU : cvgm U 0 := cvg_small fU (tends_eps 1).
have [phi [L [lp hL]]] : exists phi L, later phi /\ cvgm (D \o phi) L by apply: (compact_sub cK (M := 1 ^+ 2)) => k; apply: fro2_le; rewrite fD.
have dL : deriv 0 L.
  apply: (@deriv_lim (U \o phi) (D \o phi) 0 L (fun=> 0)) => //; first exact: cvgm_sub lp hU.
  - exact: tends_const.
  - by move=> k; case: (dD (phi k)).
  - by move=> k; case: (dD (phi k)).
  exists (fun=> X), (fun=> S); split=> //; try exact: cvgm_const.
  by move=> k; have [_ _ e] := dD (phi k); rewrite dstep_self /= {2}e subrr fro0.
have h2 : 0 < 2%:R^-1 :> R by rewrite invr_gt0 ltr0n.
have [k hk] := cvgm_fro hL h2; have := hk k (leqnn k); rewrite (deriv_uniq0 dL) subr0 /= fD; apply/negP; rewrite -ltNge invf_lt1 ?ltr0n // ltr1n //.
Qed.
(* the main estimate *)
Lemma deriv_main (e : R) : 0 < e -> exists2 d : R, 0 < d & forall Y v D, fro (Y - X) <= d -> pd v -> close t0 v S -> g * \tr (v - S) = 0 ->
  fro (F Y v - v) <= d * fro (Y - X) -> deriv (Y - X) D -> fro (v - S - D) <= e * fro (Y - X).
Proof.
move=> e0; have [C C1 nl] := lip; have [d1 d10 hd] := near_fro' (near_and (near_nonzero X0) nl); have [B B0 hB] := deriv_bound.
apply: NNPP => no; pose P (d : R) (x : 'M[K]_(N, p.+1) * 'M[K]_p.+1 * 'M[K]_p.+1) := let: (Y, v, D) := x in
  [/\ fro (Y - X) <= d, pd v /\ close t0 v S, g * \tr (v - S) = 0, fro (F Y v - v) <= d * fro (Y - X) & deriv (Y - X) D /\ e * fro (Y - X) < fro (v - S - D)].
pose dk k := Num.min d1 (1 * eps k); have dk0 k : 0 < dk k by rewrite lt_minr d10 mul1r eps_gt0.
have ex k : exists x, P (dk k) x.
  apply: NNPP => n; apply: no; exists (dk k) => // Y v D h1 h2 h3 h4 h5 h6; rewrite leNgt; apply/negP => lt; apply: n; by exists (Y, v, D).
have [f hf] := fchoice (X, S, 0) ex; pose Y k := (f k).1.1; pose v k := (f k).1.2; pose W k := (f k).2; pose t k := fro (Y k - X).
have hP k : [/\ t k <= dk k, pd (v k) /\ close t0 (v k) S, g * \tr (v k - S) = 0, fro (F (Y k) (v k) - v k) <= dk k * t k & deriv (Y k - X) (W k) /\ e * t k < fro (v k - S - W k)].
  by have := hf k; rewrite /t /Y /v /W; case: (f k) => [[]].
have d1k k : dk k <= d1 by rewrite le_minl lexx.
have d2k k : dk k <= 1 * eps k by rewrite le_minl lexx orbT.
have lv k : fro (v k - S) <= C * (dk k * t k + t k).
  have [h1 [h2 h3] h4 h5 _] := hP k; apply: le_trans ((hd (Y k) (le_trans h1 (d1k k))).2 _ h2 h3 h4) _; apply: ler_wpmul2l => //; by rewrite ler_add2r.
have t_gt0 k : 0 < t k.
  rewrite lt_def fro_ge0 andbT; apply/eqP => tz; have [_ _ _ _ [dW lt]] := hP k.
  have /fro_eq0 eY := tz; move: dW; rewrite eY => /deriv_uniq0 eW; move: lt; rewrite eW subr0 tz mulr0.
  by have := lv k; rewrite tz mulr0 addr0 mulr0 => le /(lt_le_trans)/(_ le); rewrite ltxx.
have ti k : 0 <= (t k)^-1 by rewrite invr_ge0 ltW.
pose U k := ofR (t k)^-1 *: (Y k - X); pose D k := ofR (t k)^-1 *: (v k - S); pose E k := ofR (t k)^-1 *: W k.
have sK m n k (A : 'M[K]_(m, n)) : ofR (t k) *: (ofR (t k)^-1 *: A) = A by rewrite scalerA -rmorphM divff ?gt_eqF // (rmorph1 (@Star.ofR K)) scale1r.
have eY k : Y k = X + ofR (t k) *: U k by rewrite sK addrC subrK.
have ev k : v k = S + ofR (t k) *: D k by rewrite sK addrC subrK.
have e1 k : dk k <= 1 by apply: le_trans (d2k k) _; rewrite mul1r invf_le1 ?ltr0n // ler1n.
have bU k : fro2 (U k) <= 1 ^+ 2 by apply: fro2_le; rewrite froZ // mulVf // gt_eqF.
have bD k : fro2 (D k) <= (C * 2%:R) ^+ 2.
  apply: fro2_le; rewrite froZ // mulrC ler_pdivr_mulr // -mulrA; apply: le_trans (lv k) _; apply: ler_wpmul2l => //.
  by rewrite -[2%:R]/(1 + 1) mulrDl mul1r ler_add2r; rewrite -[X in _ <= X]mul1r; apply: ler_wpmul2r => //; exact: ltW.
have bE k : fro2 (E k) <= (B * 1) ^+ 2.
  apply: fro2_le; have [_ _ _ _ [dW _]] := hP k; have := hB _ _ (deriv_scale (t k)^-1 dW); by rewrite -/(U k) -/(E k) [fro (U k)]froZ // mulVf // gt_eqF.
have [f1 [U' [l1 hU]]] := compact_sub cK bU; have [f2 [D' [l2 hD]]] := compact_sub cK (fun k => bD (f1 k)); have [f3 [E' [l3 hE]]] := compact_sub cK (fun k => bE (f1 (f2 k))).
pose f0 k := f1 (f2 (f3 k)); have lf : later f0.
  by move=> k; rewrite /f0; apply: leq_trans (l3 k) _; apply: leq_trans (l2 _) _; exact: l1.
have hU' : cvgm (U \o f0) U' := cvgm_sub l3 (cvgm_sub l2 hU).
have hD' : cvgm (D \o f0) D' := cvgm_sub l3 hD.
have hE' : cvgm (E \o f0) E' := hE.
have ht : tends t 0 by apply: tends_le (tends_eps 1) => k; rewrite ltW //=; have [h _ _ _ _] := hP k; apply: le_trans h (d2k k).
have hdk : tends dk 0 by apply: tends_le (tends_eps 1) => k; rewrite ltW //=.
have ht' := tends_sub lf ht; have hdk' := tends_sub lf hdk.
have dD : deriv U' D'.
  apply: (@deriv_lim (U \o f0) (D \o f0) U' D' (dk \o f0)) => //.
  - by move=> k; have [_ [h _] _ _ _] := hP (f0 k); apply: hermZR; apply: hermB; exact: pd_herm.
  - by move=> k; have [_ _ h _ _] := hP (f0 k); rewrite /= /D mxtraceZ mulrCA h mulr0.
  exists (Y \o f0), (v \o f0); split.
  - by apply: cvgm_ext (cvg_line X ht' hU') => k; rewrite /= -eY.
  - by apply: cvgm_ext (cvg_line S ht' hD') => k; rewrite /= -ev.
  - by move=> k; have [_ [h _] _ _ _] := hP (f0 k).
  move=> k; have [h1 [h2 _] _ h5 _] := hP (f0 k); have Y0 := (hd (Y (f0 k)) (le_trans h1 (d1k _))).1.
  have := @fixE (U (f0 k)) (D (f0 k)) (t (f0 k)); rewrite -eY -ev => /(_ h2 Y0) eF; move: h5; rewrite eF froZ ?(ltW (t_gt0 _)) // [dk _ * _]mulrC ler_pmul2l //.
have dE : deriv U' E'.
  have hh k : deriv (U (f0 k)) (E (f0 k)) by have [_ _ _ _ [dW _]] := hP (f0 k); exact: deriv_scale.
  apply: (@deriv_lim (U \o f0) (E \o f0) U' E' (fun=> 0)) => //.
  - exact: tends_const.
  - by move=> k; case: (hh k).
  - by move=> k; case: (hh k).
  exists (fun=> X), (fun=> S); split=> //; try exact: cvgm_const.
  by move=> k; have [_ _ h] := hh k; rewrite dstep_self /= {2}h subrr fro0.
have eDE := deriv_uniq dD dE; have := cvgmB hD' hE'; rewrite eDE subrr => H.
have [k hk] := cvgm_fro H (divr_gt0 e0 (ltr0n _ 2)); have := hk k (leqnn k); rewrite subr0 /= -scalerBr froZ // mulrC ler_pdivr_mulr //.
have [_ _ _ _ [_ lt]] := hP (f0 k) => le; have := lt_le_trans lt le; apply/negP; rewrite -leNgt ler_pmul2r // ler_pdivr_mulr ?ltr0n // ler_pmulr // ler1n //.
Qed.
End Core.
