(* Algebra of the M-estimation maps  S |-> sum_i a_i(x_i^H S^-1 x_i) x_i x_i^H.
   Helper definitions and lemmas for the proofs; nothing here models code. *)
From Coq Require Import Reals.
From mathcomp Require Import all_ssreflect all_fingroup all_algebra.
From Verif Require Import RealsMC Star FunCalc Spec_covariance.
Set Implicit Arguments.
Unset Strict Implicit.
Unset Printing Implicit Defensive.
Local Open Scope ring_scope.
Import GRing.Theory Num.Theory Order.TTheory.

Section MEst.
Variable K : starField.
Local Notation ofR := (@ofR K).
Local Notation toR := (@toR K).
Local Notation cj := (@cj K).

Definition mstep N p (a : R -> R) (X : 'M[K]_(N, p)) (S : 'M[K]_p) : 'M[K]_p :=
  wsum (fun i => a (maha S (samp X i))) X.
Definition spanning N p (X : 'M[K]_(N, p)) := forall y : 'cV[K]_p, (forall i, (samp X i)^H *m y = 0) -> y = 0.

Lemma samp_mulmx N p (X : 'M[K]_(N, p)) (A : 'M[K]_p) i : samp (X *m A^T) i = A *m samp X i.
Proof. by rewrite /samp row_mul trmx_mul trmxK. Qed.
Lemma samp_row_perm N p (X : 'M[K]_(N, p)) s i : samp (row_perm s X) i = samp X (s i).
Proof. by rewrite /samp; congr _^T; apply/rowP => j; rewrite !mxE. Qed.
Lemma outer_mul p (A : 'M[K]_p) x : outer (A *m x) = A *m outer x *m A^H.
Proof. by rewrite /outer adjM !mulmxA. Qed.
Lemma outer_scale p c (x : 'cV[K]_p) : outer (c *: x) = (c * cj c) *: outer x.
Proof. by rewrite /outer adjZ -scalemxAl -scalemxAr scalerA. Qed.
Lemma psd_outer' p (x : 'cV[K]_p) : psd (outer x). Proof. exact: psd_outer. Qed.

Lemma spanning_rank N p (X : 'M[K]_(N, p)) : \rank X = p -> spanning X.
Proof.
move=> rX y h; have hX : (map_mx cj X) *m y = 0.
  apply/row_matrixP => i; rewrite row0 row_mul; have := h i.
  by rewrite /samp adj_tr trmxK map_row.
have /row_fullP [B e] : row_full (map_mx cj X) by rewrite /row_full mxrank_map rX.
by rewrite -[y]mul1mx -e -mulmxA hX mulmx0.
Qed.

Lemma wsum_psd N p a (X : 'M[K]_(N, p)) : (forall i, 0 <= a i) -> psd (wsum a X).
Proof. by move=> a0; apply: psd_sum => i _; apply: psdZ; rewrite ?ofRge0 //; apply: psd_outer. Qed.
Lemma wsum_pd N p a (X : 'M[K]_(N, p)) : (forall i, 0 < a i) -> spanning X -> pd (wsum a X).
Proof.
move=> a0 sX; have pS : psd (wsum a X) by apply: wsum_psd => i; apply: ltW.
split; first exact: psd_herm pS.
move=> y y0; rewrite lt_neqAle pS.2 andbT eq_sym; apply: contra_neq y0.
rewrite qf_sum => h; apply: sX => i; apply/matrixP => u v; rewrite (ord1 u) (ord1 v) [RHS]mxE.
have nn j : true -> 0 <= qf (ofR (a j) *: outer (samp X j)) y.
  by move=> _; rewrite qfZ; apply: mulr_ge0; [rewrite ofRge0; apply: ltW | case: (psd_outer' (samp X j)) => _; apply].
have := psumr_eq0P nn h (erefl : xpredT i).
move/eqP; rewrite qfZ mulf_eq0 fmorph_eq0 gt_eqF //= qf_outer mul_cj_eq0 => /eqP //.
Qed.

Lemma maha_ge0 p (S : 'M[K]_p) x : pd S -> 0 <= maha S x.
Proof. by move=> /pd_inv h; apply: toR_ge0; apply: (pd_qf_ge0 x h). Qed.
Lemma maha_gt0 p (S : 'M[K]_p) x : pd S -> x != 0 -> 0 < maha S x.
Proof. by move=> /pd_inv [_ h] x0; apply/toR_gt0/h. Qed.
Lemma ofR_maha p (S : 'M[K]_p) x : pd S -> ofR (maha S x) = qf (invmx S) x.
Proof. by move=> /pd_inv h; apply: ofR_toR_ge0; apply: (pd_qf_ge0 x h). Qed.
Lemma maha_eq0 p (S : 'M[K]_p) x : pd S -> (maha S x == 0) = (x == 0).
Proof.
move=> pS; apply/eqP/eqP => [h|->].
  by apply: contraTeq isT => x0; have := maha_gt0 pS x0; rewrite h ltxx.
by rewrite /maha mulmx0 mxE raddf0.
Qed.

Lemma qf_invE p (S : 'M[K]_p) x : qf (invmx S) x = (x^H *m invmx S *m x) 0 0. Proof. by []. Qed.
Lemma tr_mul_outer p (B : 'M[K]_p) x : \tr (B *m outer x) = qf B x.
Proof. by rewrite /outer mulmxA mxtrace_mulC mulmxA /mxtrace big_ord1. Qed.

(* equivariance *)
Lemma qf_inv_congr p (S A : 'M[K]_p) x : A \in unitmx -> S \in unitmx ->
  qf (invmx (A *m S *m A^H)) (A *m x) = qf (invmx S) x.
Proof.
move=> uA uS; have uAH : A^H \in unitmx by rewrite unitmx_adj.
have -> : invmx (A *m S *m A^H) = invmx A^H *m invmx S *m invmx A.
  have : (invmx A^H *m invmx S *m invmx A) *m (A *m S *m A^H) = 1%:M.
    by rewrite -!mulmxA (mulKmx uA) (mulKmx uS) mulVmx.
  move=> h; have u := proj2 (mulmx1_unit h).
  by rewrite -[LHS]mul1mx -h -mulmxA mulmxV // mulmx1.
by rewrite /qf /sesq adjM -!mulmxA mulKmx // !mulmxA mulmxK.
Qed.
Lemma maha_congr p (S A : 'M[K]_p) x : A \in unitmx -> S \in unitmx ->
  maha (A *m S *m A^H) (A *m x) = maha S x.
Proof. by move=> uA uS; rewrite /maha -[_ 0 0]/(qf _ _) qf_inv_congr. Qed.
Lemma wsum_congr N p a (X : 'M[K]_(N, p)) (A : 'M[K]_p) :
  wsum a (X *m A^T) = A *m wsum a X *m A^H.
Proof.
rewrite /wsum mulmx_sumr mulmx_suml; apply: eq_bigr => i _.
by rewrite samp_mulmx outer_mul -scalemxAr -scalemxAl.
Qed.
Lemma eq_wsum N p a b (X : 'M[K]_(N, p)) : a =1 b -> wsum a X = wsum b X.
Proof. by move=> ab; apply: eq_bigr => i _; rewrite ab. Qed.
Lemma mstep_congr N p a (X : 'M[K]_(N, p)) (A S : 'M[K]_p) : A \in unitmx -> S \in unitmx ->
  mstep a (X *m A^T) (A *m S *m A^H) = A *m mstep a X S *m A^H.
Proof.
move=> uA uS; rewrite -wsum_congr /mstep; apply: eq_wsum => i; by rewrite samp_mulmx maha_congr.
Qed.
Lemma wsum_perm N p a (X : 'M[K]_(N, p)) (s : 'S_N) : wsum (a \o s) (row_perm s X) = wsum a X.
Proof.
rewrite /wsum [RHS](reindex_inj (@perm_inj _ s)) /=; apply: eq_bigr => i _; by rewrite samp_row_perm.
Qed.
Lemma mstep_perm N p a (X : 'M[K]_(N, p)) S (s : 'S_N) : mstep a (row_perm s X) S = mstep a X S.
Proof.
rewrite /mstep -[RHS](@wsum_perm _ _ _ _ s); apply: eq_wsum => i /=; by rewrite samp_row_perm.
Qed.

Lemma maha_scale p (S : 'M[K]_p) c x : 0 < c -> pd S -> maha (ofR c *: S) x = maha S x / c.
Proof.
move=> c0 pS; rewrite /maha invmxZ ?unitmxZ ?unitfE ?fmorph_eq0 ?gt_eqF ?pd_unit //.
by rewrite -[(_ *m _) 0 0]/(qf _ _) qfZ -fmorphV toRZ mulrC.
Qed.

(* Loewner bound: x x^H <= (x^H S^-1 x) S *)
Lemma outer_le p (S : 'M[K]_p) x : pd S -> psd (ofR (maha S x) *: S - outer x).
Proof.
move=> pS; have [hS pS'] := pS; have q0 := maha_ge0 x pS.
have [-> | x0] := eqVneq x 0.
  have -> : outer (0 : 'cV[K]_p) = 0 by rewrite /outer mul0mx.
  by rewrite subr0; apply: psdZ; [rewrite ofRge0; apply: maha_ge0 | apply: pd_psd].
have qp := maha_gt0 pS x0.
split; first by apply: hermB; [apply: hermZR | apply: herm_outer].
move=> y; rewrite qfD qfZ.
have -> : qf (- outer x) y = - ((x^H *m y) 0 0 * cj ((x^H *m y) 0 0)).
  by rewrite -(scaleN1r (outer x)) qfZ mulN1r qf_outer.
set b := (x^H *m y) 0 0; have uS := pd_unit pS.
set q := maha S x in q0 qp *.
pose z := ofR q *: y - b *: (invmx S *m x).
have hi : herm (invmx S) by apply: herm_inv.
have Sz : S *m z = ofR q *: (S *m y) - b *: x.
  by rewrite mulmxBr -!scalemxAr mulKVmx.
have zH : z^H = ofR q *: y^H - cj b *: (x^H *m invmx S).
  by rewrite adjB adjZR adjZ adjM hi.
have e : qf S z = ofR q * (ofR q * qf S y - b * cj b).
  rewrite /qf /sesq -mulmxA Sz zH mulmxBl mulmxBr mulmxBr.
  have sc (c : K) (B : 'M[K]_1) : (c *: B) 0 0 = c * B 0 0 by rewrite mxE.
  have sb (A B : 'M[K]_1) : (A - B) 0 0 = A 0 0 - B 0 0 by rewrite !mxE.
  rewrite -!scalemxAl -!scalemxAr !sb !sc.
  have -> : (y^H *m (S *m y)) 0 0 = qf S y by rewrite mulmxA.
  have -> : (y^H *m x) 0 0 = cj b by rewrite -adjE adjM adjK.
  have -> : (x^H *m invmx S *m (S *m y)) 0 0 = b by rewrite -mulmxA mulKmx.
  have -> : (x^H *m invmx S *m x) 0 0 = ofR q by rewrite ofR_maha.
  set Q := ofR q; set F := qf S y.
  by rewrite [Q * b]mulrC subrr subr0 mulrBr.
have : 0 <= qf S z by case: (pd_psd pS) => _; apply.
by rewrite e pmulr_rge0 // ofR_gt0.
Qed.
End MEst.
