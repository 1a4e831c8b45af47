(* Helper lemmas about the generators and samplers. *)
From Coq Require Import Reals.
From mathcomp Require Import all_ssreflect all_algebra.
From mathcomp Require Import complex.
From Verif Require Import RealsMC Star StarInst FunCalc Model_featurearray Model_linalg Model_covariance Proofs_linalg Model_generation Spec_generation.
Set Implicit Arguments.
Unset Strict Implicit.
Unset Printing Implicit Defensive.
Local Open Scope ring_scope.
Import GRing.Theory Num.Theory Order.TTheory.

Lemma col_mul (F : fieldType) m n p (A : 'M[F]_(m, n)) (B : 'M[F]_(n, p)) j : col j (A *m B) = A *m col j B.
Proof. by rewrite !colE mulmxA. Qed.

Section Law.
Variables (K : starField) (Om : Type) (L : law K Om).
Local Notation cj := (@cj K).

Lemma E_ext f g v : f =1 g -> E_is L f v -> E_is L g v.
Proof. by move=> e [h1 h2]; split; [exact: integrable_ext e h1 | rewrite -(expect_ext L e)]. Qed.
Lemma E_0 : E_is L (fun=> 0) 0.
Proof. by split; [exact: integrable0 | exact: expect0]. Qed.
Lemma E_lin a f g v w : E_is L f v -> E_is L g w -> E_is L (fun o => a * f o + g o) (a * v + w).
Proof. by move=> [h1 <-] [h2 <-]; split; [exact: integrable_lin | exact: expect_lin]. Qed.
Lemma E_scale a f v : E_is L f v -> E_is L (fun o => a * f o) (a * v).
Proof.
move=> h; have := E_lin a h E_0; rewrite addr0; apply: E_ext => o; exact: addr0.
Qed.
Lemma E_add f g v w : E_is L f v -> E_is L g w -> E_is L (fun o => f o + g o) (v + w).
Proof.
move=> h1 h2; have := E_lin 1 h1 h2; rewrite mul1r; apply: E_ext => o; by rewrite mul1r.
Qed.
Lemma E_sum I (r : seq I) (P : pred I) (F : I -> Om -> K) (V : I -> K) : (forall i, E_is L (F i) (V i)) ->
  E_is L (fun o => \sum_(i <- r | P i) F i o) (\sum_(i <- r | P i) V i).
Proof.
move=> h; elim: r => [|x r IH].
  by rewrite big_nil; apply: E_ext E_0 => o; rewrite big_nil.
rewrite big_cons; case: ifP => px.
  by apply: E_ext (E_add (h x) IH) => o; rewrite big_cons px.
by apply: E_ext IH => o; rewrite big_cons px.
Qed.
Lemma E_cj f v : E_is L f v -> E_is L (fun o => cj (f o)) (cj v).
Proof. by move=> [h <-]; exact: expect_cj. Qed.

Lemma cross_ext m n (x x' : Om -> 'cV[K]_m) (y y' : Om -> 'cV[K]_n) G :
  x =1 x' -> y =1 y' -> cross_is L x y G -> cross_is L x' y' G.
Proof. by move=> ex ey h i k; apply: E_ext (h i k) => o; rewrite ex ey. Qed.
Lemma cross_addl m n (x x' : Om -> 'cV[K]_m) (y : Om -> 'cV[K]_n) G G' :
  cross_is L x y G -> cross_is L x' y G' -> cross_is L (fun o => x o + x' o) y (G + G').
Proof.
by move=> h h' i k; rewrite mxE; apply: E_ext (E_add (h i k) (h' i k)) => o; rewrite mxE mulrDl.
Qed.
Lemma cross_swap m n (x : Om -> 'cV[K]_m) (y : Om -> 'cV[K]_n) G :
  cross_is L x y G -> cross_is L y x G^H.
Proof.
by move=> h i k; rewrite adjE; apply: E_ext (E_cj (h k i)) => o; rewrite rmorphM cjK mulrC.
Qed.
Lemma cross_addr m n (x : Om -> 'cV[K]_m) (y y' : Om -> 'cV[K]_n) G G' :
  cross_is L x y G -> cross_is L x y' G' -> cross_is L x (fun o => y o + y' o) (G + G').
Proof.
move=> h h'; have := cross_swap (cross_addl (cross_swap h) (cross_swap h')).
by rewrite adjD !adjK.
Qed.
Lemma cross_mull m n q (A : 'M[K]_(q, m)) (x : Om -> 'cV[K]_m) (y : Om -> 'cV[K]_n) G :
  cross_is L x y G -> cross_is L (fun o => A *m x o) y (A *m G).
Proof.
move=> h i k; rewrite mxE.
apply: E_ext (E_sum (index_enum _) predT (fun j => E_scale (A i j) (h j k))) => o.
by rewrite mxE mulr_suml; apply: eq_bigr => j _; rewrite mulrA.
Qed.
Lemma cross_mulr m n q (A : 'M[K]_(q, n)) (x : Om -> 'cV[K]_m) (y : Om -> 'cV[K]_n) G :
  cross_is L x y G -> cross_is L x (fun o => A *m y o) (G *m A^H).
Proof.
by move=> h; have := cross_swap (cross_mull A (cross_swap h)); rewrite adjM adjK.
Qed.
Lemma cross_scale m n a b (x : Om -> 'cV[K]_m) (y : Om -> 'cV[K]_n) G :
  cross_is L x y G -> cross_is L (fun o => a *: x o) (fun o => b *: y o) ((a * cj b) *: G).
Proof.
move=> h i k; rewrite mxE; apply: E_ext (E_scale (a * cj b) (h i k)) => o.
by rewrite !mxE rmorphM !mulrA; congr (_ * _); rewrite -!mulrA; congr (_ * _); rewrite mulrC.
Qed.
Lemma vmean_ext m (x x' : Om -> 'cV[K]_m) v : x =1 x' -> vmean_is L x v -> vmean_is L x' v.
Proof. by move=> e h i; apply: E_ext (h i) => o; rewrite e. Qed.
Lemma vmean_mul m q (A : 'M[K]_(q, m)) (x : Om -> 'cV[K]_m) v :
  vmean_is L x v -> vmean_is L (fun o => A *m x o) (A *m v).
Proof.
move=> h i; rewrite mxE.
by apply: E_ext (E_sum (index_enum _) predT (fun j => E_scale (A i j) (h j))) => o; rewrite mxE.
Qed.
Lemma vmean_scale m a (x : Om -> 'cV[K]_m) v : vmean_is L x v -> vmean_is L (fun o => a *: x o) (a *: v).
Proof. by move=> h i; rewrite mxE; apply: E_ext (E_scale a (h i)) => o; rewrite mxE. Qed.
Lemma vmean_add m (x y : Om -> 'cV[K]_m) v w : vmean_is L x v -> vmean_is L y w ->
  vmean_is L (fun o => x o + y o) (v + w).
Proof. by move=> h h' i; rewrite mxE; apply: E_ext (E_add (h i) (h' i)) => o; rewrite mxE. Qed.

Lemma columns_ext p N (X Y : Om -> 'M[K]_(p, N)) G : X =1 Y -> columns_are L X G -> columns_are L Y G.
Proof.
move=> e [h1 h2]; split=> [j|i j]; first by apply: vmean_ext (h1 j) => o; rewrite e.
by apply: cross_ext (h2 i j) => o; rewrite e.
Qed.
Lemma columns_eq p N (X : Om -> 'M[K]_(p, N)) G G' : G =1 G' -> columns_are L X G -> columns_are L X G'.
Proof. by move=> e [h1 h2]; split=> // i j; rewrite -e. Qed.
Lemma columns_mul p q N (A : 'M[K]_(q, p)) (X : Om -> 'M[K]_(p, N)) G : columns_are L X G ->
  columns_are L (fun o => A *m X o) (fun j => A *m G j *m A^H).
Proof.
move=> [h1 h2]; split=> [j|i j].
  by have := vmean_mul A (h1 j); rewrite mulmx0; apply: vmean_ext => o; rewrite col_mul.
have := cross_mulr A (cross_mull A (h2 i j)).
case: eqP => _; rewrite ?mulmx0 ?mul0mx; by apply: cross_ext => o; rewrite col_mul.
Qed.
Lemma col_texture p N (tau : 'cV[R]_N) (X : 'M[K]_(p, N)) j :
  col j (texture tau X) = @ofR K (R_sqrt.sqrt (tau j 0)) *: col j X.
Proof. by apply/matrixP => i k; rewrite !mxE. Qed.
Lemma columns_texture p N (tau : 'cV[R]_N) (X : Om -> 'M[K]_(p, N)) G : (forall j, 0 <= tau j 0) ->
  columns_are L X G -> columns_are L (fun o => texture tau (X o)) (fun j => @ofR K (tau j 0) *: G j).
Proof.
move=> t0 [h1 h2]; split=> [j|i j].
  have := vmean_scale (@ofR K (R_sqrt.sqrt (tau j 0))) (h1 j); rewrite scaler0.
  by apply: vmean_ext => o; rewrite col_texture.
have := cross_scale (@ofR K (R_sqrt.sqrt (tau i 0))) (@ofR K (R_sqrt.sqrt (tau j 0))) (h2 i j).
rewrite cj_ofR -rmorphM.
case: eqP => [->|_]; last by rewrite scaler0; apply: cross_ext => o; rewrite col_texture.
have -> : R_sqrt.sqrt (tau j 0) * R_sqrt.sqrt (tau j 0) = tau j 0.
  by apply: R_sqrt.sqrt_sqrt; apply/RleP; exact: t0.
by apply: cross_ext => o; rewrite col_texture.
Qed.
Lemma columns_add p N (X Y : Om -> 'M[K]_(p, N)) G G' : columns_are L X G -> columns_are L Y G' ->
  uncorrelated L X Y -> columns_are L (fun o => X o + Y o) (fun j => G j + G' j).
Proof.
have colD (A B : 'M[K]_(p, N)) j : col j (A + B) = col j A + col j B by apply/matrixP => i k; rewrite !mxE.
move=> [h1 h2] [k1 k2] u; split=> [j|i j].
  by have := vmean_add (h1 j) (k1 j); rewrite addr0; apply: vmean_ext => o; rewrite colD.
have u' : cross_is L (fun o => col i (Y o)) (fun o => col j (X o)) 0.
  by have := cross_swap (u j i); rewrite adj0.
have := cross_addr (cross_addl (h2 i j) u') (cross_addl (u i j) (k2 i j)).
rewrite addr0 add0r => h.
have -> : (if i == j then G j + G' j else 0) = (if i == j then G j else 0) + (if i == j then G' j else 0).
  by case: eqP => // _; rewrite addr0.
by apply: cross_ext h => o; rewrite colD.
Qed.
Lemma uncorrelated_mul p q p' q' N (A : 'M[K]_(p', p)) (B : 'M[K]_(q', q)) (X : Om -> 'M[K]_(p, N)) (Y : Om -> 'M[K]_(q, N)) :
  uncorrelated L X Y -> uncorrelated L (fun o => A *m X o) (fun o => B *m Y o).
Proof.
move=> u i j; have := cross_mulr B (cross_mull A (u i j)); rewrite mulmx0 mul0mx.
by apply: cross_ext => o; rewrite col_mul.
Qed.
Lemma uncorrelated_texture p q N (tau : 'cV[R]_N) (X : Om -> 'M[K]_(p, N)) (Y : Om -> 'M[K]_(q, N)) :
  uncorrelated L X Y -> uncorrelated L (fun o => texture tau (X o)) Y.
Proof.
move=> u i j; have := cross_scale (@ofR K (R_sqrt.sqrt (tau i 0))) 1 (u i j); rewrite scaler0.
by apply: cross_ext => o; rewrite ?col_texture ?scale1r.
Qed.
Lemma uncorrelated_ext p q N (X X' : Om -> 'M[K]_(p, N)) (Y Y' : Om -> 'M[K]_(q, N)) : X =1 X' -> Y =1 Y' ->
  uncorrelated L X Y -> uncorrelated L X' Y'.
Proof. by move=> e e' u i j; apply: cross_ext (u i j) => o; rewrite ?e ?e'. Qed.
Lemma uncorrelated_add p q N (X X' : Om -> 'M[K]_(p, N)) (Y : Om -> 'M[K]_(q, N)) :
  uncorrelated L X Y -> uncorrelated L X' Y -> uncorrelated L (fun o => X o + X' o) Y.
Proof.
move=> u u' i j; have := cross_addl (u i j) (u' i j); rewrite addr0.
by apply: cross_ext => o //; apply/matrixP => a b; rewrite !mxE.
Qed.
Lemma uncorrelated_sym p q N (X : Om -> 'M[K]_(p, N)) (Y : Om -> 'M[K]_(q, N)) :
  uncorrelated L X Y -> uncorrelated L Y X.
Proof. by move=> u i j; have := cross_swap (u j i); rewrite adj0. Qed.
Lemma uncorrelated_scale p q N a (X : Om -> 'M[K]_(p, N)) (Y : Om -> 'M[K]_(q, N)) :
  uncorrelated L X Y -> uncorrelated L (fun o => a *: X o) Y.
Proof.
move=> u i j; have := cross_scale a 1 (u i j); rewrite scaler0.
by apply: cross_ext => o; rewrite ?scale1r //; apply/matrixP => r s; rewrite !mxE.
Qed.
Lemma columns_scale p N a (X : Om -> 'M[K]_(p, N)) G : columns_are L X G ->
  columns_are L (fun o => a *: X o) (fun j => (a * cj a) *: G j).
Proof.
have colZ (A : 'M[K]_(p, N)) j : col j (a *: A) = a *: col j A by apply/matrixP => i k; rewrite !mxE.
move=> [h1 h2]; split=> [j|i j].
  by have := vmean_scale a (h1 j); rewrite scaler0; apply: vmean_ext => o; rewrite colZ.
have := cross_scale a a (h2 i j); case: eqP => _; rewrite ?scaler0; apply: cross_ext => o; by rewrite colZ.
Qed.

(* complex standard samples: (a + im b) c *)
Lemma columns_circ p N (im c : K) (A B : Om -> 'M[K]_(p, N)) : cj im = - im -> im * im = -1 -> cj c = c ->
  c * c = 2%:R^-1 -> (forall o, map_mx cj (A o) = A o) -> (forall o, map_mx cj (B o) = B o) ->
  columns_are L A (fun=> 1%:M) -> columns_are L B (fun=> 1%:M) -> uncorrelated L A B ->
  columns_are L (fun o => c *: (A o + im *: B o)) (fun=> 1%:M) /\
  uncorrelated L (fun o => c *: (A o + im *: B o)) (fun o => map_mx cj (c *: (A o + im *: B o))).
Proof.
move=> ci ii cc c2 rA rB hA hB u.
have uB a : uncorrelated L A (fun o => a *: B o).
  by apply/uncorrelated_sym/uncorrelated_scale/uncorrelated_sym.
split.
  apply: columns_eq (columns_scale c (columns_add hA (columns_scale im hB) (uB im))) => j.
  rewrite cc ci mulrN ii opprK scale1r c2.
  by rewrite -mulr2n -scaler_nat scalerA mulVf ?pnatr_eq0 ?scale1r.
apply: uncorrelated_scale; apply: uncorrelated_sym.
have eb : (fun o => c *: (A o - im *: B o)) =1 (fun o => map_mx cj (c *: (A o + im *: B o))).
  by move=> o; rewrite map_mxZ map_mxD map_mxZ rA rB cc ci scaleNr.
apply: (@uncorrelated_ext _ _ _ (fun o => c *: (A o - im *: B o)) _ (fun o => A o + im *: B o)) => //.
apply: uncorrelated_scale => i j.
have colD (X Y : 'M[K]_(p, N)) k a : col k (X + a *: Y) = col k X + a *: col k Y by apply/matrixP => r s; rewrite !mxE.
have e1 : cross_is L (fun o => col i (A o)) (fun o => im *: col j (B o)) 0.
  have := cross_scale 1 im (u i j); rewrite scaler0; by apply: cross_ext => o; rewrite ?scale1r.
have e2 : cross_is L (fun o => - im *: col i (B o)) (fun o => col j (A o)) 0.
  have := cross_scale (- im) 1 (cross_swap (u j i)); rewrite adj0 scaler0.
  by apply: cross_ext => o; rewrite ?scale1r.
have e3 := cross_scale (- im) im (hB.2 i j).
have := cross_addr (cross_addl (hA.2 i j) e2) (cross_addl e1 e3).
rewrite ci mulrNN ii addr0 add0r scaleN1r addrN.
by apply: cross_ext => o; rewrite ?scale1r ?colD // -scaleNr colD.
Qed.
End Law.

Section Frames.
Variable K : starField.

Lemma cols_orth p k (Q : 'M[K]_p) : unitary Q -> (cols k Q)^H *m cols k Q = 1%:M.
Proof.
move=> uQ; apply/matrixP => i j; rewrite mxE.
have := congr1 (fun M : 'M_p => M (widen_ord (geq_minr k p) i) (widen_ord (geq_minr k p) j)) uQ.
rewrite mxE [RHS]mxE => h; rewrite [RHS]mxE -[RHS]/((i == j)%:R).
have -> : (i == j) = (widen_ord (geq_minr k p) i == widen_ord (geq_minr k p) j) by [].
by rewrite -h; apply: eq_bigr => l _; rewrite !mxE.
Qed.
Lemma cast_cols p (Q : 'M[K]_p) : castmx (erefl p, minnn p) (cols p Q) = Q.
Proof.
apply/matrixP => i j; rewrite castmxE mxE; congr (Q _ _); apply: val_inj => //=.
Qed.
Lemma assemble_dec p (d : 'rV[R]_p) (Q : 'M[K]_p) : unitary Q -> eigdec (assemble d Q) d Q.
Proof. by move=> uQ; split. Qed.
Lemma herm_assemble p (d : 'rV[R]_p) (Q : 'M[K]_p) : herm (assemble d Q).
Proof. by rewrite /herm /assemble -/(dia K d) -/(Q^H) !adjM adjK adj_dia mulmxA. Qed.
Lemma psd_assemble p (d : 'rV[R]_p) (Q : 'M[K]_p) : (forall j, 0 <= d 0 j) -> psd (assemble d Q).
Proof. by move=> h; apply: psd_congr; apply: psd_dia. Qed.
Lemma pd_assemble p (d : 'rV[R]_p) (Q : 'M[K]_p) : unitary Q -> (forall j, 0 < d 0 j) -> pd (assemble d Q).
Proof.
move=> uQ h; apply: pd_congr; last exact: pd_dia.
by have [] := mulmx1_unit uQ.
Qed.
Lemma det_assemble p (d : 'rV[R]_p) (Q : 'M[K]_p) : unitary Q -> \det (assemble d Q) = @ofR K (\prod_j d 0 j).
Proof.
move=> uQ; rewrite /assemble !det_mulmx mulrAC -/(Q^H).
have -> : \det Q * \det Q^H = 1 by rewrite mulrC -det_mulmx uQ det1.
by rewrite mul1r det_diag rmorph_prod; apply: eq_bigr => j _; rewrite mxE.
Qed.
Lemma eigval_assemble p (d : 'rV[R]_p) (Q : 'M[K]_p) r : unitary Q ->
  eigval (assemble d Q) r <-> exists j, r = d 0 j.
Proof.
move=> uQ; have dec := assemble_dec d uQ; split; last by case=> j ->; exact: eigdec_eigval dec.
case=> u u0 hu; have hu' : dia K d *m (Q^H *m u) = @ofR K r *: (Q^H *m u).
  rewrite scalemxAr -hu /assemble -/(dia K d) -/(Q^H) !mulmxA uQ mul1mx //.
have v0 : Q^H *m u != 0.
  apply: contra_neq u0 => h; have := congr1 (mulmx Q) h; rewrite mulmxA mulmx0.
  by have := unitary_adj uQ; rewrite /unitary adjK => ->; rewrite mul1mx.
have /cV0Pn [j vj] := v0.
exists j; have := congr1 (fun M : 'cV[K]_p => M j 0) hu'.
rewrite mul_dia_mx [RHS]mxE => /(mulIf vj) h.
by rewrite -(toRK K r) -h toRK.
Qed.
Lemma normalise_pd p (d : 'rV[R]_p) (Q : 'M[K]_p) : (0 < p)%N -> unitary Q -> (forall j, 0 < d 0 j) ->
  exists2 c : R, 0 < c & normalise (assemble d Q) true = Some (@ofR K c *: assemble d Q) /\
    \det (@ofR K c *: assemble d Q) = 1.
Proof.
move=> p0 uQ d0; rewrite /normalise det_assemble // toRK.
set D := \prod_j d 0 j; have D0 : 0 < D by apply: prodr_gt0 => j _.
rewrite /fpow (gt_eqF D0).
set e := Rpower.Rpower _ _; have e0 : 0 < e by apply/RltP; exact: exp_pos.
rewrite /fdivmx (gt_eqF e0).
exists e^-1; first by rewrite invr_gt0.
split=> //; rewrite detZ det_assemble // -/D -rmorphX -rmorphM exprVn.
have -> : e ^+ p = D.
  rewrite -RpowE -Rpower_pow; last by apply/RltP.
  rewrite /e Rpower_mult.
  have -> : Rmult (p%:R : R)^-1 (INR p) = 1.
    rewrite INRE. rewrite -[LHS]/((p%:R : R)^-1 * p%:R) mulVf // pnatr_eq0 -lt0n //.
  by apply: Rpower_1; apply/RltP.
by rewrite mulVf ?(gt_eqF D0) // rmorph1.
Qed.
End Frames.
