(* Theorems about the reported dimensions of the manifolds: C54. *)
From Coq Require Import Reals Epsilon.
From mathcomp Require Import all_ssreflect all_algebra.
From mathcomp Require Import complex.
From mathcomp.zify Require Import zify.
From Verif Require Import RealsMC RealTac RealTac2 Star StarInst FunCalc Model_linalg Proofs_linalg Model_manifolds Proofs_hpd
  Props_hpd Props_shpd.
Set Implicit Arguments.
Unset Strict Implicit.
Unset Printing Implicit Defensive.
Local Open Scope ring_scope.
Import GRing.Theory Num.Theory Order.TTheory.

(* dimensions: P is the image of an injective R-linear map from R^d *)
Definition real_dim n k (P : stack complex_sf n k -> Prop) d :=
  exists f : 'rV[R]_d -> stack complex_sf n k,
    [/\ forall (c : R) u v i, f (c *: u + v) i = @ofR complex_sf c *: f u i + f v i,
        forall u v, (forall i, f u i = f v i) -> u = v &
        forall s, P s <-> exists u, forall i, s i = f u i].
Lemma dim_le n k (P Q : stack complex_sf n k -> Prop) d e : (forall s, P s -> Q s) -> real_dim P d -> real_dim Q e -> (d <= e)%N.
Proof.
move=> PQ [f [lf jf Pf]] [g [lg jg Qg]].
have ex u : exists v, forall i, f u i = g v i by apply/Qg/PQ/Pf; exists u.
have [h hh] : exists h, forall u i, f u i = g (h u) i.
  by exists (fun u => epsilon (inhabits 0) (fun v => forall i, f u i = g v i)) => u; apply: (epsilon_spec _ _ (ex u)).
have lh : linear h by move=> c u v; apply: jg => i; rewrite -hh lf lg !hh.
have rf : row_free (lin1_mx (Linear lh)).
  apply: inj_row_free => v; rewrite mul_rV_lin1 /= => hv.
  have h0 : h 0 = 0 by have := lh 1 0 0; rewrite !scale1r addr0 => /eqP; rewrite -subr_eq0 opprD addrA subrr sub0r oppr_eq0 => /eqP.
  by apply: jf => i; rewrite !hh hv h0.
by move/eqP: rf => <-; apply: rank_leq_col.
Qed.
Lemma dim_unique n k (P : stack complex_sf n k -> Prop) d e : real_dim P d -> real_dim P e -> d = e.
Proof. by move=> hd he; apply/eqP; rewrite eqn_leq (dim_le _ hd he) // (dim_le _ he hd). Qed.

(* the Hermitian matrices have real dimension n^2 *)
Section HermBasis.
Variables n k : nat.
Definition herm_of (M : 'M[R]_n) : 'M[complex_sf]_n :=
  \matrix_(i, j) if i == j then (Complex (M i i) 0 : C) else
    if (i < j)%N then (Complex (M i j) (M j i) : C) else (Complex (M j i) (- M i j) : C).
Definition of_herm (H : 'M[complex_sf]_n) : 'M[R]_n :=
  \matrix_(i, j) if (i <= j)%N then complex.Re (H i j : C) else complex.Im (H j i : C).
Lemma herm_ofK M : of_herm (herm_of M) = M.
Proof.
apply/matrixP => i j; rewrite !mxE -!val_eqE /=; case: ltngtP => [h|h|h] //=.
by have -> : i = j by apply: val_inj.
Qed.
Lemma of_hermK H : herm H -> herm_of (of_herm H) = H.
Proof.
move=> hH; have hc i j : H j i = conjc (H i j : C) by rewrite -[in LHS]hH adjE.
apply/matrixP => i j; rewrite !mxE -!val_eqE /=; case: ltngtP => [h|h|h] /=.
- by case: (H i j).
- by rewrite (hc j i); case: (H j i).
have -> : i = j by apply: val_inj.
have e : conjc (H j j : C) = H j j by rewrite -hc.
by rewrite leqnn [in RHS](C_of_cj e).
Qed.
Lemma herm_of_herm M : herm (herm_of M).
Proof.
apply/matrixP => i j; rewrite adjE !mxE -!val_eqE /=; case: ltngtP => [h|h|h] /=.
- by [].
- by congr Complex; exact: opprK.
by have -> : i = j by [apply: val_inj]; congr Complex; exact: oppr0.
Qed.
Lemma herm_of_lin (c : R) M N : herm_of (c *: M + N) = @ofR complex_sf c *: herm_of M + herm_of N.
Proof.
apply/matrixP => i j; rewrite !mxE; case: ifP => _; [|case: ifP => _].
- by congr Complex; rewrite /=; r2R; rring.
- by congr Complex; rewrite /=; r2R; rring.
by congr Complex; rewrite /=; r2R; rring.
Qed.
(* R^(k n n) -> k Hermitian matrices *)
Definition herm_stack (u : 'rV[R]_(k * (n * n))) : stack complex_sf n k := fun i => herm_of (vec_mx (row i (vec_mx u))).
Theorem C54_dimension_true : real_dim (@all_herm complex_sf n k) (k * (n * n)).
Proof.
exists herm_stack; split=> [c u v i|u v e|s].
- by rewrite /herm_stack linearP /= linearP linearP herm_of_lin.
- apply: (can_inj vec_mxK); apply/row_matrixP => i; apply: (can_inj vec_mxK).
  by rewrite -[LHS]herm_ofK -[RHS]herm_ofK; congr of_herm; apply: e.
split=> [hs|[u e] i]; last by rewrite e; apply: herm_of_herm.
exists (mxvec (\matrix_i mxvec (of_herm (s i)))) => i.
by rewrite /herm_stack mxvecK rowK mxvecK of_hermK.
Qed.
(* reported: k n (n + 1) *)
Lemma hpd_dimE : hpd_dim n k = (k * (n * (n + 1)))%N.
Proof.
rewrite /hpd_dim -mulnA mulnC divnK // dvdn_mull //.
by rewrite dvdn2 oddM addn1 /= andbN.
Qed.
Theorem C54_dimension_refuted : (0 < n)%N -> (0 < k)%N -> ~ real_dim (@all_herm complex_sf n k) (hpd_dim n k).
Proof.
move=> n0 k0 h; have := dim_unique C54_dimension_true h; rewrite hpd_dimE => /eqP.
by rewrite eqn_pmul2l // eqn_pmul2l //; lia.
Qed.
Lemma tr1_eq0 (A : 'M[complex_sf]_n) : n = 1%N -> \tr A = 0 -> A = 0.
Proof.
by move=> e; subst n; rewrite /mxtrace big_ord1 => t; apply/matrixP => i j; rewrite (ord1 i) (ord1 j) t [RHS]mxE.
Qed.
(* the tangent spaces of the unit-determinant manifold; reported: k (n (n + 1) - 1) *)
Theorem C54_special_dimension_refuted (x : stack complex_sf n k) : all_pd x -> (0 < n)%N -> (0 < k)%N ->
  ~ real_dim (tangent x) (shpd_dim n k).
Proof.
move=> px n0 k0 h; have sub s : tangent x s -> all_herm s by move=> t i; case: (t i).
have := dim_le sub h C54_dimension_true; rewrite /shpd_dim leq_pmul2l // => le.
have n1 : n = 1%N by nia.
have sub0 s : tangent x s -> forall i, s i = 0.
  move=> t i; have [_ /(tr1_eq0 n1) e] := t i.
  by rewrite -[s i]mul1mx -(mulmxV (pd_unit (px i))) -mulmxA e mulmx0.
have d0 : real_dim (fun s : stack complex_sf n k => forall i, s i = 0) 0.
  exists (fun _ _ => 0); split=> [c u v i|u v _|s]; first by rewrite scaler0 addr0.
    by apply/matrixP => i [].
  by split=> [e|[u e]] //; exists 0.
have := dim_le sub0 h d0; rewrite /shpd_dim n1; lia.
Qed.
End HermBasis.

Print Assumptions C54_dimension_true.
Print Assumptions C54_dimension_refuted.
Print Assumptions C54_special_dimension_refuted.
