(* The estimates only depend on the empirical distribution of the samples: C125. *)
From Coq Require Import Reals String.
From mathcomp Require Import all_ssreflect all_algebra.
From mathcomp Require Import complex zify fingroup perm.
From Verif Require Import RealsMC RealTac Star StarInst FunCalc Model_featurearray Model_linalg Model_covariance Spec_covariance Model_estimators
  Proofs_mest Proofs_loop Proofs_covariance Proofs_estimators Props_covariance Model_structured Spec_freq.
Set Implicit Arguments.
Unset Strict Implicit.
Unset Printing Implicit Defensive.
Local Open Scope ring_scope.
Import GRing.Theory Num.Theory Order.TTheory.

Section Sums.
Variables (T : eqType) (N M p : nat) (X : 'M[T]_(N, p)) (Y : 'M[T]_(M, p)).
Hypothesis same : same_frequencies X Y.
Lemma count_rows n (Z : 'M[T]_(n, p)) x : count_mem x [seq row i Z | i <- enum 'I_n] = #|[set i | row i Z == x]|.
Proof. by rewrite count_map cardsE cardE -size_filter enumT. Qed.
Lemma big_copies (V : zmodType) (A : eqType) (s : seq A) n (g : A -> V) : \sum_(v <- flatten (nseq n s)) g v = (\sum_(v <- s) g v) *+ n.
Proof. by elim: n => [|n ih] /=; rewrite ?big_nil ?mulr0n // big_cat /= ih mulrS. Qed.
Lemma count_copies (A : eqType) (s : seq A) n P : count P (flatten (nseq n s)) = (n * count P s)%N.
Proof. by elim: n => [|n ih] //=; rewrite count_cat ih mulSn. Qed.
Lemma freq_sum (V : zmodType) (g : 'rV[T]_p -> V) : (\sum_i g (row i X)) *+ M = (\sum_j g (row j Y)) *+ N.
Proof.
have e n (Z : 'M[T]_(n, p)) : \sum_i g (row i Z) = \sum_(v <- [seq row i Z | i <- enum 'I_n]) g v by rewrite big_map big_enum.
have [_ _ h] := same; rewrite !e -!big_copies; apply: perm_big; apply/allP => x _ /=.
by rewrite !count_copies !count_rows h.
Qed.
Lemma freq_exists (P : pred 'rV[T]_p) : [exists i, P (row i X)] = [exists j, P (row j Y)].
Proof.
have [N0 M0 h] := same; apply/existsP/existsP => -[i Pi].
  have : (0 < M * #|[set j | row j X == row i X]|)%N by rewrite muln_gt0 M0; apply/card_gt0P; exists i; rewrite inE.
  by rewrite h muln_gt0 => /andP[_ /card_gt0P[j]]; rewrite inE => /eqP ej; exists j; rewrite ej.
have : (0 < N * #|[set j | row j Y == row i Y]|)%N by rewrite muln_gt0 N0; apply/card_gt0P; exists i; rewrite inE.
by rewrite -h muln_gt0 => /andP[_ /card_gt0P[j]]; rewrite inE => /eqP ej; exists j; rewrite ej.
Qed.
End Sums.

Section Means.
Variables (K : starField) (N M p : nat) (X : 'M[K]_(N, p)) (Y : 'M[K]_(M, p)).
Hypothesis same : same_frequencies X Y.
Lemma freq_mean (F : numFieldType) (V : lmodType F) (g : 'rV[K]_p -> V) : N%:R^-1 *: (\sum_i g (row i X)) = M%:R^-1 *: (\sum_j g (row j Y)).
Proof.
have [N0 M0 _] := same; have := freq_sum same g; rewrite -!scaler_nat => h.
have n0 n : (0 < n)%N -> n%:R != 0 :> F by rewrite pnatr_eq0 -lt0n.
have := congr1 (fun x => (N%:R^-1 * M%:R^-1) *: x) h; rewrite !scalerA mulfVK ?n0 // => ->.
by rewrite mulrAC mulVf ?n0 // mul1r.
Qed.
Lemma freq_wsum (w : R -> R) eigh S :
  wsum (fun i => N%:R^-1 * w (ctau eigh X S i)) X = wsum (fun i => M%:R^-1 * w (ctau eigh Y S i)) Y.
Proof.
pose g (x : 'rV[K]_p) := @ofR K (w (@toR K (((invsqrtm eigh S *m x^T)^H *m (invsqrtm eigh S *m x^T)) 0 0))) *: outer x^T.
have e n (Z : 'M[K]_(n, p)) : wsum (fun i => n%:R^-1 * w (ctau eigh Z S i)) Z = n%:R^-1 *: (\sum_i g (row i Z)).
  by rewrite /wsum scaler_sumr; apply: eq_bigr => i _; rewrite scalerA rmorphM fmorphV rmorph_nat.
by rewrite !e freq_mean.
Qed.
Lemma freq_wmean : wsum (fun=> N%:R^-1) X = wsum (fun=> M%:R^-1) Y.
Proof.
have e n (Z : 'M[K]_(n, p)) : wsum (fun=> n%:R^-1) Z = n%:R^-1 *: (\sum_i outer (row i Z)^T).
  by rewrite /wsum scaler_sumr; apply: eq_bigr => i _; rewrite fmorphV rmorph_nat.
by rewrite !e (freq_mean (fun x => outer x^T)).
Qed.
End Means.

(* The results of all fixed-point functions are the same for data sets with the same empirical distribution, whatever the
   eigenvalue solver, the starting point, the tolerance and the iteration limit *)
Theorem C125_fixed_points ppf cdf N M p a tol m :
  (forall eigh (X : 'M[real_sf]_(N, p.+1)) (Y : 'M[real_sf]_(M, p.+1)) init, real_valid ppf cdf p a -> same_frequencies X Y ->
     real_fixed_point eigh ppf cdf a X init tol m = real_fixed_point eigh ppf cdf a Y init tol m) /\
  (forall eigh (X : 'M[complex_sf]_(N, p.+1)) (Y : 'M[complex_sf]_(M, p.+1)) init, complex_valid ppf cdf p a -> same_frequencies X Y ->
     complex_fixed_point eigh ppf cdf a X init tol m = complex_fixed_point eigh ppf cdf a Y init tol m).
Proof.
split=> eigh X Y init va same.
  have H : real_step eigh ppf cdf a X =1 real_step eigh ppf cdf a Y.
    move=> S; rewrite !(real_stepE _ _ _ va) /cstep; congr Ok.
    pose w q : R := match a with
      | HuberM qt => (huber_u (huber_lbda ppf qt p.+1) (huber_beta ppf cdf qt p.+1) q)^-1
      | StudentMLE df => (df / 2%:R + p.+1%:R) / (df / 2%:R + q) | TylerFP _ => p.+1%:R / q end.
    have e n q : real_weight ppf cdf n p a q = n%:R^-1 * w q by rewrite /real_weight /w; case: (a) => [qt|df|nrm] //; rewrite [LHS]mulrAC [RHS]mulrC.
    rewrite [LHS](eq_wsum (b := fun i => N%:R^-1 * w (ctau eigh X S i))) => [|i]; last exact: e.
    rewrite [RHS](eq_wsum (b := fun i => M%:R^-1 * w (ctau eigh Y S i))) => [|i]; last exact: e.
    exact: freq_wsum.
  rewrite !real_fixed_pointE //.
  have -> : real_init X init = real_init Y init by case: init => //=; rewrite !real_init_none (freq_wmean same).
  exact: (congr1 (omap _) (fp_loop_ext tol m _ H)).
have H : complex_step eigh ppf cdf a X =1 complex_step eigh ppf cdf a Y.
  move=> S; rewrite !(complex_stepE _ _ _ va) /cstep; congr Ok.
  pose w q : R := match a with
    | HuberM qt => (huber_u (complex_huber_lbda ppf qt p.+1) (complex_huber_beta ppf cdf qt p.+1) q)^-1
    | StudentMLE df => (df + p.+1%:R) / (df + q) | TylerFP _ => p.+1%:R / q end.
  have e n q : complex_weight ppf cdf n p a q = n%:R^-1 * w q by rewrite /complex_weight /w; case: (a) => [qt|df|nrm] //; rewrite [LHS]mulrAC [RHS]mulrC.
  rewrite [LHS](eq_wsum (b := fun i => N%:R^-1 * w (ctau eigh X S i))) => [|i]; last exact: e.
  rewrite [RHS](eq_wsum (b := fun i => M%:R^-1 * w (ctau eigh Y S i))) => [|i]; last exact: e.
  exact: freq_wsum.
rewrite !complex_fixed_pointE //.
have -> : complex_init X init = complex_init Y init by case: init => //; rewrite /complex_init !complex_init_none (freq_wmean same).
exact: (congr1 (omap _) (fp_loop_ext tol m _ H)).
Qed.
(* so is the empirical covariance, with or without centring *)
Theorem C125_empirical N M p (X : 'M[complex_sf]_(N, p)) (Y : 'M[complex_sf]_(M, p)) centered : same_frequencies X Y ->
  complex_empirical_covariance X centered = complex_empirical_covariance Y centered.
Proof.
move=> same; case: centered; first by rewrite !complex_init_none (freq_wmean same).
rewrite /complex_empirical_covariance /np_cov_bias.
pose mean n (Z : 'M[complex_sf]_(n, p)) : 'cV[complex_sf]_p := \col_j (n%:R^-1 * \sum_i Z i j).
have em : mean N X = mean M Y.
  apply/matrixP => j k; rewrite !mxE; have := freq_mean same (fun x : 'rV[complex_sf]_p => x 0 j : complex_sf^o).
  by rewrite (eq_bigr (fun i => X i j : complex_sf^o)) 1?(eq_bigr (fun i => Y i j : complex_sf^o)) // => i _; rewrite mxE.
rewrite -/(mean N X) -/(mean M Y) em; set c := mean M Y.
pose g (x : 'rV[complex_sf]_p) := outer (x^T - c).
have e n (Z : 'M[complex_sf]_(n, p)) : (\matrix_(j, i) (Z^T j i - c j 0)) *m (np_conj (\matrix_(j, i) (Z^T j i - c j 0)))^T = \sum_i g (row i Z).
  apply/matrixP => a b; rewrite mxE summxE; apply: eq_bigr => i _; by rewrite /g /outer !mxE big_ord1 !mxE.
by rewrite !e (freq_mean same g).
Qed.
(* so are the Kronecker structured estimates *)
Theorem C125_kronecker (K : starField) ssqrtm N M q a b (X : 'M[K]_(N, q)) (Y : 'M[K]_(M, q)) tol m : same_frequencies X Y ->
  estimation_cov_kronecker_MM ssqrtm a b X tol m = estimation_cov_kronecker_MM ssqrtm a b Y tol m.
Proof.
move=> same; have ec n (Z : 'M[K]_(n, q)) i : cell Z a b i = cell (row i Z) a b 0.
  by apply/matrixP => r c; rewrite !mxE /entry; case: insubP => // j _ _; rewrite mxE.
have eM k (num : 'rV[K]_q -> 'M[K]_k) (den : 'rV[K]_q -> K) :
    mm_M (fun i => num (row i X)) (fun i => den (row i X)) = mm_M (fun i => num (row i Y)) (fun i => den (row i Y)).
  have e n (Z : 'M[K]_(n, q)) : mm_M (fun i => num (row i Z)) (fun i => den (row i Z)) = n%:R^-1 *: (\sum_i k%:R *: ((den (row i Z))^-1 *: num (row i Z))).
    by rewrite /mm_M scaler_sumr; apply: eq_bigr => i _; rewrite [in RHS]scalerA mulrC.
  by rewrite !e (freq_mean same (fun x => k%:R *: ((den x)^-1 *: num x))).
have H : mm_step ssqrtm X =1 mm_step ssqrtm (a := a) (b := b) Y.
  move=> [[A iA] B]; rewrite /mm_step.
  have d n (Z : 'M[K]_(n, q)) jA jB i : mm_denominator Z (a := a) (b := b) jA jB i = mm_denominator (row i Z) jA jB 0 by rewrite /mm_denominator /mm_numerator ec.
  have n1 n (Z : 'M[K]_(n, q)) jB i : mm_numerator a Z jB i = mm_numerator a (b := b) (row i Z) jB 0 by rewrite /mm_numerator ec.
  have n2 n (Z : 'M[K]_(n, q)) jA i : mm_numerator_B b Z jA i = mm_numerator_B b (a := a) (row i Z) jA 0 by rewrite /mm_numerator_B ec.
  have fM n (f f' : 'I_n -> 'M[K]_a) g g' : f =1 f' -> g =1 g' -> mm_M f g = mm_M f' g' by move=> e1 e2; apply: eq_bigr => i _; rewrite e1 e2.
  have fM' n (f f' : 'I_n -> 'M[K]_b) g g' : f =1 f' -> g =1 g' -> mm_M f g = mm_M f' g' by move=> e1 e2; apply: eq_bigr => i _; rewrite e1 e2.
  have ex jA jB : [exists i, mm_denominator X jA jB i == 0] = [exists i, mm_denominator (a := a) (b := b) Y jA jB i == 0].
    have e n (Z : 'M[K]_(n, q)) : [exists i, mm_denominator Z jA jB i == 0] = [exists i, mm_denominator (row i Z) jA jB 0 == 0] by apply: eq_existsb => i; rewrite d.
    by rewrite (e _ X) (e _ Y); exact: (freq_exists same (fun x => mm_denominator x jA jB 0 == 0)).
  have m1 jA jB : mm_M (mm_numerator a X jB) (mm_denominator X jA jB) = mm_M (mm_numerator a Y jB) (mm_denominator (a := a) (b := b) Y jA jB).
    rewrite (fM _ _ _ _ _ (n1 _ X jB) (d _ X jA jB)) (fM _ _ _ _ _ (n1 _ Y jB) (d _ Y jA jB)).
    exact: (eM _ (fun x => mm_numerator a x jB 0) (fun x => mm_denominator x jA jB 0)).
  have m2 jA jB : mm_M (mm_numerator_B b X jA) (mm_denominator X jA jB) = mm_M (mm_numerator_B b Y jA) (mm_denominator (a := a) (b := b) Y jA jB).
    rewrite (fM' _ _ _ _ _ (n2 _ X jA) (d _ X jA jB)) (fM' _ _ _ _ _ (n2 _ Y jA) (d _ Y jA jB)).
    exact: (eM _ (fun x => mm_numerator_B b x jA 0) (fun x => mm_denominator x jA jB 0)).
  case: (np_inv B) => //= jB; case: (np_inv (ssqrtm _ A)) => //= sA; case: (np_inv (ssqrtm _ B)) => //= sB.
  rewrite ex m1; case: ifP => // _; case: (np_inv _) => //= jA; by rewrite ex m2.
rewrite /estimation_cov_kronecker_MM; case: ifP => // _.
have -> // : mm_loop ssqrtm a b X tol m = mm_loop ssqrtm a b Y tol m.
by rewrite /mm_loop (FunctionalExtensionality.functional_extensionality _ _ H).
Qed.
(* the costs are sums over the samples: in proportion of their numbers *)
Theorem C125_costs N M p q :
  (forall eigh (X : 'M[real_sf]_(N, p)) (Y : 'M[real_sf]_(M, p)) (Q : 'M[real_sf]_q) cX cY, same_frequencies X Y ->
     Tyler_cost_real eigh X Q = Ok cX -> Tyler_cost_real eigh Y Q = Ok cY -> cX / N%:R = cY / M%:R) /\
  (forall eigh (X : 'M[complex_sf]_(N, p)) (Y : 'M[complex_sf]_(M, p)) (Q : 'M[complex_sf]_q) cX cY, same_frequencies X Y ->
     Tyler_cost_complex eigh X Q = Ok cX -> Tyler_cost_complex eigh Y Q = Ok cY -> cX / N%:R = cY / M%:R).
Proof.
have G (K : starField) (X : 'M[K]_(N, p)) (Y : 'M[K]_(M, p)) (g : 'rV[K]_p -> R) (d : R) : same_frequencies X Y ->
    (p%:R * (\sum_i g (row i X)) + N%:R * d) / N%:R = (p%:R * (\sum_i g (row i Y)) + M%:R * d) / M%:R.
  move=> same; have [N0 M0 _] := same; have n0 n : (0 < n)%N -> n%:R != 0 :> R by rewrite pnatr_eq0 -lt0n.
  have := freq_mean same (fun x => g x : R^o); rewrite /GRing.scale /= => h.
  by rewrite !mulrDl -![p%:R * _ / _]mulrA ![_ / N%:R]mulrC ![_ / M%:R]mulrC h !mulKf ?n0.
split=> eigh X Y Q cX cY same; rewrite /Tyler_cost_real /Tyler_cost_complex; case: eqP => // e [<-] [<-].
  set S := castmx _ Q; pose g (x : 'rV[real_sf]_p) : R := ln (((invsqrtm eigh S *m x^T)^T *m (invsqrtm eigh S *m x^T)) 0 0).
  have E n (Z : 'M[real_sf]_(n, p)) : \sum_i ln (einsum_ij_ji_i (invsqrtm eigh S *m Z^T)^T (invsqrtm eigh S *m Z^T) 0 i) = \sum_i g (row i Z).
    apply: eq_bigr => i _; rewrite /g /einsum_ij_ji_i !mxE; congr ln; apply: eq_bigr => k _; rewrite !mxE; congr (_ * _); by apply: eq_bigr => l _; rewrite !mxE.
  by rewrite !E; exact: G.
set S := castmx _ Q; pose g (x : 'rV[complex_sf]_p) : R := ln (@toR complex_sf ((np_conj (invsqrtm eigh S *m x^T)^T *m (invsqrtm eigh S *m x^T)) 0 0)).
have E n (Z : 'M[complex_sf]_(n, p)) : \sum_i ln (@toR complex_sf (einsum_ij_ji_i (np_conj (invsqrtm eigh S *m Z^T)^T) (invsqrtm eigh S *m Z^T) 0 i)) = \sum_i g (row i Z).
  apply: eq_bigr => i _; rewrite /g /einsum_ij_ji_i !mxE; congr (ln (@toR complex_sf _)); apply: eq_bigr => k _; rewrite !mxE; congr (_ * _); [congr (@cj complex_sf _)|]; by apply: eq_bigr => l _; rewrite !mxE.
by rewrite !E; exact: G.
Qed.
(* the samples can be put in another order and data sets of the same distribution put together, in particular repeated *)
Theorem C125_same_frequencies (T : eqType) N M L p (X : 'M[T]_(N, p)) (Y : 'M[T]_(M, p)) (Z : 'M[T]_(L, p)) :
  ((0 < N)%N -> forall s, same_frequencies (row_perm s X) X) /\
  (same_frequencies X Z -> same_frequencies Y Z -> same_frequencies (col_mx X Y) Z).
Proof.
have rowP' s i : row i (row_perm s X) = row (s i) X by apply/rowP => k; rewrite !mxE.
split=> [N0 s|[N0 L0 hX] [M0 _ hY] ].
  split=> // x; congr (_ * _)%N; rewrite -(card_imset [set i | row i (row_perm s X) == x] (@perm_inj _ s)); apply: eq_card => j.
  apply/imsetP/idP; first by case=> i; rewrite !inE rowP' => h ->.
  by rewrite inE => h; exists ((s^-1)%g j); rewrite ?permKV // inE rowP' permKV.
split=> [ | |x] //; first by rewrite addn_gt0 N0.
have c n (W : 'M[T]_(n, p)) : #|[set i | row i W == x]| = (\sum_i (row i W == x))%N by rewrite -sum1dep_card big_mkcond.
rewrite mulnDl -hX -hY -mulnDr; congr (_ * _)%N; rewrite !c big_split_ord /=; congr (_ + _)%N; apply: eq_bigr => i _; congr (nat_of_bool (_ == _)).
  by apply/rowP => k; rewrite !mxE (unsplitK (inl i)).
by apply/rowP => k; rewrite !mxE (unsplitK (inr i)).
Qed.
(* a data set of three samples and one of six: the samples e1, e2, e2 and e2, e1, e2, e2, e2, e1 *)
Example C125_hypotheses (K : starField) : exists (X : 'M[K]_(3, 2)) (Y : 'M[K]_(3 + 3, 2)), same_frequencies X Y.
Proof.
pose X : 'M[K]_(3, 2) := \matrix_(i, j) (if i == 0 then (j == 0)%:R else (j != 0)%:R).
exists X, (col_mx (row_perm (tperm 0 1) X) (row_perm (tperm 0 ord_max) X)).
have h s : same_frequencies (row_perm s X) X by exact: (C125_same_frequencies X X X).1.
have [N0 L0 e] := (C125_same_frequencies _ _ _).2 (h (tperm 0 1)) (h (tperm 0 ord_max)); split=> // x; exact: esym (e x).
Qed.
Print Assumptions C125_fixed_points.
Print Assumptions C125_empirical.
Print Assumptions C125_kronecker.
Print Assumptions C125_costs.
Print Assumptions C125_same_frequencies.
Print Assumptions C125_hypotheses.
