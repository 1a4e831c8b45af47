(* When the estimates of Tyler and Student exist, and that the fixed-point functions then compute them: C85, C86. *)
From Coq Require Import Reals String Lra Classical_Prop.
From mathcomp Require Import all_ssreflect all_algebra.
From mathcomp Require Import complex zify.
From Verif Require Import RealsMC RealTac RealTac2 Star StarInst FunCalc Model_featurearray Model_linalg Proofs_linalg Props_linalg
  Model_covariance Spec_covariance Spec_fixedpoint Spec_exist Model_estimators Proofs_mest Proofs_loop Proofs_covariance Proofs_estimators
  Props_covariance Proofs_cost Props_cost Props_robust Proofs_unique Proofs_unique2 Props_unique Compact Proofs_converge Props_converge
  Proofs_exist Proofs_exist2.
Set Implicit Arguments.
Unset Strict Implicit.
Unset Printing Implicit Defensive.
Local Open Scope ring_scope.
Import GRing.Theory Num.Theory Order.TTheory.

(* ------------------------------------------------------------------ C85 *)
Section Conditions.
Variable K : starField.
Variables (N p : nat) (X : 'M[K]_(N, p.+1)).
Lemma tyler_irreducible : (forall i, row i X != 0) -> (0 < N)%N -> tyler_condition X -> irreducible X.
Proof.
move=> X0 N0 cond P PP sp.
have PT : P^T *m P^T = P^T by rewrite -trmx_mul PP.
have [Q eQ] : exists Q : 'M[K]_p.+1, Q = 1%:M - P^T by eexists.
have rk : (\rank P^T + \rank Q = p.+1)%N.
  apply/eqP; rewrite eqn_leq; apply/andP; split.
    by have := mxrank_Frobenius P^T 1%:M Q; rewrite mul1mx mulmx1 eQ mulmxBr mulmx1 PT subrr mxrank0 addn0 mxrank1.
  by have := mxrank_add P^T Q; rewrite eQ addrC subrK mxrank1.
have inP i : (row i X <= P^T)%MS \/ (row i X <= Q)%MS.
  have e (c : 'cV[K]_p.+1) (x : 'rV[K]_p.+1) : P *m x^T = c -> x *m P^T = c^T by move=> <-; rewrite trmx_mul trmxK.
  case: (sp i) => h; [right | left].
    by apply/submxP; exists (row i X); rewrite eQ mulmxBr mulmx1 (e _ _ h) trmx0 subr0.
  by apply/submxP; exists (row i X); rewrite (e _ _ h) /samp trmxK.
have cnt : (N <= count_in X P^T + count_in X Q)%N.
  rewrite /count_in -[X in (X <= _)%N](card_ord N) -cardsT; apply: leq_trans (leq_card_setU _ _); apply: subset_leq_card; apply/subsetP => i _.
  by rewrite !inE; case: (inP i) => ->; rewrite ?orbT.
case: (posnP (\rank P^T)) => r1.
  by left; apply/eqP; rewrite -trmx_eq0 -mxrank_eq0 r1.
case: (posnP (\rank Q)) => r2.
  right; move/eqP: r2; rewrite mxrank_eq0 eQ subr_eq0 => /eqP e; by rewrite -[P]trmxK -e trmx1.
have d1 : (0 < \rank P^T < p.+1)%N by apply/andP; split=> //; lia.
have d2 : (0 < \rank Q < p.+1)%N by apply/andP; split=> //; lia.
have c1 := cond _ d1; have c2 := cond _ d2.
have h1 : (p.+1 * N <= p.+1 * count_in X P^T + p.+1 * count_in X Q)%N by rewrite -mulnDr leq_mul2l cnt.
have h2 : (N * \rank P^T + N * \rank Q = p.+1 * N)%N by rewrite -mulnDr rk mulnC.
lia.
Qed.
Lemma general_nonzero : general_position X -> forall i, row i X != 0.
Proof.
move=> g i; apply/negP => /eqP e; have := g 0; rewrite mxrank0 => /(_ isT); rewrite leqn0 cards_eq0 => /eqP /setP /(_ i).
by rewrite !inE e sub0mx.
Qed.
End Conditions.
(* Tyler's equation has a solution, unique up to a positive factor, if and only if no proper subspace contains its share
   of the samples. *)
Theorem C85_exists_iff N p : (0 < N)%N ->
  (forall X : 'M[real_sf]_(N, p.+1), (forall i, row i X != 0) ->
     (tyler_condition X <-> exists S, tyler_solution X S /\ forall T, tyler_solution X T -> proportional S T)) /\
  (forall X : 'M[complex_sf]_(N, p.+1), (forall i, row i X != 0) ->
     (tyler_condition X <-> exists S, tyler_solution X S /\ forall T, tyler_solution X T -> proportional S T)).
Proof.
move=> N0; have G (K : starField) (cK : compactK K) (X : 'M[K]_(N, p.+1)) : (forall i, row i X != 0) ->
  (tyler_condition X <-> exists S, tyler_solution X S /\ forall T, tyler_solution X T -> proportional S T).
  move=> X0; split=> [cond|[S [sS uS]]].
    have [S sS] := tyler_exists cK X0 N0 cond; exists S; split=> //.
    exact/(C77_unique_iff_irreducible N0 X0 sS)/tyler_irreducible.
  apply: (tyler_necessary X0 sS); exact/(C77_unique_iff_irreducible N0 X0 sS).
by split=> X X0; apply: G => //; [exact: real_compact | exact: complex_compact].
Qed.
(* Under this condition the fixed-point functions compute the solution: from any start, with any scaling normalisation,
   any relative accuracy is reached with some tolerance, and every smaller one, if enough iterations are allowed. *)
Theorem C85_computed N p : (0 < N)%N ->
  (forall X : 'M[real_sf]_(N, p.+1), (forall i, row i X != 0) -> tyler_condition X ->
     exists2 Sol, tyler_solution X Sol & forall eigh nrm init (e : R), eigh_ok eigh -> scaling_norm nrm -> (forall s0, init = Some s0 -> pd s0) -> 0 < e ->
       exists2 t : R, 0 < t & forall tol : R, 0 < tol <= t -> exists n, forall m s d k, (n <= m)%N ->
         tyler_shape_matrix_fixedpoint eigh X init (Fin tol) m nrm = Some (Ok (s, d, k)) -> fro (s - normalised nrm Sol) <= e * fro (normalised nrm Sol)) /\
  (forall X : 'M[complex_sf]_(N, p.+1), (forall i, row i X != 0) -> tyler_condition X ->
     exists2 Sol, tyler_solution X Sol & forall eigh nrm init (e : R), eigh_ok eigh -> scaling_norm nrm -> (forall s0, init = Some s0 -> pd s0) -> 0 < e ->
       exists2 t : R, 0 < t & forall tol : R, 0 < tol <= t -> exists n, forall m s d k, (n <= m)%N ->
         complex_tyler_shape_matrix_fixedpoint eigh X init (Fin tol) m nrm = Some (Ok (s, d, k)) -> fro (s - normalised nrm Sol) <= e * fro (normalised nrm Sol)).
Proof.
move=> N0; split=> X X0 cond; have irr := tyler_irreducible X0 N0 cond.
  have [S sS] := tyler_exists real_compact X0 N0 cond; exists S => // eigh nrm init e ok hn pi e0.
  exact: ((C84_tyler_accuracy N p hn e0).1 eigh X S init ok X0 irr sS pi).
have [S sS] := tyler_exists complex_compact X0 N0 cond; exists S => // eigh nrm init e ok hn pi e0.
exact: ((C84_tyler_accuracy N p hn e0).2 eigh X S init ok X0 irr sS pi).
Qed.
(* more samples than dimensions, in general position, are enough ... *)
Theorem C85_general_position (K : starField) N p (X : 'M[K]_(N, p.+1)) : general_position X -> (p.+1 < N)%N ->
  (forall i, row i X != 0) /\ tyler_condition X.
Proof.
move=> g pN; split=> [|V /andP[r0 rp]]; first exact: general_nonzero.
apply: (@leq_ltn_trans (p.+1 * \rank V)); first by rewrite leq_mul2l g.
by rewrite ltn_mul2r r0.
Qed.
(* ... and no more samples than dimensions are never enough: the estimate is then not defined up to scale *)
Theorem C85_too_few (K : starField) N p (X : 'M[K]_(N, p.+1)) : (0 < p)%N -> (0 < N <= p.+1)%N -> (forall i, row i X != 0) ->
  ~ exists S, tyler_solution X S /\ forall T, tyler_solution X T -> proportional S T.
Proof.
move=> p0 /andP[N0 Np] X0 [S [sS uS]].
have irr : irreducible X by exact/(C77_unique_iff_irreducible N0 X0 sS).
have cond := tyler_necessary X0 sS irr; pose i0 := Ordinal N0.
have r1 : \rank <<row i0 X>>%MS = 1%N by rewrite mxrank_gen rank_rV X0.
have hr : (0 < \rank <<row i0 X>>%MS < p.+1)%N by rewrite r1 /= ltnS.
have := cond _ hr; rewrite r1 muln1 ltnNge => /negP; apply; apply: leq_trans Np _.
rewrite -[X in (X <= _)%N]muln1 leq_mul2l /=; apply/card_gt0P; exists i0; by rewrite inE genmxE submx_refl.
Qed.

(* ------------------------------------------------------------------ C86 *)
(* Student's equation has a solution, then unique, if and only if a proper subspace V contains a proportion of the samples
   less than (a + dim V) / (a + p); a is df/2 for the real function and df for the complex one *)
Theorem C86_exists_iff N p (a : R) : 0 < a ->
  (forall X : 'M[real_sf]_(N, p.+1), (forall i, row i X != 0) -> (student_condition a X <-> exists S, student_solution a X S)) /\
  (forall X : 'M[complex_sf]_(N, p.+1), (forall i, row i X != 0) -> (student_condition a X <-> exists S, student_solution a X S)).
Proof.
move=> a0; split=> X X0; split=> [cond|[S sS]]; try exact: (student_necessary X0 a0 sS).
  exact: (student_exists real_compact X0 a0 cond).
exact: (student_exists complex_compact X0 a0 cond).
Qed.
Theorem C86_computed N p (df : R) : 0 < df ->
  (forall X : 'M[real_sf]_(N, p.+1), (forall i, row i X != 0) -> student_condition (df / 2%:R) X ->
     exists2 Sol, student_solution (df / 2%:R) X Sol & forall eigh init (e : R), eigh_ok eigh -> (forall s0, init = Some s0 -> pd s0) -> 0 < e ->
       exists2 t : R, 0 < t & forall tol : R, 0 < tol <= t -> exists n, forall m s d k, (n <= m)%N ->
         student_t_mle_fixed_point eigh X df init (Fin tol) m = Some (Ok (s, d, k)) -> fro (s - Sol) <= e * fro Sol) /\
  (forall X : 'M[complex_sf]_(N, p.+1), (forall i, row i X != 0) -> student_condition df X ->
     exists2 Sol, student_solution df X Sol & forall eigh init (e : R), eigh_ok eigh -> (forall s0, init = Some s0 -> pd s0) -> 0 < e ->
       exists2 t : R, 0 < t & forall tol : R, 0 < tol <= t -> exists n, forall m s d k, (n <= m)%N ->
         complex_student_t_mle_fixed_point eigh X df init (Fin tol) m = Some (Ok (s, d, k)) -> fro (s - Sol) <= e * fro Sol).
Proof.
move=> d0; have a0 : 0 < df / 2%:R by rewrite divr_gt0 ?ltr0n.
split=> X X0 cond.
  have [S sS] := student_exists real_compact X0 a0 cond; exists S => // eigh init e ok pi e0.
  exact: ((C84_student_accuracy N p d0 e0).1 eigh X S init ok X0 sS pi).
have [S sS] := student_exists complex_compact X0 d0 cond; exists S => // eigh init e ok pi e0.
exact: ((C84_student_accuracy N p d0 e0).2 eigh X S init ok X0 sS pi).
Qed.
(* samples in general position, at least as many as dimensions, are enough *)
Theorem C86_general_position (K : starField) N p (a : R) (X : 'M[K]_(N, p.+1)) : 0 < a -> general_position X -> (p.+1 <= N)%N ->
  (forall i, row i X != 0) /\ student_condition a X.
Proof.
move=> a0 g pN; split=> [|V rp]; first exact: general_nonzero.
have b0 : 0 <= a + p.+1%:R by rewrite addr_ge0 ?ler0n // ltW.
apply: (@le_lt_trans _ _ ((a + p.+1%:R) * (\rank V)%:R)); first by apply: ler_wpmul2l => //; rewrite ler_nat g.
apply: (@lt_le_trans _ _ (p.+1%:R * (a + (\rank V)%:R))).
  by rewrite mulrDl mulrDr ltr_add2r mulrC ltr_pmul2r // ltr_nat.
by apply: ler_wpmul2r; [rewrite addr_ge0 ?ler0n // ltW | rewrite ler_nat].
Qed.
(* the condition is weaker for Student's equation: it follows from that of Tyler's *)
Theorem C86_weaker (K : starField) N p (a : R) (X : 'M[K]_(N, p.+1)) : 0 < a -> (0 < N)%N -> (forall i, row i X != 0) ->
  tyler_condition X -> student_condition a X.
Proof.
move=> a0 N0 X0 cond V rp; have NR : 0 < N%:R :> R by rewrite ltr0n.
have cN : (count_in X V <= N)%N by rewrite -[X in (_ <= X)%N]card_ord max_card.
have h : p.+1%:R * (count_in X V)%:R <= N%:R * (\rank V)%:R :> R.
  rewrite -!natrM ler_nat; case: (posnP (\rank V)) => [/(inside0 X0) e|r0]; last by rewrite ltnW // cond // r0.
  by rewrite /count_in -/(inside X V) e muln0.
rewrite mulrDl mulrDr ltr_le_add // mulrC ltr_pmul2r // ltr_nat ltn_neqAle cN andbT; apply/negP => /eqP e.
move: h; rewrite e -!natrM ler_nat mulnC leq_mul2l eqn0Ngt N0 /= leqNgt; by rewrite rp.
Qed.

(* ------------------------------------------------------------------ examples *)
(* the hypotheses are met by three plane vectors, two of which are never on a line; C85_too_few has samples that miss them *)
Example C85_C86_hypotheses (K : starField) : exists X : 'M[K]_(3, 2),
  [/\ general_position X, forall i, row i X != 0, tyler_condition X & forall a : R, 0 < a -> student_condition a X].
Proof.
have [X [Sol [[_ X0] irr sol _ _]]] := C77_C79_hypotheses K ltr01; exists X.
have cond := tyler_necessary X0 sol irr; split=> // [V rp|a a0]; last exact: C86_weaker.
case: (posnP (\rank V)) => [r0|r0]; first by have := inside0 X0 r0; rewrite /inside /count_in => ->.
have r1 : \rank V = 1%N by lia.
have := cond V; rewrite r1 => /(_ isT); lia.
Qed.

Print Assumptions C85_exists_iff.
Print Assumptions C85_computed.
Print Assumptions C85_general_position.
Print Assumptions C85_too_few.
Print Assumptions C86_exists_iff.
Print Assumptions C86_computed.
Print Assumptions C86_general_position.
Print Assumptions C86_weaker.
