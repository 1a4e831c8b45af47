(* The Kronecker structured estimate and Tyler's estimate of the same samples: C128. *)
From Coq Require Import Reals Lra Classical_Prop.
From mathcomp Require Import all_ssreflect all_algebra.
From mathcomp Require Import mxtens.
From Verif Require Import RealsMC RealTac RealTac2 Star StarInst FunCalc Model_featurearray Model_covariance Spec_covariance Spec_fixedpoint Proofs_mest Proofs_unique2 Proofs_linalg Props_cost
  Model_structured Proofs_structured Props_structured Compact Proofs_converge Props_converge Spec_exist Props_exist Proofs_exist2 Props_unique
  Spec_kron Proofs_kron Proofs_kron2 Proofs_kron6 Proofs_kron8 Proofs_kron9 Props_kron Proofs_kcont2.
Set Implicit Arguments.
Unset Strict Implicit.
Unset Printing Implicit Defensive.
Local Open Scope ring_scope.
Import GRing.Theory Num.Theory Order.TTheory.

(* ------------------------------------------------------------------ C128 *)
(* the function can make any number of iterations, and its results approach L and M when this number grows *)
Definition mm_limit (K : starField) (ssqrtm : forall n, 'M[K]_n -> 'M[K]_n) N a b (X : 'M[K]_(N, a * b)) (L : 'M[K]_a) (M : 'M[K]_b) :=
  [/\ pd L, pd M, forall m, exists tol A B t, estimation_cov_kronecker_MM ssqrtm a b X tol m = Ok (Some (A, B, t, m)) & forall e : R, 0 < e -> exists k0, forall tol m A B t k,
     estimation_cov_kronecker_MM ssqrtm a b X tol m = Ok (Some (A, B, t, k)) -> (k0 <= k)%N -> near e L A /\ near e M B].
(* The cost of the structured estimate is at least that of Tyler's estimate T; the two estimates are the same, up to a
   factor, if and only if their costs are the same, if and only if T has the Kronecker structure. *)
Definition structured (K : starField) a b (T : 'M[K]_(a * b)) := exists (P : 'M[K]_a) (B : 'M[K]_b), [/\ pd P, pd B & T = P *t B].
Definition compares (K : starField) (ssqrtm : forall n, 'M[K]_n -> 'M[K]_n) N a b (X : 'M[K]_(N, a * b)) (T : 'M[K]_(a * b)) :=
  exists L M, [/\ mm_limit ssqrtm X L M, tyler_objective X T <= tyler_objective X (L^T *t M),
    tyler_objective X (L^T *t M) = tyler_objective X T <-> proportional T (L^T *t M) & proportional T (L^T *t M) <-> structured T].
Section Compare.
Variables (K : starField) (cK : compactK K) (ssqrtm : forall n, 'M[K]_n -> 'M[K]_n).
Hypothesis sq_ok : sqrtm_psd_ok ssqrtm.
Lemma kron_tyler N a b (X : 'M[K]_(N, a * b)) T : (0 < N)%N -> (0 < a)%N -> (0 < b)%N -> nonzero_samples X -> tyler_condition X ->
  tyler_solution X T -> compares ssqrtm X T.
Proof.
case: a b X T => // a [//|b] X T N0 _ _ nz cond sT.
have a0 : (0 < a.+1)%N by []. have b0 : (0 < b.+1)%N by []. have st := tyler_stable nz N0 a0 b0 cond.
have X0 i : row i X != 0 by have := nz i; rewrite /samp trmx_eq0.
have [L [M [pL pM mi cv]]] := mm_converges sq_ok nz N0 a0 b0 cK st; exists L, M.
have [pP _ le] := mi; have pS := tens_pd pP pM; have [pT eT] := sT.
have low S : pd S -> tyler_objective X T <= tyler_objective X S by move=> pS'; exact: (tyler_min N0 X0 pT pS' eT).
have ab0 : (0 < a.+1 * b.+1)%N by [].
have one : proportional T (L^T *t M) -> tyler_objective X (L^T *t M) = tyler_objective X T by move=> [c c0 ->]; exact: tcost_scale.
have two : tyler_objective X (L^T *t M) = tyler_objective X T -> proportional T (L^T *t M).
  move=> E; have sp : spanning X by apply: (solution_spanning (w := fun i => (a.+1 * b.+1)%:R / N%:R / maha T (samp X i))); rewrite -eT.
  suff sS : tyler_solution X (L^T *t M) by exact: (tyler_unique N0 X0 (tyler_irreducible X0 N0 cond) sT sS).
  apply: (tyler_minimiser N0 X0 sp ab0 pS) => S pS'.
  by rewrite -[tcost _ _]/(tyler_objective _ _) E; exact: low.
split=> //; [|exact: low|].
  split=> // [m|e e0]; last by have [h _ _] := cv e e0.
  have [sc sr] := stable_spans cK nz N0 a0 b0 st; have [A [B [k [ok km _ _]]]] := C56_succeeds sq_ok (Fin (-1)) m nz sc sr.
  have [_ _ _ h _] := run_pass sq_ok nz a0 b0 sc sr ok; exists (Fin (-1)), A, B, (Fin (-1)); rewrite ok.
  case: (ltnP k m) => [lt|ge]; last by have -> : k = m by apply/eqP; rewrite eqn_leq km ge.
  have [j _] := h _ erefl lt; rewrite leNgt => /negP []; apply: (@lt_le_trans _ _ 0); first by rewrite oppr_lt0 ltr01.
  by rewrite /chg le_maxr /rc divr_ge0 ?fro_ge0.
split=> [[c c0 E]|[P [B [pP' pB' E]]]].
  have ci : 0 < c^-1 by rewrite invr_gt0.
  exists (@ofR K c^-1 *: L^T), M; split=> //; first by apply: pdZ; rewrite ?ofR_gt0.
  by rewrite -[M in RHS]scale1r tens_scl mulr1 E scalerA -rmorphM mulVf ?gt_eqF // rmorph1 scale1r.
apply: two; apply/eqP; rewrite eq_le low // andbT E; exact: (le _ _ pP' pB').
Qed.
Lemma pd_cast m n (e : m = n) (A : 'M[K]_m) : pd A -> pd (castmx (e, e) A).
Proof. by case: n / e; rewrite castmx_id. Qed.
Lemma row_structured b (T : 'M[K]_(1 * b)) : pd T -> structured (a := 1) T.
Proof.
move=> pT; exists 1%:M, (castmx (mul1n b, mul1n b) T); split; [exact: pd1 | exact: pd_cast |].
by rewrite tens_scalar1mx castmxK.
Qed.
Lemma col_structured a (T : 'M[K]_(a * 1)) : pd T -> structured (b := 1) T.
Proof.
move=> pT; exists (castmx (muln1 a, muln1 a) T), 1%:M; split; [exact: pd_cast | exact: pd1 |].
by rewrite tens_mx_scalar scale1r castmxK.
Qed.
Lemma tr11 (A : 'M[K]_1) : A^T = A. Proof. by apply/matrixP => i j; rewrite !ord1 mxE. Qed.
Lemma kron_row N b (X : 'M[K]_(N, 1 * b)) T : (0 < N)%N -> (0 < b)%N -> nonzero_samples X -> tyler_condition X -> tyler_solution X T ->
  exists L M, mm_limit ssqrtm X L M /\ proportional T (L *t M).
Proof.
move=> N0 b0 nz cond sT; have [L [M [h _ _ E]]] := kron_tyler (a := 1) N0 isT b0 nz cond sT; exists L, M; split=> //.
by rewrite -[L]tr11; apply/E/row_structured/sT.1.
Qed.
Lemma kron_col N a (X : 'M[K]_(N, a * 1)) T : (0 < N)%N -> (0 < a)%N -> nonzero_samples X -> tyler_condition X -> tyler_solution X T ->
  exists L M, mm_limit ssqrtm X L M /\ proportional T^T (L *t M).
Proof.
move=> N0 a0 nz cond sT; have [L [M [h _ _ E]]] := kron_tyler (b := 1) N0 a0 isT nz cond sT; exists L, M; split=> //.
have [c c0 e] := (E.2 (col_structured sT.1)); exists c => //.
by have := congr1 (@trmx _ _ _) e; rewrite trmx_tens trmxK tr11 linearZ.
Qed.
End Compare.
Theorem C128_compare N a b : (0 < N)%N -> (0 < a)%N -> (0 < b)%N ->
  (forall ssqrtm (X : 'M[real_sf]_(N, a * b)) T, sqrtm_psd_ok ssqrtm -> nonzero_samples X -> tyler_condition X -> tyler_solution X T -> compares ssqrtm X T) /\
  (forall ssqrtm (X : 'M[complex_sf]_(N, a * b)) T, sqrtm_psd_ok ssqrtm -> nonzero_samples X -> tyler_condition X -> tyler_solution X T -> compares ssqrtm X T).
Proof. by move=> N0 a0 b0; split=> ssqrtm X T ok nz cond sT; [exact: (kron_tyler real_compact) | exact: (kron_tyler complex_compact)]. Qed.
(* With a = 1 there is no structure and kron(A, B) is Tyler's estimate up to a factor ... *)
Theorem C128_row N b : (0 < N)%N -> (0 < b)%N -> forall ssqrtm (X : 'M[complex_sf]_(N, 1 * b)) T, sqrtm_psd_ok ssqrtm -> nonzero_samples X -> tyler_condition X ->
  tyler_solution X T -> exists L M, mm_limit ssqrtm X L M /\ proportional T (L *t M).
Proof. by move=> N0 b0 ssqrtm X T ok nz cond sT; exact: (kron_row complex_compact). Qed.
(* ... but with b = 1, where there is no structure either, it is the transpose of Tyler's estimate, that is its conjugate. *)
Theorem C128_column N a : (0 < N)%N -> (0 < a)%N -> forall ssqrtm (X : 'M[complex_sf]_(N, a * 1)) T, sqrtm_psd_ok ssqrtm -> nonzero_samples X -> tyler_condition X ->
  tyler_solution X T -> exists L M, mm_limit ssqrtm X L M /\ proportional T^T (L *t M).
Proof. by move=> N0 a0 ssqrtm X T ok nz cond sT; exact: (kron_col complex_compact). Qed.
(* three samples of dimension 1 x 2, or 2 x 1 *)
Example C128_hypotheses : (exists (X : 'M[complex_sf]_(3, 1 * 2)) T, [/\ nonzero_samples X, tyler_condition X & tyler_solution X T]) /\
  exists (X : 'M[complex_sf]_(3, 2 * 1)) T, [/\ nonzero_samples X, tyler_condition X & tyler_solution X T].
Proof.
have [X [T [[_ X0] irr sol _ _]]] := C77_C79_hypotheses complex_sf (ltr01 : (0 : R) < 1).
have nz : nonzero_samples X by move=> i; rewrite /samp trmx_eq0; exact: X0.
by split; exists X, T; split=> //; exact: (tyler_necessary X0 sol irr).
Qed.

Print Assumptions C128_compare.
Print Assumptions C128_row.
Print Assumptions C128_column.
