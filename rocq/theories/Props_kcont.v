(* The Kronecker structured estimate depends continuously on the samples: C126. *)
From Coq Require Import Reals Lra Classical_Prop.
From mathcomp Require Import all_ssreflect all_algebra.
From mathcomp Require Import mxtens.
From Verif Require Import RealsMC RealTac RealTac2 Star StarInst FunCalc Spec_covariance Props_structured Proofs_unique2 Proofs_linalg
  Compact Proofs_converge Props_converge Spec_kron Proofs_kron6 Proofs_kron8 Props_kron Proofs_stable2 Proofs_tycont Props_tycont Proofs_kcont Proofs_kcont2.
Set Implicit Arguments.
Unset Strict Implicit.
Unset Printing Implicit Defensive.
Local Open Scope ring_scope.
Import GRing.Theory Num.Theory Order.TTheory.

(* ------------------------------------------------------------------ C126 *)
(* For stable samples with minimiser (P, B), all samples near them are stable, and their minimiser, the only one up to a
   factor for each matrix, is near (P, B) for a suitable choice of the factors. *)
Definition kron_continuous (K : starField) N a b (X : 'M[K]_(N, a * b)) P B := forall t : R, 0 < t ->
  exists2 d : R, 0 < d & forall Y, fro (Y - X) <= d -> [/\ nonzero_samples Y, kron_stable Y &
    exists P' B', [/\ kron_minimiser Y P' B', kron_unique Y P' B', near t P P' & near t B B']].
Lemma kron_cont (K : starField) (cK : compactK K) N a b (X : 'M[K]_(N, a * b)) P B : (0 < N)%N -> (0 < a)%N -> (0 < b)%N ->
  nonzero_samples X -> kron_stable X -> kron_minimiser X P B -> kron_continuous X P B.
Proof.
move=> N0 a0 b0 nz st mi t t0; apply: near_fro.
have X0 i : row i X != 0 by have := nz i; rewrite /samp trmx_eq0.
apply: near_imp (near_and (near_nonzero X0) (near_and (near_stable cK a0 b0 st) (kron_near cK N0 a0 b0 nz st mi t0))) => Y [Y0 [sY h]].
have nY : nonzero_samples Y by move=> i; rewrite /samp trmx_eq0; exact: Y0.
split=> //; have [P1 [B1 [m1 u1]]] := (stable_iff nY N0 a0 b0 cK).1 sY; have [pP1 pB1 le] := m1; have [pP pB _] := mi.
have [[c c0 h1] [d d0 h2]] := h _ _ m1.
have pP2 : pd (@ofR K c *: P1) by apply: pdZ; rewrite ?ofR_gt0.
have pB2 : pd (@ofR K d *: B1) by apply: pdZ; rewrite ?ofR_gt0.
have nr n (S T : 'M[K]_n) : pd S -> pd T -> close t S T -> near t T S by move=> pS pT [u1' u2']; apply: loewner_fro => //; exact: ltW.
exists (@ofR K c *: P1), (@ofR K d *: B1); split; [| | exact: nr | exact: nr].
  by split=> // P' B' pP' pB'; rewrite kcost_scl //; exact: le.
have inv (x y : R) : 0 < x -> 0 < y -> 0 < y / x by move=> x0 y0; rewrite divr_gt0.
move=> P' B' /u1 [[x x0 ->] [y y0 ->]]; split; [exists (x / c) | exists (y / d)]; rewrite ?inv // scalerA -rmorphM divfK ?gt_eqF //.
Qed.
Theorem C126_continuous N a b : (0 < N)%N -> (0 < a)%N -> (0 < b)%N ->
  (forall (X : 'M[real_sf]_(N, a * b)) P B, nonzero_samples X -> kron_stable X -> kron_minimiser X P B -> kron_continuous X P B) /\
  (forall (X : 'M[complex_sf]_(N, a * b)) P B, nonzero_samples X -> kron_stable X -> kron_minimiser X P B -> kron_continuous X P B).
Proof. by move=> N0 a0 b0; split=> X P B nz st mi; [exact: (kron_cont real_compact) | exact: (kron_cont complex_compact)]. Qed.
(* the three samples of C90 have a minimiser *)
Example C126_hypotheses : [/\ nonzero_samples (kX complex_sf), kron_stable (kX complex_sf) & exists P B, kron_minimiser (kX complex_sf) P B].
Proof.
have [nz st _] := C89_C90_C91_hypotheses complex_sf; split=> //.
by have [P [B [mi _]]] := (stable_iff nz isT isT isT complex_compact).1 st; exists P, B.
Qed.

Print Assumptions C126_continuous.
