(* Theorems about the Hermitian part of a matrix (C80) and what a feature array reports about itself (C81). *)
From Coq Require Import Reals ZArith.
From mathcomp Require Import all_ssreflect all_algebra.
From Verif Require Import RealsMC RealTac Star StarInst FunCalc Model_linalg Proofs_linalg Model_featurearray Spec_featurearray Proofs_featurearray Proofs_fa2.
Set Implicit Arguments.
Unset Strict Implicit.
Unset Printing Implicit Defensive.

(* ------------------------------------------------------------------ C80 *)
Section HermitianPart.
Local Open Scope ring_scope.
Import GRing.Theory Num.Theory Order.TTheory.
Variable K : starField.
(* entry by entry, the conjugate transpose *)
Theorem C80_multihconj m n (A : 'M[K]_(m, n)) i j : multihconj A i j = @cj K (A j i).
Proof. by rewrite !mxE. Qed.
Lemma hermitianE n (A : 'M[K]_n) : hermitian A = multiherm A. Proof. by []. Qed.
(* both functions compute the same Hermitian matrix, and leave Hermitian matrices alone *)
Theorem C80_projection n (A : 'M[K]_n) : [/\ hermitian A = multiherm A, herm (multiherm A), multiherm (multiherm A) = multiherm A &
  multiherm A = A <-> herm A].
Proof.
split=> //; [exact: herm_multiherm | by apply: multiherm_id; exact: herm_multiherm |].
by split=> [<-|]; [exact: herm_multiherm | exact: multiherm_id].
Qed.
Lemma ofR_neq0 (c : R) : c != 0 -> @ofR K c != 0.
Proof. by move=> c0; apply/eqP => e; move: c0; rewrite (_ : c = 0) ?eqxx //; apply: (@ofR_inj K); rewrite rmorph0. Qed.
Lemma skew_rest n (A : 'M[K]_n) : (A - multiherm A)^H = - (A - multiherm A).
Proof.
have two : 2%:R *: multiherm A = A + A^H by rewrite /multiherm multihconjE scalerA divff ?scale1r // pnatr_eq0.
have e : multiherm A + multiherm A = A + A^H by rewrite -two scaler_nat mulr2n.
rewrite adjB (herm_multiherm A) opprB; apply/eqP; rewrite subr_eq addrAC eq_sym subr_eq; apply/eqP.
by rewrite e addrC.
Qed.
Lemma fro2_pythagoras n (A B : 'M[K]_n) : A^H = - A -> herm B -> fro2 (A + B) = fro2 A + fro2 B.
Proof.
move=> sA hB; apply: (@ofR_inj K); rewrite rmorphD /= !fro2_tr adjD sA hB mulmxDl !mulmxDr !mxtraceD.
rewrite (mxtrace_mulC A B) !mulmxN !raddfN /=; move: (\tr (A *m A)) (\tr (B *m A)) (\tr (B *m B)) => a b c.
by rewrite -addrA (addrA b) subrr add0r.
Qed.
(* it is the nearest Hermitian matrix in Frobenius norm, and the only one *)
Theorem C80_nearest n (A B : 'M[K]_n) : herm B -> fro (A - multiherm A) <= fro (A - B) /\ (fro (A - B) <= fro (A - multiherm A) -> B = multiherm A).
Proof.
move=> hB; have hD : herm (multiherm A - B) by rewrite /herm adjB (herm_multiherm A) hB.
have e : fro2 (A - B) = fro2 (A - multiherm A) + fro2 (multiherm A - B).
  by rewrite -(fro2_pythagoras (skew_rest A) hD) addrA subrK.
have g := fro2_ge0 (multiherm A - B); split; first by apply/RleP/R_sqrt.sqrt_le_1_alt/RleP; rewrite e ler_addl.
move=> /RleP /R_sqrt.sqrt_le_0 h; have : fro2 (A - B) <= fro2 (A - multiherm A).
  by apply/RleP/h; apply/RleP; exact: fro2_ge0.
rewrite e ger_addl => l; have z : fro2 (multiherm A - B) = 0 by apply/eqP; rewrite eq_le l.
by move: (fro2_eq0 z) => /eqP; rewrite subr_eq0 => /eqP ->.
Qed.
(* its quadratic form is the real part of that of A *)
Theorem C80_quadratic_form n (A : 'M[K]_n) (x : 'cV[K]_n) : (x^H *m multiherm A *m x) 0 0 = @ofR K (@toR K ((x^H *m A *m x) 0 0)).
Proof.
have q1 (y : 'M[K]_1) : y^H 0 0 = @cj K (y 0 0) by rewrite adjE.
have hh : @cj K ((x^H *m multiherm A *m x) 0 0) = (x^H *m multiherm A *m x) 0 0.
  by rewrite -q1 !adjM adjK (herm_multiherm A) mulmxA.
rewrite -[LHS](ofRK hh); congr (@ofR K _); rewrite multihermE -scalemxAr -scalemxAl mxE toRZ mulmxDr mulmxDl mxE raddfD /=.
have -> : (x^H *m A^H *m x) 0 0 = @cj K ((x^H *m A *m x) 0 0) by rewrite -q1 !adjM adjK mulmxA.
rewrite toR_cj; move: (toR _ _) => r.
by rewrite -mulr2n -[r *+ 2]mulr_natl mulKf // pnatr_eq0.
Qed.
End HermitianPart.

(* ------------------------------------------------------------------ C81 *)
Section Reports.
Variable V : Type.
Variable zero : V.
Variable dty : eqType.
Notation start h shapes pool := (W h (fa_init dty shapes) pool).
(* after any history of accepted appends, rejected appends (one component), exports and allocations *)
Theorem C81_reports dts (h : heap V) shapes (pool : seq (nd dty)) w log :
  0 < size shapes -> all (nd_wf h) pool -> steps zero dts (start h shapes pool) w log ->
  [/\ nb_manifolds (w_fa w) = size shapes,
      fa_shapes (w_fa w) = (if total log == 0 then inl 0 else inr [seq total log :: s | s <- shapes]) &
      fa_dtype (w_fa w) = Ok (if total log == 0 then [::] else dts)].
Proof.
move=> hs wf st; have [I sh _ _] := steps_ok st (Inv_init zero dts hs wf).
case: w I sh {st} => h' f' p' [_ _ _ /= el arr] /= sh; rewrite /nb_manifolds /fa_shapes /fa_dtype sh el; split=> //.
  by case: ifP => // /eqP ->.
case: ifP => // n0; case: arr => [[l0 _]|[arrs [-> _ ty _]]]; first by move: n0; rewrite l0 /total big_nil.
have -> : all isSome (map Some arrs) by elim: (arrs).
by congr Ok; rewrite -ty; elim: (arrs) => //= a l ->.
Qed.
End Reports.

Print Assumptions C80_multihconj.
Print Assumptions C80_projection.
Print Assumptions C80_nearest.
Print Assumptions C80_quadratic_form.
Print Assumptions C81_reports.
