(* The estimates have the symmetries of the samples: C115. *)
From Coq Require Import Reals String.
From mathcomp Require Import all_ssreflect all_fingroup all_algebra.
From Verif Require Import RealsMC Star StarInst FunCalc Model_featurearray Model_linalg Proofs_linalg Props_linalg.
From Verif Require Import Model_covariance Spec_covariance Spec_fixedpoint Spec_exist Spec_hubiter Model_estimators Proofs_mest Proofs_loop Proofs_covariance Proofs_estimators
  Props_covariance Proofs_unique2 Proofs_hubiter Props_unique Props_robust2 Props_converge Props_hubiter Props_exist.
Set Implicit Arguments.
Unset Strict Implicit.
Unset Printing Implicit Defensive.
Local Open Scope ring_scope.
Import GRing.Theory Num.Theory Order.TTheory.

(* ---------- specification ---------- *)
Section Spec.
Variable K : starField.
(* an invertible linear map that permutes the samples *)
Definition symmetry N p (X : 'M[K]_(N, p)) (A : 'M[K]_p) :=
  A \in unitmx /\ exists s : 'S_N, forall i, A *m samp X i = samp X (s i).
(* ... that permutes them up to factors *)
Definition direction_symmetry N p (X : 'M[K]_(N, p)) (A : 'M[K]_p) :=
  A \in unitmx /\ exists (s : 'S_N) (c : 'I_N -> K), (forall i, c i != 0) /\ forall i, A *m samp X i = c i *: samp X (s i).
(* the set of samples does not change when the sign of a coordinate changes *)
Definition sign_symmetric N p (X : 'M[K]_(N, p)) :=
  forall j, exists s : 'S_N, forall i k, X (s i) k = (-1) ^+ (k == j) * X i k.
(* ... when two coordinates are exchanged *)
Definition exchangeable N p (X : 'M[K]_(N, p)) :=
  forall j l, exists s : 'S_N, forall i k, X (s i) k = X i (tperm j l k).
End Spec.

Section Gen.
Variable K : starField.

Lemma symm_rows N p (X : 'M[K]_(N, p)) A (s : 'S_N) : (forall i, A *m samp X i = samp X (s i)) -> X *m A^T = row_perm s X.
Proof.
move=> h; apply/matrixP => i j; have := h i; rewrite -samp_mulmx -samp_row_perm => /matrixP/(_ j 0).
by rewrite !mxE.
Qed.
Lemma cstep_symm eigh w N p (X : 'M[K]_(N, p)) A S : eigh_ok eigh -> symmetry X A -> pd S ->
  A *m S *m A^H = S -> A *m cstep eigh w X S *m A^H = cstep eigh w X S.
Proof.
move=> ok [uA [s h]] pS e; have := cstep_congr w X ok uA pS; rewrite e (symm_rows h) => <-; exact: cstep_perm.
Qed.
Lemma wsum_symm (c : R) N p (X : 'M[K]_(N, p)) A : symmetry X A -> A *m wsum (fun=> c) X *m A^H = wsum (fun=> c) X.
Proof.
move=> [uA [s h]]; rewrite -wsum_congr (symm_rows h); exact: (@wsum_perm _ _ _ (fun=> c) X s).
Qed.
Lemma post_symm p a (S A : 'M[K]_p.+1) : A *m S *m A^H = S -> A *m algo_post a S *m A^H = algo_post a S.
Proof. by case: a => //= nrm e; rewrite /normalised -scalemxAr -scalemxAl e. Qed.
End Gen.

(* ------------------------------------------------------------------ C115 *)
Theorem C115_symmetries ppf cdf N p a tol m :
  (forall eigh (X : 'M[real_sf]_(N, p.+1)) A init s d k, real_valid ppf cdf p a -> eigh_ok eigh -> \rank X = p.+1 -> (forall i, row i X != 0) ->
     symmetry X A -> (forall s0, init = Some s0 -> pd s0 /\ A *m s0 *m A^H = s0) ->
     real_fixed_point eigh ppf cdf a X init tol m = Some (Ok (s, d, k)) -> A *m s *m A^H = s) /\
  (forall eigh (X : 'M[complex_sf]_(N, p.+1)) A init s d k, complex_valid ppf cdf p a -> eigh_ok eigh -> \rank X = p.+1 -> (forall i, row i X != 0) ->
     symmetry X A -> (forall s0, init = Some s0 -> pd s0 /\ A *m s0 *m A^H = s0) ->
     complex_fixed_point eigh ppf cdf a X init tol m = Some (Ok (s, d, k)) -> A *m s *m A^H = s).
Proof.
split=> eigh X A init s d k va ok rX X0 sA hi h.
  have [s' [d' [k' [e [u _ _ _ _]]]]] := (C29_estimators_follow_contract ppf cdf N p a tol m).1 eigh X init va.
  move: h; rewrite e => -[<- _ _]; apply: post_symm.
  suff: pd s' /\ A *m s' *m A^H = s' by case.
  apply: (@updates_inv _ (real_step eigh ppf cdf a X) (fun s => pd s /\ A *m s *m A^H = s) k' _ s' _ _ u).
    by case: init hi {e u} => [s0 /(_ _ erefl)|_] //=; rewrite real_init_none; split; [exact: init_pd|exact: wsum_symm].
  move=> s1 s2 [ps es] e2; split; first by apply: ((C30_iterates_pd ppf cdf N p a).1 eigh X s1 1%N s2 va ok rX X0 ps); rewrite /= e2.
  by move: e2; rewrite real_stepE // => -[<-]; apply: cstep_symm.
have [s' [d' [k' [e [u _ _ _ _]]]]] := (C29_estimators_follow_contract ppf cdf N p a tol m).2 eigh X init va.
move: h; rewrite e => -[<- _ _]; apply: post_symm.
suff: pd s' /\ A *m s' *m A^H = s' by case.
apply: (@updates_inv _ (complex_step eigh ppf cdf a X) (fun s => pd s /\ A *m s *m A^H = s) k' _ s' _ _ u).
  by case: init hi {e u} => [s0 /(_ _ erefl)|_] //; rewrite /complex_init complex_init_none; split; [exact: init_pd|exact: wsum_symm].
move=> s1 s2 [ps es] e2; split; first by apply: ((C30_iterates_pd ppf cdf N p a).2 eigh X s1 1%N s2 va ok rX X0 ps); rewrite /= e2.
by move: e2; rewrite complex_stepE // => -[<-]; apply: cstep_symm.
Qed.
(* the estimates of Tyler only see the directions of the samples, hence have the symmetries of the directions *)
Section Gen2.
Variable K : starField.
Lemma ctyler_symm eigh (b : R) N p (X : 'M[K]_(N, p)) A S : eigh_ok eigh -> direction_symmetry X A -> pd S ->
  A *m S *m A^H = S -> A *m cstep eigh (fun q => b / q) X S *m A^H = cstep eigh (fun q => b / q) X S.
Proof.
move=> ok [uA [s [c [c0 h]]]] pS e; have := cstep_congr (fun q => b / q) X ok uA pS; rewrite e => <-.
have -> : X *m A^T = scale_samples c (row_perm s X).
  apply/matrixP => i j; have := h i; rewrite -samp_mulmx => /matrixP/(_ j 0); by rewrite !mxE.
by rewrite cstep_tyler_scale // cstep_perm.
Qed.
End Gen2.
Theorem C115_tyler_directions N p nrm tol m :
  (forall eigh (X : 'M[real_sf]_(N, p.+1)) A s0 s d k, eigh_ok eigh -> \rank X = p.+1 -> (forall i, row i X != 0) ->
     direction_symmetry X A -> pd s0 -> A *m s0 *m A^H = s0 ->
     tyler_shape_matrix_fixedpoint eigh X (Some s0) tol m nrm = Some (Ok (s, d, k)) -> A *m s *m A^H = s) /\
  (forall eigh (X : 'M[complex_sf]_(N, p.+1)) A s0 s d k, eigh_ok eigh -> \rank X = p.+1 -> (forall i, row i X != 0) ->
     direction_symmetry X A -> pd s0 -> A *m s0 *m A^H = s0 ->
     complex_tyler_shape_matrix_fixedpoint eigh X (Some s0) tol m nrm = Some (Ok (s, d, k)) -> A *m s *m A^H = s).
Proof.
pose ppf := fun _ _ : R => 0 : R; pose al := TylerFP nrm.
split=> eigh X A s0 s d k ok rX X0 sA p0 e0.
  have va : real_valid ppf ppf p al by [].
  have [s' [d' [k' [e [u _ _ _ _]]]]] := (C29_estimators_follow_contract ppf ppf N p al tol m).1 eigh X (Some s0) va.
  rewrite -[tyler_shape_matrix_fixedpoint _ _ _ _ _ _]/(real_fixed_point eigh ppf ppf al X (Some s0) tol m) e => -[<- _ _]; apply: (@post_symm _ _ al).
  suff: pd s' /\ A *m s' *m A^H = s' by case.
  apply: (@updates_inv _ (real_step eigh ppf ppf al X) (fun s => pd s /\ A *m s *m A^H = s) k' _ s' _ _ u) => //.
  move=> s1 s2 [ps es] e2; split; first by apply: ((C30_iterates_pd ppf ppf N p al).1 eigh X s1 1%N s2 va ok rX X0 ps); rewrite /= -[tyler_step _ _ _]/(tyler_step eigh X s1); case: e2 => ->.
  by move: e2; rewrite real_stepE // => -[<-]; apply: ctyler_symm.
have va : complex_valid ppf ppf p al by [].
have [s' [d' [k' [e [u _ _ _ _]]]]] := (C29_estimators_follow_contract ppf ppf N p al tol m).2 eigh X (Some s0) va.
rewrite -[complex_tyler_shape_matrix_fixedpoint _ _ _ _ _ _]/(complex_fixed_point eigh ppf ppf al X (Some s0) tol m) e => -[<- _ _]; apply: (@post_symm _ _ al).
suff: pd s' /\ A *m s' *m A^H = s' by case.
apply: (@updates_inv _ (complex_step eigh ppf ppf al X) (fun s => pd s /\ A *m s *m A^H = s) k' _ s' _ _ u) => //.
move=> s1 s2 [ps es] e2; split; first by apply: ((C30_iterates_pd ppf ppf N p al).2 eigh X s1 1%N s2 va ok rX X0 ps); case: e2 => /= ->.
by move: e2; rewrite complex_stepE // => -[<-]; apply: ctyler_symm.
Qed.

(* ---------- signs and exchanges of coordinates ---------- *)
Section Coordinates.
Variable K : starField.
Definition flip p (j : 'I_p) : 'M[K]_p := diag_mx (\row_k (-1) ^+ (k == j)).
Lemma flipE p (j k : 'I_p) : (\row_l (-1) ^+ (l == j) : 'rV[K]_p) 0 k = (-1) ^+ (k == j).
Proof. by rewrite mxE. Qed.
Lemma flip_unit p (j : 'I_p) : flip j \in unitmx.
Proof.
suff e : flip j *m flip j = 1%:M by case: (mulmx1_unit e).
rewrite /flip mulmx_diag; apply/matrixP => a b; rewrite !mxE -expr2 sqrr_sign; by [].
Qed.
Lemma flip_congr p (j : 'I_p) (S : 'M[K]_p) a b : (flip j *m S *m (flip j)^H) a b = (-1) ^+ (a == j) * S a b * (-1) ^+ (b == j).
Proof.
have -> : (flip j)^H = flip j.
  apply/matrixP => x y; rewrite adjE !mxE; have [->|ne] := eqVneq y x; first by rewrite !mulr1n rmorphX rmorphN rmorph1.
  by rewrite !mulr0n rmorph0.
by rewrite mul_mx_diag mxE mul_diag_mx !mxE.
Qed.
Lemma flip_symmetry N p (X : 'M[K]_(N, p)) j : sign_symmetric X -> symmetry X (flip j).
Proof.
move=> /(_ j)[s h]; split; first exact: flip_unit.
exists s => i; apply/matrixP => k l; rewrite mul_diag_mx !mxE h; by [].
Qed.
Lemma flips_diag p (S : 'M[K]_p) : (forall j, flip j *m S *m (flip j)^H = S) -> forall a b, a != b -> S a b = 0.
Proof.
move=> h a b ne; have := congr1 (fun M : 'M_p => M a b) (h a); rewrite flip_congr eqxx expr1 eq_sym (negbTE ne) mulr1 mulN1r.
move=> e; apply/eqP; rewrite -[_ == 0](mulrn_eq0 (S a b) 2) mulr2n -{1}e addNr; by [].
Qed.
Lemma exch_unit p (j l : 'I_p) : tperm_mx j l \in unitmx (R := K).
Proof. exact: unitmx_perm. Qed.
Lemma exch_symmetry N p (X : 'M[K]_(N, p)) j l : exchangeable X -> symmetry X (tperm_mx j l).
Proof.
move=> /(_ j l)[s h]; split; first exact: unitmx_perm.
exists s => i; apply/matrixP => k z; rewrite -row_permE !mxE h; by [].
Qed.
Lemma exch_congr p (j l : 'I_p) (S : 'M[K]_p) a b : (tperm_mx j l *m S *m (tperm_mx j l)^H) a b = S (tperm j l a) (tperm j l b).
Proof.
have -> : (tperm_mx j l : 'M[K]_p)^H = tperm_mx j l.
  apply/matrixP => x y; rewrite adjE !mxE rmorph_nat; congr (_%:R).
  by rewrite -(inj_eq (@perm_inj _ (tperm j l))) tpermK eq_sym.
by rewrite {2}/tperm_mx -[X in _ *m perm_mx X]tpermV -col_permE -row_permE !mxE.
Qed.
Lemma scalar_of p (S : 'M[K]_p.+1) : (forall j, flip j *m S *m (flip j)^H = S) ->
  (forall j l, tperm_mx j l *m S *m (tperm_mx j l)^H = S) -> S = (S 0 0)%:M.
Proof.
move=> hf he; apply/matrixP => a b; rewrite mxE; have [<-|ne] := eqVneq a b; last by rewrite mulr0n; apply: flips_diag.
by rewrite mulr1n -{1}(he 0 a) exch_congr tpermR.
Qed.
End Coordinates.

Section Shape.
Variable K : starField.
Variables (N p : nat) (Z : 'M[K]_(N, p.+1)) (A : 'M[K]_p.+1).
Hypotheses (sZ : sign_symmetric Z) (eZ : exchangeable Z) (uA : A \in unitmx).
Definition moved_sym (U : 'M[K]_p.+1) := A *m U *m invmx A.
Lemma moved_symmetry U : symmetry Z U -> symmetry (Z *m A^T) (moved_sym U).
Proof.
move=> [uU [s h]]; split; first by rewrite /moved_sym !unitmx_mul uA uU unitmx_inv uA.
exists s => i; by rewrite !samp_mulmx /moved_sym -!mulmxA mulKmx // h.
Qed.
Lemma moved_fix U S : moved_sym U *m S *m (moved_sym U)^H = S ->
  U *m (invmx A *m S *m (invmx A)^H) *m U^H = invmx A *m S *m (invmx A)^H.
Proof.
move=> e; have e2 : A^H *m (invmx A)^H = 1%:M by rewrite -adjM mulVmx // adj1.
by rewrite -[in RHS]e /moved_sym !adjM !mulmxA mulVmx // mul1mx -!mulmxA e2 mulmx1.
Qed.
Lemma shape_of S : pd S -> (forall U, symmetry (Z *m A^T) U -> U *m S *m U^H = S) ->
  exists2 c : R, 0 < c & S = @ofR K c *: (A *m A^H).
Proof.
move=> pS h; set T := invmx A *m S *m (invmx A)^H.
have e : T = (T 0 0)%:M.
  apply: scalar_of => [j|j l]; apply/moved_fix/h/moved_symmetry; [exact: flip_symmetry|exact: exch_symmetry].
have pT : pd T by apply: pd_congr => //; rewrite unitmx_inv.
have t0 : 0 < T 0 0 by apply: pd_diag_gt0.
exists (@toR K (T 0 0)); first by rewrite toR_gt0.
rewrite toR_ofR_gt0 //; have <- : A *m T *m A^H = S.
  by rewrite /T !mulmxA mulmxV // mul1mx -mulmxA -adjM mulmxV // adj1 mulmx1.
by rewrite {1}e -scalemx1 -scalemxAr mulmx1 -scalemxAl.
Qed.
Lemma rank_moved : \rank Z = p.+1 -> \rank (Z *m A^T) = p.+1.
Proof. by move=> r; rewrite mxrankMfree // row_free_unit unitmx_tr. Qed.
Lemma rows_moved : (forall i, row i Z != 0) -> forall i, row i (Z *m A^T) != 0.
Proof.
move=> Z0 i; rewrite row_mul; apply: contraNneq (Z0 i) => e.
by rewrite -[row i Z](mulmxK (_ : A^T \in unitmx)) ?unitmx_tr // e mul0mx.
Qed.
(* all the linear symmetries of the samples leave A A^H fixed *)
Lemma shape_fixed U : \rank Z = p.+1 -> symmetry (Z *m A^T) U -> U *m (A *m A^H) *m U^H = A *m A^H.
Proof.
move=> rZ sU; have pW := init_pd (rank_moved rZ).
have [c c0 e] := shape_of pW (fun U h => wsum_symm N%:R^-1 h).
have := wsum_symm N%:R^-1 sU; rewrite e -scalemxAr -scalemxAl => /(scalerI (_ : @ofR K c != 0)); apply.
by rewrite gt_eqF // ofR_gt0.
Qed.
Lemma shape_pd : pd (A *m A^H).
Proof. by rewrite -[A in A *m _]mulmx1; apply: pd_congr (@pd1 K _). Qed.
End Shape.

(* the results are diagonal when the set of samples does not change with the signs of the coordinates *)
Theorem C115_diagonal ppf cdf N p a tol m :
  (forall eigh (X : 'M[real_sf]_(N, p.+1)) init s d k, real_valid ppf cdf p a -> eigh_ok eigh -> \rank X = p.+1 -> (forall i, row i X != 0) ->
     sign_symmetric X -> (forall s0, init = Some s0 -> pd s0 /\ forall i j, i != j -> s0 i j = 0) ->
     real_fixed_point eigh ppf cdf a X init tol m = Some (Ok (s, d, k)) -> forall i j, i != j -> s i j = 0) /\
  (forall eigh (X : 'M[complex_sf]_(N, p.+1)) init s d k, complex_valid ppf cdf p a -> eigh_ok eigh -> \rank X = p.+1 -> (forall i, row i X != 0) ->
     sign_symmetric X -> (forall s0, init = Some s0 -> pd s0 /\ forall i j, i != j -> s0 i j = 0) ->
     complex_fixed_point eigh ppf cdf a X init tol m = Some (Ok (s, d, k)) -> forall i j, i != j -> s i j = 0).
Proof.
have D (K : starField) (s0 : 'M[K]_p.+1) : (forall i j, i != j -> s0 i j = 0) -> forall j, flip K j *m s0 *m (flip K j)^H = s0.
  move=> h j; apply/matrixP => x y; rewrite flip_congr; have [->|ne] := eqVneq x y; last by rewrite h // mulr0 mul0r.
  by rewrite mulrAC -expr2 sqrr_sign mul1r.
split=> eigh X init s d k va ok rX X0 sX hi h; apply: flips_diag => j.
  apply: ((C115_symmetries ppf cdf N p a tol m).1 eigh X _ init s d k va ok rX X0 (flip_symmetry j sX) _ h) => s0 /hi[p0 h0].
  by split=> //; apply: D.
apply: ((C115_symmetries ppf cdf N p a tol m).2 eigh X _ init s d k va ok rX X0 (flip_symmetry j sX) _ h) => s0 /hi[p0 h0].
by split=> //; apply: D.
Qed.
(* Samples A z with a set of z unchanged by signs and exchanges of coordinates: whatever the tolerance and the bound on the
   iterations, the result is a multiple of A A^H. *)
Theorem C115_shape ppf cdf N p a tol m :
  (forall eigh (Z : 'M[real_sf]_(N, p.+1)) A init s d k, real_valid ppf cdf p a -> eigh_ok eigh -> \rank Z = p.+1 -> (forall i, row i Z != 0) ->
     sign_symmetric Z -> exchangeable Z -> A \in unitmx -> (forall s0, init = Some s0 -> proportional (A *m A^H) s0) ->
     real_fixed_point eigh ppf cdf a (Z *m A^T) init tol m = Some (Ok (s, d, k)) -> proportional (A *m A^H) s) /\
  (forall eigh (Z : 'M[complex_sf]_(N, p.+1)) A init s d k, complex_valid ppf cdf p a -> eigh_ok eigh -> \rank Z = p.+1 -> (forall i, row i Z != 0) ->
     sign_symmetric Z -> exchangeable Z -> A \in unitmx -> (forall s0, init = Some s0 -> proportional (A *m A^H) s0) ->
     complex_fixed_point eigh ppf cdf a (Z *m A^T) init tol m = Some (Ok (s, d, k)) -> proportional (A *m A^H) s).
Proof.
have G (K : starField) (Z : 'M[K]_(N, p.+1)) A init : \rank Z = p.+1 -> sign_symmetric Z -> exchangeable Z -> A \in unitmx ->
    (forall s0, init = Some s0 -> proportional (A *m A^H) s0) -> forall U, symmetry (Z *m A^T) U ->
    forall s0, init = Some s0 -> pd s0 /\ U *m s0 *m U^H = s0.
  move=> rZ sZ eZ uA hi U sU s0 /hi[c c0 ->]; split; first by apply: pdZ (shape_pd uA); rewrite ofR_gt0.
  by rewrite -scalemxAr -scalemxAl (shape_fixed sZ eZ uA rZ sU).
split=> eigh Z A init s d k va ok rZ Z0 sZ eZ uA hi h; have rX := rank_moved uA rZ; have X0 := rows_moved uA Z0; have H := G _ Z A init rZ sZ eZ uA hi.
  apply: (shape_of sZ eZ uA) => [|U sU].
    apply: ((C30_returned_pd ppf cdf N p a tol m).1 eigh _ init s d k va ok rX X0 _ h) => s0 e.
    by case: (H 1%:M _ s0 e) => //; split; [exact: unitmx1|exists 1%g => i; rewrite mul1mx perm1].
  exact: ((C115_symmetries ppf cdf N p a tol m).1 eigh _ U init s d k va ok rX X0 sU (H U sU) h).
apply: (shape_of sZ eZ uA) => [|U sU].
  apply: ((C30_returned_pd ppf cdf N p a tol m).2 eigh _ init s d k va ok rX X0 _ h) => s0 e.
  by case: (H 1%:M _ s0 e) => //; split; [exact: unitmx1|exists 1%g => i; rewrite mul1mx perm1].
exact: ((C115_symmetries ppf cdf N p a tol m).2 eigh _ U init s d k va ok rX X0 sU (H U sU) h).
Qed.

Section Solutions.
Variable K : starField.
Variables (N p : nat) (Z : 'M[K]_(N, p.+1)) (A : 'M[K]_p.+1).
Hypotheses (sZ : sign_symmetric Z) (eZ : exchangeable Z) (uA : A \in unitmx) (rZ : \rank Z = p.+1) (Z0 : forall i, row i Z != 0).
Lemma mstep_symm w q (X : 'M[K]_(N, q)) U S : symmetry X U -> pd S -> U *m S *m U^H = S -> U *m mstep w X S *m U^H = mstep w X S.
Proof.
move=> [uU [s h]] pS e; have := mstep_congr w X uU (pd_unit pS); rewrite e (symm_rows h) => <-; exact: mstep_perm.
Qed.
Lemma mstep_move w (U S : 'M[K]_p.+1) (X : 'M[K]_(N, p.+1)) : symmetry X U -> S \in unitmx -> mstep w X S = S -> mstep w X (U *m S *m U^H) = U *m S *m U^H.
Proof.
move=> [uU [s h]] uS e; rewrite -{2}e -(mstep_congr w X uU uS) (symm_rows h); by rewrite mstep_perm.
Qed.
Lemma shape_tyler : tyler_solution (Z *m A^T) (A *m A^H).
Proof.
have pA := shape_pd uA; split=> //.
pose w (q : R) := p.+1%:R / N%:R / q.
rewrite -[wsum _ _]/(mstep w (Z *m A^T) (A *m A^H)).
have X0 := rows_moved uA Z0; have rX := rank_moved uA rZ; have N0 : (0 < N)%N := rank_N rX.
have pW : pd (mstep w (Z *m A^T) (A *m A^H)).
  apply: wsum_pd (spanning_rank rX) => i; rewrite /w !divr_gt0 ?ltr0n //; apply: maha_gt0 => //.
  by apply: contraNneq (X0 i) => /(congr1 trmx); rewrite trmxK trmx0 => ->.
have [c c0 e] := shape_of sZ eZ uA pW (fun U h => mstep_symm w h pA (shape_fixed sZ eZ uA rZ h)).
rewrite e; suff -> : c = 1 by rewrite rmorph1 scale1r.
have := congr1 (fun M => \tr (invmx (A *m A^H) *m M)) e.
rewrite -scalemxAr mulVmx ?pd_unit // mxtraceZ mxtrace1 /mstep /wsum mulmx_sumr raddf_sum /=.
rewrite (eq_bigr (fun=> @ofR K (p.+1%:R / N%:R))) => [|i _]; last first.
  rewrite -scalemxAr mxtraceZ tr_mul_outer -ofR_maha // -rmorphM /w divfK // maha_eq0 //.
  by apply: contraNneq (X0 i) => /(congr1 trmx); rewrite trmxK trmx0 => ->.
rewrite sumr_const card_ord -rmorphMn -[p.+1%:R in RHS](rmorph_nat (@Star.ofR K)) -rmorphM => /(@ofR_inj K).
rewrite -mulr_natr divfK ?pnatr_eq0 -?lt0n // => /eqP; rewrite -subr_eq0 -{1}[p.+1%:R]mul1r -mulrBl mulf_eq0 pnatr_eq0 orbF subr_eq0 => /eqP; by [].
Qed.
Lemma shape_student a S : 0 < a -> student_solution a (Z *m A^T) S -> proportional (A *m A^H) S.
Proof.
move=> a0 [pS eS]; have X0 := rows_moved uA Z0; have N0 : (0 < N)%N := rank_N (rank_moved uA rZ).
apply: (shape_of sZ eZ uA pS) => U sU; apply: (stu_unique N0 X0 a0 _ (conj pS eS)).
split; first by apply: pd_congr pS; case: sU.
exact: esym (@mstep_move (fun q => (a + p.+1%:R) / N%:R / (a + q)) U S _ sU (pd_unit pS) (esym eS)).
Qed.
Lemma shape_huber lb b S : 0 < lb -> 0 < b -> pd S -> estimating_eq (code_weight lb b) (Z *m A^T) S -> proportional (A *m A^H) S.
Proof.
move=> l0 b0 pS /estimating_hub eS; have X0 := rows_moved uA Z0; have N0 : (0 < N)%N := rank_N (rank_moved uA rZ).
apply: (shape_of sZ eZ uA pS) => U sU; apply: (hub_unique l0 b0 N0 X0 _ pS _ eS); first by apply: pd_congr pS; case: sU.
exact: mstep_move (pd_unit pS) eS.
Qed.
End Solutions.

(* ... and so are the solutions of the estimating equations, hence the limits of the iterations from any start *)
Theorem C115_solutions (K : starField) N p (Z : 'M[K]_(N, p.+1)) (A : 'M[K]_p.+1) : \rank Z = p.+1 -> (forall i, row i Z != 0) ->
  sign_symmetric Z -> exchangeable Z -> A \in unitmx ->
  [/\ tyler_solution (Z *m A^T) (A *m A^H),
      forall a S, 0 < a -> student_solution a (Z *m A^T) S -> proportional (A *m A^H) S &
      forall lb b S, 0 < lb -> 0 < b -> pd S -> estimating_eq (code_weight lb b) (Z *m A^T) S -> proportional (A *m A^H) S].
Proof.
move=> rZ Z0 sZ eZ uA; split; first exact: shape_tyler.
  by move=> a S a0; apply: shape_student.
by move=> lb b S l0 b0; apply: shape_huber.
Qed.
Theorem C115_any_start N p nrm (e : R) : scaling_norm nrm -> 0 < e ->
  (forall eigh (Z : 'M[real_sf]_(N, p.+1)) A init, eigh_ok eigh -> \rank Z = p.+1 -> (forall i, row i Z != 0) -> irreducible Z ->
     sign_symmetric Z -> exchangeable Z -> A \in unitmx -> (forall s0, init = Some s0 -> pd s0) ->
     exists2 t : R, 0 < t & forall tol : R, 0 < tol <= t -> exists n, forall m s d k, (n <= m)%N ->
       tyler_shape_matrix_fixedpoint eigh (Z *m A^T) init (Fin tol) m nrm = Some (Ok (s, d, k)) ->
       fro (s - normalised nrm (A *m A^H)) <= e * fro (normalised nrm (A *m A^H))) /\
  (forall eigh (Z : 'M[complex_sf]_(N, p.+1)) A init, eigh_ok eigh -> \rank Z = p.+1 -> (forall i, row i Z != 0) -> irreducible Z ->
     sign_symmetric Z -> exchangeable Z -> A \in unitmx -> (forall s0, init = Some s0 -> pd s0) ->
     exists2 t : R, 0 < t & forall tol : R, 0 < tol <= t -> exists n, forall m s d k, (n <= m)%N ->
       complex_tyler_shape_matrix_fixedpoint eigh (Z *m A^T) init (Fin tol) m nrm = Some (Ok (s, d, k)) ->
       fro (s - normalised nrm (A *m A^H)) <= e * fro (normalised nrm (A *m A^H))).
Proof.
have I (K : starField) (Z : 'M[K]_(N, p.+1)) A : irreducible Z -> A \in unitmx -> irreducible (Z *m A^T).
  move=> irr uA P idP h.
  have [||e0|e1] := irr (invmx A *m P *m A).
  - by rewrite -!mulmxA mulKVmx // [P *m (P *m _)]mulmxA idP.
  - move=> i; case: (h i) => hi; [left|right]; move: hi; rewrite samp_mulmx -!mulmxA => ->; by rewrite ?mulmx0 ?mulKmx.
  - by left; rewrite -[P]mul1mx -(mulmxV uA) -[_ *m P]mulmx1 -(mulmxV uA) -!mulmxA [invmx A *m (P *m _)]mulmxA [_ *m P *m _]mulmxA e0 mul0mx mulmx0.
  by right; rewrite -[P]mul1mx -(mulmxV uA) -[_ *m P]mulmx1 -(mulmxV uA) -!mulmxA [invmx A *m (P *m _)]mulmxA [_ *m P *m _]mulmxA e1 mul1mx mulmxV.
move=> hn e0; split=> eigh Z A init ok rZ Z0 irr sZ eZ uA pi.
  exact: ((C84_tyler_accuracy N p hn e0).1 eigh _ _ init ok (rows_moved uA Z0) (I _ _ _ irr uA) (shape_tyler sZ eZ uA rZ Z0) pi).
exact: ((C84_tyler_accuracy N p hn e0).2 eigh _ _ init ok (rows_moved uA Z0) (I _ _ _ irr uA) (shape_tyler sZ eZ uA rZ Z0) pi).
Qed.

(* ------------------------------------------------------------------ examples *)
(* the eight neighbours of the origin of the plane *)
Definition neighbours : 8.-tuple (int * int) :=
  [tuple (1, 0); (-1, 0); (0, 1); (0, -1); (1, 1); (1, -1); (-1, 1); (-1, -1)].
Definition ex_Z (K : starField) : 'M[K]_(8, 2) :=
  \matrix_(i, j) (if j == 0 :> 'I_2 then (tnth neighbours i).1%:~R else (tnth neighbours i).2%:~R).
Lemma neighbours_perm (f : int * int -> int * int) : perm_eq (map f neighbours) neighbours ->
  exists s : 'S_8, forall i, tnth neighbours (s i) = f (tnth neighbours i).
Proof.
move=> /tuple_permP[s e]; exists s => i.
have e' : map_tuple f neighbours = [tuple tnth neighbours (s i) | i < 8] by apply: val_inj.
by have := congr1 (fun t => tnth t i) e'; rewrite tnth_map tnth_mktuple.
Qed.
Example C115_hypotheses (K : starField) : [/\ \rank (ex_Z K) = 2%N, forall i, row i (ex_Z K) != 0, sign_symmetric (ex_Z K), exchangeable (ex_Z K) & irreducible (ex_Z K)].
Proof.
have S0 : samp (ex_Z K) 0 = delta_mx 0 0.
  by apply/matrixP => j k; rewrite !mxE (tnth_nth (0, 0)) /= ord1 eqxx andbT; case: eqP.
have S2 : samp (ex_Z K) (inord 2) = delta_mx 1 0.
  apply/matrixP => j k; rewrite !mxE (tnth_nth (0, 0)) inordK //= ord1 eqxx andbT; by case: j => [[|[|]]].
have S4 : samp (ex_Z K) (inord 4) = delta_mx 0 0 + delta_mx 1 0.
  by apply/matrixP => j k; rewrite !mxE (tnth_nth (0, 0)) inordK //= ord1 eqxx !andbT; case: j => [[|[|]]] //=; rewrite ?addr0 ?add0r.
have ne (i : 'I_8) : ((tnth neighbours i).1 != 0) || ((tnth neighbours i).2 != 0).
  have : all (fun q : int * int => (q.1 != 0) || (q.2 != 0)) neighbours by [].
  by move/all_tnthP; apply.
split.
- apply/eqP; rewrite -[_ == _]/(row_full (ex_Z K)) -sub1mx; apply/row_subP => i.
  have -> : row i 1%:M = (samp (ex_Z K) (if i == 0 then 0 else inord 2))^T.
    by case: eqP => [->|/eqP ni]; rewrite ?S0 ?S2; apply/rowP => j; rewrite !mxE ?eqxx ?andbT 1?eq_sym //; case: i ni j => [[|[|]]] // ? ? [[|[|]]].
  by rewrite trmxK; exact: row_sub.
- move=> i; apply/eqP => /rowP h; have := ne i; have := h 0; have := h 1; rewrite !mxE /= => /eqP; rewrite intr_eq0 => /eqP -> /eqP.
  by rewrite intr_eq0 => /eqP ->.
- move=> j; have /neighbours_perm[s hs] : perm_eq (map (fun q : int * int => ((-1) ^+ (0 == j) * q.1, (-1) ^+ (1 == j) * q.2)) neighbours) neighbours.
    by case: j => [[|[|]]].
  exists s => i k; rewrite !mxE hs; case: eqP => [->|/eqP nk] /=; rewrite rmorphM rmorphX rmorphN rmorph1 //.
  by have -> : k = 1 by case: k nk => [[|[|]]] // ? _; apply: val_inj.
- move=> j l; have /neighbours_perm[s hs] : perm_eq (map (fun q : int * int => if j == l then q else (q.2, q.1)) neighbours) neighbours.
    by case: (j == l).
  exists s => i k; rewrite !mxE hs; case: (eqVneq j l) => [->|jl]; first by rewrite tperm1 perm1.
  by case: tpermP => [->|->|/eqP + /eqP]; [| |move: k]; case: j l jl {hs} => [[|[|]]] // ? [[|[|]]] // ? _ [[|[|]]].
move=> P idP h; have := h (inord 4); have := h (inord 2); have := h 0; rewrite S0 S2 S4 mulmxDr -!colE => h0 h1 h4.
have D (u v : 'cV[K]_2) : u = v -> u 0 0 = v 0 0 /\ u 1 0 = v 1 0 by move=> ->.
have cols (Q : 'M[K]_2) : col 0 P = col 0 Q -> col 1 P = col 1 Q -> P = Q.
  move=> e0 e1; apply/matrixP => i j; have : col j P = col j Q.
    by have [->|->] : j = 0 \/ j = 1 by case: j => [[|[|]]] // ?; [left|right]; apply: val_inj.
  by move/matrixP/(_ i 0); rewrite !mxE.
have c1 j : col j (1%:M : 'M[K]_2) = delta_mx j 0 by rewrite colE mul1mx.
have c0 j : col j (0 : 'M[K]_2) = 0 by rewrite colE mul0mx.
case: h0 => e0; case: h1 => e1.
- by left; apply: cols; rewrite c0.
- move: h4; rewrite e0 e1 add0r => -[]/D[]; rewrite !mxE /= ?addr0 ?add0r => x y; [by move/eqP: y; rewrite oner_eq0|by move/esym/eqP: x; rewrite oner_eq0].
- move: h4; rewrite e0 e1 addr0 => -[]/D[]; rewrite !mxE /= ?addr0 ?add0r => x y; [by move/eqP: x; rewrite oner_eq0|by move/esym/eqP: y; rewrite oner_eq0].
by right; apply: cols; rewrite c1.
Qed.

Print Assumptions C115_symmetries.
Print Assumptions C115_tyler_directions.
Print Assumptions C115_diagonal.
Print Assumptions C115_shape.
Print Assumptions C115_solutions.
Print Assumptions C115_any_start.
Print Assumptions C115_hypotheses.
