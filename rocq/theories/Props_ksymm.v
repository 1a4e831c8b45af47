(* The Kronecker structured estimates have the symmetries of the samples: C130. *)
From Coq Require Import Reals Lra Classical_Prop.
From mathcomp Require Import all_ssreflect all_algebra fingroup perm.
From mathcomp Require Import complex mxtens.
From Verif Require Import RealsMC RealTac RealTac2 Star StarInst FunCalc Model_featurearray Model_covariance Spec_covariance Spec_fixedpoint Proofs_mest Proofs_unique2 Proofs_linalg
  Compact Proofs_converge Props_converge Model_structured Proofs_structured Props_structured Spec_kron Proofs_kron6 Proofs_kron8 Proofs_kron9 Props_kron Props_kroninv Props_symm Proofs_estimators.
Set Implicit Arguments.
Unset Strict Implicit.
Unset Printing Implicit Defensive.
Local Open Scope ring_scope.
Import GRing.Theory Num.Theory Order.TTheory.
Local Notation "A ^H" := (adj A) (at level 8, format "A ^H").

(* ------------------------------------------------------------------ specification *)
(* multiplying the samples by G (x) H (the rows of the unstacked samples by H, their columns by G) gives the same samples, up
   to their order and to a number for each of them *)
Definition ksymmetry (K : starField) N a b (X : 'M[K]_(N, a * b)) (G : 'M[K]_a) (H : 'M[K]_b) :=
  exists (s : 'S_N) (c : 'I_N -> K), (forall i, c i != 0) /\ forall i, samp X i = c i *: ((G *t H) *m samp X (s i)).
(* the same for changes of the sign of one coordinate, and for exchanges of two coordinates, of the columns or of the rows *)
Definition ksigns (K : starField) N a b (X : 'M[K]_(N, a * b)) :=
  (forall j : 'I_a, ksymmetry X (flip K j) 1%:M) /\ (forall j : 'I_b, ksymmetry X 1%:M (flip K j)).
Definition kexchanges (K : starField) N a b (X : 'M[K]_(N, a * b)) :=
  (forall j l : 'I_a, ksymmetry X (tperm_mx j l) 1%:M) /\ (forall j l : 'I_b, ksymmetry X 1%:M (tperm_mx j l)).
(* the samples of Y are those of Z multiplied by P (x) Q, in any order and with any norms *)
Definition shaped (K : starField) N a b (Z Y : 'M[K]_(N, a * b)) (P : 'M[K]_a) (Q : 'M[K]_b) :=
  exists (s : 'S_N) (c : 'I_N -> K), (forall i, c i != 0) /\ forall i, samp Y i = c i *: ((P *t Q) *m samp Z (s i)).
(* the limit of the results on such samples, when those of Z have all these symmetries *)
Definition shape_found (K : starField) (ssqrtm : forall n, 'M[K]_n -> 'M[K]_n) := forall N a b (Z Y : 'M[K]_(N, a.+1 * b.+1)) P Q,
  (0 < N)%N -> nonzero_samples Z -> kron_stable Z -> ksigns Z -> kexchanges Z -> P \in unitmx -> Q \in unitmx -> shaped Z Y P Q ->
  exists L M, [/\ mm_limit ssqrtm Y L M, exists2 d : R, 0 < d & L = @ofR K d *: (P *m P^H)^T & exists2 d : R, 0 < d & M = @ofR K d *: (Q *m Q^H)].

Section Symm.
Variables (K : starField) (ssqrtm : forall n, 'M[K]_n -> 'M[K]_n).
Hypothesis ok : sqrtm_psd_ok ssqrtm.
Lemma flip_herm p (j : 'I_p) : (flip K j)^H = flip K j.
Proof.
apply/matrixP => x y; rewrite adjE !mxE; have [->|ne] := eqVneq y x; first by rewrite !mulr1n rmorphX rmorphN rmorph1.
by rewrite !mulr0n rmorph0.
Qed.
Lemma flip_unitary p (j : 'I_p) : unitary (flip K j).
Proof.
rewrite /unitary flip_herm /flip mulmx_diag; apply/matrixP => a b; rewrite !mxE -expr2 sqrr_sign; by [].
Qed.
Lemma exch_unitary p (j l : 'I_p) : unitary (tperm_mx j l : 'M[K]_p).
Proof.
have e : (tperm_mx j l : 'M[K]_p)^H = tperm_mx j l.
  apply/matrixP => u v; rewrite adjE !mxE rmorph_nat; congr (_%:R).
  by rewrite -(inj_eq (@perm_inj _ (tperm j l))) tpermK eq_sym.
by rewrite /unitary e /tperm_mx -perm_mxM tperm2 perm_mx1.
Qed.
(* ------------------------------------------------------------------ C130 *)
(* Every result, whatever the tolerance and the number of iterations, has the unitary symmetries of the samples *)
Theorem C130_symmetries N a b (X : 'M[K]_(N, a * b)) (G : 'M[K]_a) (H : 'M[K]_b) tol m A B t k : unitary G -> unitary H -> ksymmetry X G H ->
  estimation_cov_kronecker_MM ssqrtm a b X tol m = Ok (Some (A, B, t, k)) -> G *m A^T *m G^H = A^T /\ H *m B *m H^H = B.
Proof.
move=> oG oH [s [c [c0 mv]]] e; have := C114_rotations tol m ok c0 oG oH mv; rewrite e /= => -[eA eB]; split=> //.
by rewrite {2}eA trmxK.
Qed.
(* hence diagonal results when the samples do not change with the signs of the coordinates *)
Theorem C130_diagonal N a b (X : 'M[K]_(N, a * b)) tol m A B t k : ksigns X ->
  estimation_cov_kronecker_MM ssqrtm a b X tol m = Ok (Some (A, B, t, k)) -> (forall i j, i != j -> A i j = 0) /\ (forall i j, i != j -> B i j = 0).
Proof.
move=> [hA hB] e; split=> i j ij.
  have -> : A i j = A^T j i by rewrite mxE.
  apply: flips_diag; last by rewrite eq_sym.
  by move=> l; case: (C130_symmetries (flip_unitary l) (@unitary1 K b) (hA l) e).
apply: flips_diag ij => l; by case: (C130_symmetries (@unitary1 K a) (flip_unitary l) (hB l) e).
Qed.
(* and multiples of the identity when they do not change with the order of the coordinates either *)
Theorem C130_scalar N a b (X : 'M[K]_(N, a.+1 * b.+1)) tol m A B t k : ksigns X -> kexchanges X ->
  estimation_cov_kronecker_MM ssqrtm a.+1 b.+1 X tol m = Ok (Some (A, B, t, k)) -> A = (A 0 0)%:M /\ B = (B 0 0)%:M.
Proof.
move=> [hA hB] [xA xB] e; split.
  rewrite -[LHS]trmxK (scalar_of (S := A^T)) ?tr_scalar_mx ?mxE // => [l|l l'].
    by case: (C130_symmetries (flip_unitary l) (@unitary1 K _) (hA l) e).
  by case: (C130_symmetries (exch_unitary l l') (@unitary1 K _) (xA l l') e).
apply: scalar_of => [l|l l'].
  by case: (C130_symmetries (@unitary1 K _) (flip_unitary l) (hB l) e).
by case: (C130_symmetries (@unitary1 K _) (exch_unitary l l') (xB l l') e).
Qed.
Hypothesis cK : compactK K.
Lemma fixed_of n (G P P0 : 'M[K]_n) (d1 d2 : R) : (0 < n)%N -> unitary G -> pd P -> 0 < d1 -> P = @ofR K d1 *: P0 -> G *m P *m G^H = @ofR K d2 *: P0 ->
  G *m P *m G^H = P.
Proof.
case: n G P P0 => // n G P P0 _ oG pP d10 e1 e2.
have eP0 : P0 = @ofR K d1^-1 *: P by rewrite e1 scalerA -rmorphM /= mulVf ?gt_eqF // rmorph1 scale1r.
have E : G *m P *m G^H = @ofR K (d2 / d1) *: P by rewrite e2 eP0 scalerA -rmorphM.
have tP : \tr P != 0 by rewrite gt_eqF // pd_tr_gt0.
have := congr1 mxtrace E; rewrite mxtrace_mulC mulmxA oG mul1mx mxtraceZ -{1}[\tr P]mul1r => /(mulIf tP) e.
by rewrite E -e scale1r.
Qed.
Lemma pd_scalar n (P : 'M[K]_n.+1) : P = (P 0 0)%:M -> pd P -> exists2 x : R, 0 < x & P = @ofR K x *: 1%:M.
Proof.
move=> e pP; have p0 := pd_diag_gt0 0 pP; exists (@toR K (P 0 0)); first exact: toR_gt0.
by rewrite toR_ofR_gt0 // scalemx1 -e.
Qed.
Lemma same_shape n (G P Q P1 : 'M[K]_n) (d1 d2 x : R) : 0 < d1 -> 0 < d2 -> 0 < x -> P = @ofR K x *: 1%:M ->
  G *m P *m G^H = @ofR K d1 *: P1 -> Q = @ofR K d2 *: P1 -> exists2 d : R, 0 < d & Q = @ofR K d *: (G *m G^H).
Proof.
move=> d10 d20 x0 -> e1 e2; exists (d2 / d1 * x); first by rewrite mulr_gt0 // divr_gt0.
move: e1; rewrite -scalemxAr mulmx1 -scalemxAl => e1.
by rewrite rmorphM /= -scalerA e1 scalerA -rmorphM /= divfK ?gt_eqF.
Qed.
Lemma min_symm N a b (X : 'M[K]_(N, a * b)) P B (G : 'M[K]_a) (H : 'M[K]_b) : (0 < N)%N -> (0 < a)%N -> (0 < b)%N -> nonzero_samples X -> kron_stable X ->
  kron_minimiser X P B -> unitary G -> unitary H -> ksymmetry X G H -> G *m P *m G^H = P /\ H *m B *m H^H = B.
Proof.
move=> N0 a0 b0 nz st mi oG oH [s [c [c0 mv]]].
have /(stable_iff nz N0 a0 b0 cK) [P0 [B0 [_ un]]] := st.
have [pP pB _] := mi.
have [[d1 d10 e1] [f1 f10 g1]] := un _ _ mi.
have [[d2 d20 e2] [f2 f20 g2]] := un _ _ (min_moved nz c0 (unitary_unit oG) (unitary_unit oH) mv mi).
by split; [exact: (fixed_of a0 oG pP d10 e1 e2)|exact: (fixed_of b0 oH pB f10 g1 g2)].
Qed.
Lemma shape_gen : shape_found ssqrtm.
Proof.
move=> N a b Z Y P Q N0 nz st [hA hB] [xA xB] uP uQ [s [c [c0 mv]]].
have nzY := nz_moved nz c0 uP uQ mv; have stY := stable_moved nz c0 uP uQ mv cK N0 (ltn0Sn a) (ltn0Sn b) st.
have /(stable_iff nz N0 (ltn0Sn a) (ltn0Sn b) cK) [P0 [B0 [mi _]]] := st.
have [pP0 pB0 _] := mi.
have ms := min_symm N0 (ltn0Sn a) (ltn0Sn b) nz st mi.
have eP : P0 = (P0 0 0)%:M.
  apply: scalar_of => [l|l l'].
    by case: (ms _ _ (flip_unitary l) (@unitary1 K _) (hA l)).
  by case: (ms _ _ (exch_unitary l l') (@unitary1 K _) (xA l l')).
have eB : B0 = (B0 0 0)%:M.
  apply: scalar_of => [l|l l'].
    by case: (ms _ _ (@unitary1 K _) (flip_unitary l) (hB l)).
  by case: (ms _ _ (@unitary1 K _) (exch_unitary l l') (xB l l')).
have [L' [M' [pL' pM' mi' h']]] := mm_converges ok nzY N0 (ltn0Sn a) (ltn0Sn b) cK stY.
have /(stable_iff nzY N0 (ltn0Sn a) (ltn0Sn b) cK) [P1 [B1 [_ un]]] := stY.
have [[d1 d10 e1] [f1 f10 g1]] := un _ _ (min_moved nz c0 uP uQ mv mi).
have [[d2 d20 e2] [f2 f20 g2]] := un _ _ mi'.
have [x x0 ex] := pd_scalar eP pP0; have [y y0 ey] := pd_scalar eB pB0.
exists L', M'; split; first exact: h'.
- have [d d0 e] := same_shape d10 d20 x0 ex e1 e2; exists d => //.
  by rewrite -[LHS]trmxK e linearZ.
- exact: (same_shape f10 f20 y0 ey g1 g2).
Qed.
End Symm.

(* The shapes of the rows and of the columns are recovered, from samples which have all these symmetries after an unknown change
   of the coordinates of rows and columns *)
Theorem C130_shape : (forall ssqrtm, sqrtm_psd_ok ssqrtm -> @shape_found real_sf ssqrtm) /\ (forall ssqrtm, sqrtm_psd_ok ssqrtm -> @shape_found complex_sf ssqrtm).
Proof. by split=> ssqrtm ok; apply: shape_gen => //; [exact: real_compact|exact: complex_compact]. Qed.

(* ------------------------------------------------------------------ examples *)
(* four samples of dimension 4, the unstacked matrices are 1, diag(1, -1), [[0, 1], [-1, 0]] and [[0, 1], [1, 0]] *)
Definition kZs (K : starField) : seq (seq K) := [:: [:: 1; 0; 0; 1]; [:: 1; 0; 0; -1]; [:: 0; -1; 1; 0]; [:: 0; 1; 1; 0]].
Definition kZ (K : starField) : 'M[K]_(4, 2 * 2) := \matrix_(i, l) nth 0 (nth [::] (kZs K) i) l.
Section Example.
Variable K : starField.
Lemma kZ_unstack i r c : unstack (kZ K) i r c = nth 0 (nth [::] (kZs K) i) (2 * c + r).
Proof. by rewrite !mxE /=; congr (nth _ _ _); rewrite mulnC. Qed.
Lemma ksym_unstack N a b (X : 'M[K]_(N, a * b)) G H (s : 'S_N) (c : 'I_N -> K) : (forall i, c i != 0) ->
  (forall i, unstack X i = c i *: (H *m unstack X (s i) *m G^T)) -> ksymmetry X G H.
Proof.
move=> c0 h; exists s, c; split=> // i.
pose Y : 'M[K]_(N, a * b) := scale_samples c (row_perm s X *m (G *t H)^T).
have mv : moved s c (G *t H) X Y by exact: moved_ok.
have := unstack_moved mv i; rewrite adjK -h => e; rewrite -mv.
apply/colP => x; case: (mxtens_indexP x) => k r.
by have := congr1 (fun M : 'M[K]_(b, a) => M r k) e; rewrite !mxE.
Qed.
Definition sw (f : seq 'I_4) (i : 'I_4) : 'I_4 := nth i f i.
Definition m4 n (h : (n < 4)%N) : 'I_4 := Ordinal h.
Definition sw1 := [:: @m4 1 isT; @m4 0 isT; @m4 3 isT; @m4 2 isT].
Definition sw2 := [:: @m4 3 isT; @m4 2 isT; @m4 1 isT; @m4 0 isT].
Lemma sw1_inj : injective (sw sw1).
Proof. by move=> [[|[|[|[|//]]]] h] [[|[|[|[|//]]]] h'] //= /(congr1 val) //= _; apply: val_inj. Qed.
Lemma sw2_inj : injective (sw sw2).
Proof. by move=> [[|[|[|[|//]]]] h] [[|[|[|[|//]]]] h'] //= /(congr1 val) //= _; apply: val_inj. Qed.
Lemma sgn0 (e : bool) : (if e then -1 else 1 : K) != 0.
Proof. by case: e; rewrite ?oppr_eq0 oner_eq0. Qed.
Lemma val01 (x y : 'I_2) : (x == y) = (val x == val y). Proof. by []. Qed.
Lemma right_flip j (M : 'M[K]_2) r c : (M *m (flip K j)^T) r c = M r c * (-1) ^+ (c == j).
Proof. by rewrite /flip tr_diag_mx mul_mx_diag !mxE. Qed.
Lemma left_flip j (M : 'M[K]_2) r c : (flip K j *m M) r c = (-1) ^+ (r == j) * M r c.
Proof. by rewrite /flip mul_diag_mx !mxE. Qed.
Lemma right_exch j l (M : 'M[K]_2) r c : (M *m (tperm_mx j l)^T) r c = M r (tperm j l c).
Proof. by rewrite /tperm_mx tr_perm_mx tpermV -[X in perm_mx X]tpermV -col_permE mxE. Qed.
Lemma left_exch j l (M : 'M[K]_2) r c : (tperm_mx j l *m M) r c = M (tperm j l r) c.
Proof. by rewrite /tperm_mx -row_permE mxE. Qed.
Lemma kZ_signs : ksigns (kZ K).
Proof.
split=> j.
- apply: (@ksym_unstack _ _ _ _ _ _ (perm sw1_inj) (fun i => if (val j == 0%N) == (val i < 2)%N then -1 else 1)) => i; first exact: sgn0.
  rewrite mul1mx; apply/matrixP => r c; rewrite [RHS]mxE right_flip !kZ_unstack permE val01.
  by case: j i r c => -[|[|//]] hj [[|[|[|[|//]]]] hi] [[|[|//]] hr] [[|[|//]] hc]; rewrite /= ?(expr0, expr1, mulr0, mul0r, mulr1, mul1r, mulrN, mulNr, opprK, oppr0).
- apply: (@ksym_unstack _ _ _ _ _ _ (perm sw1_inj) (fun i => if val j == 0%N then -1 else 1)) => i; first exact: sgn0.
  rewrite trmx1 mulmx1; apply/matrixP => r c; rewrite [RHS]mxE left_flip !kZ_unstack permE val01.
  by case: j i r c => -[|[|//]] hj [[|[|[|[|//]]]] hi] [[|[|//]] hr] [[|[|//]] hc]; rewrite /= ?(expr0, expr1, mulr0, mul0r, mulr1, mul1r, mulrN, mulNr, opprK, oppr0).
Qed.
Lemma ksym1 N a b (X : 'M[K]_(N, a * b)) : ksymmetry X 1%:M 1%:M.
Proof.
apply: (@ksym_unstack _ _ _ _ _ _ 1%g (fun _ => 1)) => i; first exact: oner_neq0.
by rewrite trmx1 mulmx1 mul1mx scale1r perm1.
Qed.
Lemma tperm_o2 (j l k : 'I_2) : j != l -> tperm j l k = o2 k.
Proof.
move=> jl; case: tpermP => [->|->|/eqP n1 /eqP n2].
- by have [e|//] := o2P j l; rewrite e eqxx in jl.
- by have [e|//] := o2P l j; rewrite e eqxx in jl.
- by have [e|e] := o2P j l; [rewrite e eqxx in jl|have [e'|e'] := o2P j k; [rewrite e' eqxx in n1|rewrite e e' eqxx in n2]].
Qed.
Lemma o2_val (k : 'I_2) : val (o2 k) = (1 - k)%N.
Proof. by case: k => -[|[|//]] h. Qed.
Lemma kZ_exchanges : kexchanges (kZ K).
Proof.
split=> j l; have [<-|jl] := eqVneq j l; rewrite ?/tperm_mx ?tperm1 ?perm_mx1; try exact: ksym1.
- apply: (@ksym_unstack _ _ _ _ _ _ (perm sw2_inj) (fun i => 1)) => i; first exact: oner_neq0.
  rewrite mul1mx scale1r; apply/matrixP => r c; rewrite right_exch !kZ_unstack permE tperm_o2 // o2_val.
  by case: i r c => -[|[|[|[|//]]]] hi [[|[|//]] hr] [[|[|//]] hc].
- apply: (@ksym_unstack _ _ _ _ _ _ (perm sw2_inj) (fun i : 'I_4 => if (val i == 1%N) || (val i == 2%N) then -1 else 1)) => i; first exact: sgn0.
  rewrite trmx1 mulmx1; apply/matrixP => r c; rewrite [RHS]mxE left_exch !kZ_unstack permE tperm_o2 // o2_val.
  by case: i r c => -[|[|[|[|//]]]] hi [[|[|//]] hr] [[|[|//]] hc]; rewrite /= ?(mulr0, mul0r, mulr1, mul1r, mulrN, mulNr, opprK, oppr0).
Qed.
Lemma kZ_stable : nonzero_samples (kZ K) /\ kron_stable (kZ K).
Proof.
have O i : unstack (kZ K) i *m (unstack (kZ K) i)^T = 1%:M.
  apply/matrixP => r c; rewrite mxE big_ord_recl big_ord1 ![_^T _ _]mxE !kZ_unstack !mxE.
  by case: i => -[|[|[|[|//]]]] hi; case: r => -[|[|//]] hr; case: c => -[|[|//]] hc; rewrite /= ?(mul0r, mulr0, mul1r, mulr1, addr0, add0r, mulrNN).
have U i : unstack (kZ K) i \in unitmx by case: (mulmx1_unit (O i)).
split.
  move=> i; rewrite -(unstack_eq0 (a := 2) (b := 2) (kZ K) i); apply/eqP => z; have := O i; rewrite z mul0mx => /matrixP /(_ 0 0) /eqP.
  by rewrite !mxE eqxx eq_sym oner_eq0.
apply: C90_two_by_two => // u v u0 v0; apply: Classical_Prop.NNPP => no.
have Z i : (v^T *m unstack (kZ K) i *m u) 0 0 = 0 by apply/eqP; apply: contraT => h; case: no; exists i.
have E i : (v^T *m unstack (kZ K) i *m u) 0 0 = \sum_c (\sum_r v r 0 * unstack (kZ K) i r c) * u c 0.
  by rewrite mxE; apply: eq_bigr => c _; rewrite mxE; congr (_ * _); apply: eq_bigr => r _; rewrite mxE.
have o1 (f : 'I_2 -> K) : \sum_c f c = f 0 + f 1 by rewrite big_ord_recl big_ord1; congr (_ + f _); apply: val_inj.
have z0 := Z (@m4 0 isT); have z1 := Z (@m4 1 isT); have z2 := Z (@m4 2 isT).
move: z0 z1 z2; rewrite !E !o1 !kZ_unstack /= !(mulr1, mulr0, addr0, add0r, mulrN) !mulNr => z0 z1 z2.
have p0 : v 0 0 * u 0 0 = 0.
  have : (v 0 0 * u 0 0) *+ 2 = 0 by rewrite mulr2n -[RHS](addr0 0) -{1}z0 -z1 addrACA subrr addr0.
  by move/eqP; rewrite mulrn_eq0 /= => /eqP.
move: z0 z2; rewrite p0 add0r => p1 /eqP; rewrite addrC subr_eq0 => /eqP p2.
have n0 (x : 'cV[K]_2) : x 0 0 = 0 -> x 1 0 = 0 -> x = 0.
  by move=> h0 h1; apply/colP => -[[|[|//]] h]; rewrite [RHS]mxE; [rewrite -[RHS]h0|rewrite -[RHS]h1]; congr (x _ _); apply: val_inj.
move/eqP: p0; rewrite mulf_eq0 => /orP[/eqP q|/eqP q].
  have v1 : v 1 0 != 0 by apply: contraNneq v0 => h; rewrite (n0 v q h).
  move/eqP: p1; rewrite mulf_eq0 (negbTE v1) /= => /eqP u1; move: p2; rewrite q u1 mul0r => /eqP.
  by rewrite ?(eq_sym 0) mulf_eq0 (negbTE v1) /= => /eqP u00; move/eqP: u0; apply; exact: n0.
have u1 : u 1 0 != 0 by apply: contraNneq u0 => h; rewrite (n0 u q h).
move/eqP: p1; rewrite mulf_eq0 (negbTE u1) orbF => /eqP v1; move: p2; rewrite q v1 mul0r => /eqP.
by rewrite mulf_eq0 (negbTE u1) orbF => /eqP v00; move/eqP: v0; apply; exact: n0.
Qed.
(* the same samples after the rows were multiplied by [[1, 1], [0, 1]] *)
Definition shear : 'M[K]_2 := \matrix_(i, j) (i <= j)%:R.
Definition kZY : 'M[K]_(4, 2 * 2) := kZ K *m (1%:M *t shear)^T.
End Example.
Example C130_hypotheses (K : starField) : [/\ nonzero_samples (kZ K), kron_stable (kZ K), ksigns (kZ K), kexchanges (kZ K) &
  [/\ (1%:M : 'M[K]_2) \in unitmx, shear K \in unitmx, shaped (kZ K) (kZY K) 1%:M (shear K) & shear K <> 1%:M]].
Proof.
have [nz st] := kZ_stable K; split=> //; [exact: kZ_signs|exact: kZ_exchanges|split].
- exact: unitmx1.
- rewrite unitmxE (expand_det_row _ 0) big_ord_recl big_ord1 /cofactor !det_mx11 !mxE /= mulr0n ?mul0r ?addr0 expr0 !mul1r mulr0 addr0.
  by rewrite unitr1.
- exists 1%g, (fun _ => 1); split=> [i|i]; first exact: oner_neq0.
  by rewrite perm1 scale1r /kZY samp_mulmx.
- by move/matrixP => /(_ 0 1) /eqP; rewrite !mxE /= oner_eq0.
Qed.
Print Assumptions C130_symmetries.
Print Assumptions C130_diagonal.
Print Assumptions C130_scalar.
Print Assumptions C130_shape.
Print Assumptions C130_hypotheses.
