(* Theorems about error_norm and CovariancesEstimation: C16, C17, C19. *)
From Coq Require Import Reals String ZArith.
From mathcomp Require Import all_ssreflect all_algebra.
From mathcomp Require Import complex zify.
From Verif Require Import RealsMC RealTac RealTac2 Star StarInst FunCalc Model_featurearray Model_linalg Proofs_linalg Props_linalg NpArray Proofs_numpy
  Model_mappings Proofs_mappings Props_mappings Proofs_probability Model_covariance Spec_covariance Model_estimators Model_scipy Model_probability Model_scores
  Model_sklearn Model_objects Proofs_objects Props_objects.
Set Implicit Arguments.
Unset Strict Implicit.
Unset Printing Implicit Defensive.
Local Open Scope ring_scope.
Delimit Scope Z_scope with coqZ.
Import GRing.Theory Num.Theory Order.TTheory.
Local Notation Re := (@complex.Re R).
Local Notation Im := (@complex.Im R).

(* ------------------------------------------------------------------ C16 *)
Lemma cabs_eq0 z : cabs z = 0 -> z = 0.
Proof.
move=> e; have := cabs2 z; rewrite e expr0n /= => /esym; case: z {e} => a b.
rewrite /toR /cj /= => e; have [-> ->] : a = 0 /\ b = 0; last by [].
have e' : a * a + b * b = 0 by rewrite -[RHS]e; rring.
have a2 : 0 <= a * a by rewrite -expr2 sqr_ge0.
have b2 : 0 <= b * b by rewrite -expr2 sqr_ge0.
move/eqP: e'; rewrite paddr_eq0 // !mulf_eq0 !orbb => /andP [/eqP -> /eqP ->] //.
Qed.
Lemma R2C_nat n : R2C n%:R = n%:R :> C.
Proof. by elim: n => // n IH; rewrite -addn1 !natrD R2C_D IH. Qed.
Lemma R2C_V x : R2C x^-1 = (R2C x)^-1 :> C.
Proof.
have [->|x0] := eqVneq x 0; first by rewrite invr0 R2C_0 invr0.
apply: (@mulIf _ (R2C x)); first by apply/eqP => -[e]; rewrite e eqxx in x0.
by rewrite -R2C_M mulVf // mulVf //; apply/eqP => -[e]; rewrite e eqxx in x0.
Qed.
Lemma gram_psd n (M : 'M[complex_sf]_n) : psd (M^H *m M).
Proof.
split; first by rewrite /herm adjM adjK.
move=> x; rewrite /qf /sesq !mulmxA -adjM -mulmxA.
by rewrite !mxE; apply: sumr_ge0 => i _; rewrite !mxE mulrC; exact: mul_cj_ge0.
Qed.
Lemma svd_dec eigC n (M : 'M[C]_n) : eigh_ok eigC ->
  eigdec ((M : 'M[complex_sf]_n)^H *m M) (@eigC n ((M : 'M[complex_sf]_n)^H *m M)).1 (@eigC n ((M : 'M[complex_sf]_n)^H *m M)).2.
Proof. by move=> ok; apply: eigh_dec => //; exact: psd_herm (gram_psd _). Qed.
Lemma bigmax_ge (I : eqType) (r : seq I) (F : I -> R) j : j \in r -> F j <= \big[Num.max/0]_(i <- r) F i.
Proof.
elim: r => // i r IH; rewrite inE big_cons => /orP [/eqP ->|/IH h]; first by rewrite le_maxr lexx.
by rewrite le_maxr h orbT.
Qed.
Lemma bigmax_0 (I : Type) (r : seq I) (F : I -> R) : (forall j, F j = 0) -> \big[Num.max/0]_(i <- r) F i = 0.
Proof. by move=> e; elim: r => [|i r IH]; rewrite ?big_nil // big_cons IH e maxxx. Qed.
(* the largest singular value vanishes only for the zero matrix *)
Lemma amax_eq0 eigC n (M : 'M[C]_n) : eigh_ok eigC -> (amax_svdvals eigC M = 0 <-> M = 0).
Proof.
move=> ok; have dec := svd_dec M ok; have ps := gram_psd (M : 'M[complex_sf]_n).
rewrite /amax_svdvals; set d := (eigC n _).1 in dec *.
have d0 j : 0 <= d 0 j by apply: (eigval_ge0 ps); exact: eigdec_eigval dec.
split=> [e|e].
  have dz j : d 0 j = 0.
    have s0 : R_sqrt.sqrt (d 0 j) <= 0 by rewrite -e; apply: (bigmax_ge (fun j => R_sqrt.sqrt (d 0 j))); rewrite mem_index_enum.
    apply: sqrt_eq_0; first by apply/RleP.
    by apply/eqP; rewrite eq_le s0 /=; apply/RleP; exact: sqrt_pos.
  have MM : (M : 'M[complex_sf]_n)^H *m M = 0.
    have [_ ->] := dec; have -> : dia complex_sf d = 0; last by rewrite mulmx0 mul0mx.
    by apply/matrixP => i j; rewrite diaE dz rmorph0 mul0rn mxE.
  apply: (@fro2_eq0 complex_sf); apply: (@ofR_inj complex_sf); rewrite fro2_tr mxtrace_mulC MM mxtrace0 rmorph0 //.
apply: bigmax_0 => j.
have -> : d 0 j = 0; last exact: sqrt_0.
have [u u0 eu] := eigdec_eigval j dec.
have : @ofR complex_sf (d 0 j) *: u = 0 by rewrite -eu e mulmx0 mul0mx.
by move/eqP; rewrite scaler_eq0 (negbTE u0) orbF fmorph_eq0 => /eqP.
Qed.

(* the entries of the matrices differ by real numbers *)
Definition real_diff n (A B : 'M[C]_n) := forall i j, Im ((A - B) i j) = 0.
Section ErrorNorm.
Variables (eigC : eigsolver complex_sf) (csqrt : C -> C).
Hypothesis ok : eigh_ok eigC.
Hypothesis csq : forall z, csqrt z ^+ 2 = z.
Local Notation error_norm := (error_norm eigC csqrt).
Theorem C16_nonnegative n k (A B : 'M[C]_n) norm scaling squared r : error_norm k A B norm scaling squared = Ok r -> 0 <= r.
Proof. by rewrite /error_norm; case: (sk_error_norm _ _ _ _ _ _ _ _) => //= -[k' z] [<-]; exact: cabs_ge0. Qed.
(* the part of error_norm after the squared norm x *)
Definition final n k (x : C) (scaling squared : bool) : R :=
  let x := if scaling then x / n.+1%:R else x in cabs (if squared then x else np_sqrt1 csqrt k x).
Lemma final_eq0 n k x scaling squared : 0 <= x -> (final n k (R2C x) scaling squared = 0 <-> x = 0).
Proof.
move=> x0; have [y y0 [ey yx]] : exists2 y, 0 <= y & (if scaling then R2C x / n.+1%:R else R2C x) = R2C y /\ (y = 0 <-> x = 0).
  case: scaling; last by exists x.
  exists (x / n.+1%:R); first by rewrite divr_ge0 // ler0n.
  split; first by rewrite R2C_M; congr (_ * _); rewrite R2C_V R2C_nat.
  split=> [/eqP|->]; last by rewrite mul0r.
  by rewrite mulf_eq0 invr_eq0 pnatr_eq0 orbF => /eqP.
rewrite /final ey -yx {x x0 ey yx}.
have cR z : 0 <= z -> cabs (R2C z) = 0 <-> z = 0.
  by move=> z0; split=> [/cabs_eq0 []|->] //; exact: cabs0.
case: squared; first exact: cR.
rewrite /np_sqrt1; case: ifP => _.
  split=> [/cabs_eq0 e|->]; first by apply: R2C_inj; rewrite -[LHS]csq e expr0n.
  have /eqP : csqrt (R2C 0) ^+ 2 = 0 by rewrite csq.
  by rewrite sqrf_eq0 => /eqP ->; exact: cabs0.
rewrite cR; last by apply/RleP; exact: sqrt_pos.
split=> [|->]; last exact: sqrt_0.
by apply: sqrt_eq_0; apply/RleP.
Qed.
Lemma error_normE n k (A B : 'M[C]_n.+1) norm scaling squared :
  error_norm k A B norm scaling squared = match norm with
    | Nfro => Ok (final n k (\sum_i \sum_j (A - B) i j ^+ 2) scaling squared)
    | Nspectral => Ok (final n KReal (R2C (amax_svdvals eigC ((A - B)^T *m (A - B)))) scaling squared)
    | Nother => Err NotImplementedErr end.
Proof. by rewrite /error_norm /sk_error_norm; case: norm. Qed.
Lemma amax_ge0 n (M : 'M[C]_n) : 0 <= amax_svdvals eigC M.
Proof. by rewrite /amax_svdvals; elim/big_ind: _ => // [x y x0 y0|j _]; [rewrite le_maxr x0|apply/RleP; exact: sqrt_pos]. Qed.
Theorem C16_zero_when_equal n k (A : 'M[C]_n.+1) norm scaling squared : norm <> Nother ->
  error_norm k A A norm scaling squared = Ok 0.
Proof.
rewrite error_normE subrr; case: norm => // _; congr Ok.
  rewrite big1; last by move=> i _; rewrite big1 // => j _; rewrite mxE expr0n.
  by rewrite -R2C_0; apply/final_eq0.
by apply/final_eq0; rewrite ?amax_ge0 //; apply/(amax_eq0 _ ok); rewrite mulmx0.
Qed.
(* matrices that differ by real numbers, in particular real matrices *)
Theorem C16_separates_partial n k (A B : 'M[C]_n.+1) norm scaling squared : real_diff A B ->
  error_norm k A B norm scaling squared = Ok 0 -> A = B.
Proof.
move=> rd; suff H : error_norm k A B norm scaling squared = Ok 0 -> A - B = 0 by move/H/eqP; rewrite subr_eq0 => /eqP.
have rE i j : (A - B) i j = R2C (Re ((A - B) i j)) by rewrite re_real.
rewrite error_normE; move: (A - B) rE => E {rd A B} rE.
have sqE i j : E i j ^+ 2 = R2C (Re (E i j) ^+ 2) by rewrite {1}rE !expr2 -R2C_M.
have sE (I : finType) (F : I -> R) : (forall i, 0 <= F i) -> \sum_i F i = 0 -> forall i, F i = 0.
  by move=> F0 /eqP; rewrite psumr_eq0 // => /allP h i; have := h i (mem_index_enum i) => /eqP.
have zero : (forall i j, Re (E i j) ^+ 2 = 0) -> E = 0.
  by move=> h; apply/matrixP => i j; rewrite rE mxE; have /eqP := h i j; rewrite sqrf_eq0 => /eqP ->.
case: norm => // -[e].
  have S : \sum_i \sum_j E i j ^+ 2 = R2C (\sum_i \sum_j Re (E i j) ^+ 2).
    by rewrite R2C_sum; apply: eq_bigr => i _; rewrite R2C_sum; apply: eq_bigr.
  rewrite S in e; have s0 i : 0 <= \sum_j Re (E i j) ^+ 2 by apply: sumr_ge0 => j _; exact: sqr_ge0.
  have {}e : \sum_i \sum_j Re (E i j) ^+ 2 = 0 by move: e; apply: (proj1 (final_eq0 _ _ _ _ _)); apply: sumr_ge0.
  by apply: zero => i; have h := sE _ _ s0 e i; apply: (sE _ (fun j => Re (E i j) ^+ 2) _ h) => j; exact: sqr_ge0.
have {}e : E^T *m E = 0 by apply/(amax_eq0 _ ok); move: e; apply: (proj1 (final_eq0 _ _ _ _ _)); exact: amax_ge0.
apply: zero => i j; have : \sum_i Re (E i j) ^+ 2 = 0.
  apply: R2C_inj; rewrite R2C_sum; have /matrixP /(_ j j) := e; rewrite mxE [X in _ = X]mxE => E0; rewrite -[RHS]E0.
  by apply: eq_bigr => l _; rewrite mxE -sqE expr2.
by move=> /sE; apply => l; exact: sqr_ge0.
Qed.
(* Violated for complex matrices, for both norms and all flags: the identity and the Hermitian positive
   definite matrix [[2, i], [-i, 2]] *)
Definition ex_E : 'M[C]_2 := \matrix_(i, j) if i == j then 1 else if (i < j)%N then ii else - ii.
Lemma ii2 : ii * ii = -1.
Proof. rewrite /ii /GRing.mul /= /GRing.opp /=; congr Complex; rring. Qed.
Theorem C16_separation_refuted k norm scaling squared : norm <> Nother ->
  [/\ error_norm k (1%:M + ex_E) 1%:M norm scaling squared = Ok 0, pd (1%:M + ex_E : 'M[complex_sf]_2), pd (1%:M : 'M[complex_sf]_2)
    & 1%:M + ex_E != 1%:M].
Proof.
move=> hn; split.
- rewrite error_normE [1%:M + ex_E]addrC addrK; case: norm hn => // _; congr Ok.
    rewrite !big_ord_recl !big_ord0 !mxE /= !expr2 mulrNN ii2 !addr0 mul1r addrN addNr addr0 -R2C_0; exact/final_eq0.
  apply/final_eq0; first exact: amax_ge0.
  apply/(amax_eq0 _ ok); apply/matrixP => i j; rewrite !mxE !big_ord_recl big_ord0 !mxE addr0.
  by case: i => -[|[|//]] i2; case: j => -[|[|//]] j2; rewrite /= ?(mul1r, mulr1, mulrN, mulNr, ii2, opprK, subrr, addNr, addrN).
- apply: pdD; first exact: pd1.
  have -> : ex_E = ((\matrix_(i, j) (if i == ord0 then if j == ord0 then 1 else ii else 0) : 'M[complex_sf]_2)^H
    *m (\matrix_(i, j) (if i == ord0 then if j == ord0 then 1 else ii else 0) : 'M[complex_sf]_2)); last exact: gram_psd.
  apply/matrixP => i j; rewrite !mxE !big_ord_recl big_ord0 !mxE /= addr0.
  case: i => -[|[|//]] i2; case: j => -[|[|//]] j2; rewrite /= /ii /cj /= /GRing.add /= /GRing.mul /= /GRing.opp /=; congr Complex; rring.
- exact: pd1.
- apply/eqP => /matrixP /(_ ord0 ord0); rewrite !mxE /= => /eqP.
  by rewrite -subr_eq0 addrAC subrr add0r oner_eq0.
Qed.
End ErrorNorm.

(* ------------------------------------------------------------------ C17 *)
Section Trials.
Variables (eigR : eigsolver real_sf) (eigC : eigsolver complex_sf) (ppf cdf : R -> R -> R) (pinvh : arr -> res arr).
Variable natgrad : bool -> string -> arr -> option arr -> res (arr * flt).
Variable other : bool -> algo -> arr -> option arr -> flt -> nat -> res (arr * flt * nat).
Local Notation fit := (fit eigR eigC ppf cdf pinvh natgrad other).
Local Notation run := (run eigR eigC ppf cdf natgrad other).
Local Notation fp_run := (fp_run eigR eigC ppf cdf other).
Local Notation calls := (calls eigR eigC ppf cdf pinvh natgrad other).
Local Notation fit_copy := (fit_copy eigR eigC ppf cdf pinvh natgrad other).
Local Notation cov_seq := (cov_seq eigR eigC ppf cdf pinvh natgrad other).
Local Notation cov_transform := (cov_transform eigR eigC ppf cdf pinvh natgrad other).
Local Notation alike := (alike eigR eigC ppf cdf natgrad other).

(* ---------- specification: the covariance that fit gives on one data set ---------- *)
Definition estimate (h : oheap) (a : nat) (x : arr) (init : option arr) : res arr :=
  let: (h', r) := fit h a x init in bindr r (fun _ => transform (get h' a)).
(* an estimator whose fit does not depend on earlier fits (C18), in a heap where the object that its
   function captured exists *)
Definition steady (h : oheap) (a : nat) :=
  [/\ ~ natural h a, o_iteration (get h a) <> None, (a < size h)%N & forall m s, o_fun (get h a) = Some (m, s) -> (s < size h)%N].
(* M holds one matrix per trial, entry i being c i converted to the dtype of M *)
Definition holds_trials (M : arr) k n p (c : nat -> res arr) := [/\ kd M = k, sh M = [:: n; p; p] &
  forall i, (i < n)%N -> exists2 ci, c i = Ok ci &
    forall j l, (j < p)%N -> (l < p)%N -> at_ M [:: i; j; l] = cast k (kd ci) (at_ ci (bidx (sh ci) [:: j; l]))].

Lemma estimate_alike h1 a1 h2 a2 x init : alike h1 a1 h2 a2 -> estimate h1 a1 x init = estimate h2 a2 x init.
Proof.
move=> A; have [e1 e2] := @fit_alike eigR eigC ppf cdf pinvh natgrad other _ _ _ _ x init A; move: e1 e2; rewrite /estimate.
case: (fit h1 a1 x init) => h1' r1; case: (fit h2 a2 x init) => h2' r2 /= ->; case: r2 => [[]|e] //= /(_ erefl).
by rewrite /results /transform => -[-> _ _ _].
Qed.
Lemma alike_config h h' a : (forall b, config (get h' b) = config (get h b)) -> ~ natural h a ->
  o_iteration (get h a) <> None -> o_iteration (get h' a) <> None -> alike h' a h a.
Proof.
move=> c nn k k'; split; [exact: config_cls (c a)|exact: config_sp (c a)|by split|].
by apply: run_config.
Qed.
Lemma copy_estimate h a x init : steady h a -> fit_copy h a x init = estimate h a x init.
Proof.
move=> [nn k ah hs]; rewrite -[RHS](@estimate_alike (deepcopy h a) (size h)) //.
have G := get_copy_new h a.
split; rewrite ?G //; apply: run_config; rewrite ?G // => m s _ ef.
by rewrite get_copy //; exact: hs ef.
Qed.
(* the loop of n_jobs = 1 in terms of the object as it was before *)
Fixpoint writes (c : nat -> res arr) (l : seq nat) (M : arr) : res arr := match l with
  | [::] => Ok M
  | i :: l' => bindr (c i) (fun ci => bindr (set_sub M i ci) (writes c l')) end.
Lemma cov_seq_gen h h' a X init l M : ~ natural h a -> o_iteration (get h a) <> None -> o_iteration (get h' a) <> None ->
  (forall b, config (get h' b) = config (get h b)) ->
  (cov_seq h' a X init l M).2 = writes (fun i => estimate h a (sub X i) init) l M.
Proof.
move=> nn k; elim: l h' M => [//|i l IH] h' M k' c /=.
have nn' : ~ natural h' a by move=> n; apply: nn; apply: natural_config n; exact: c.
have := @estimate_alike h' a h a (sub X i) init (alike_config c nn k k'); rewrite {1}/estimate.
have fc := fit_config eigR eigC ppf cdf pinvh natgrad other h' a (sub X i) init.
have fi := @fit_iteration eigR eigC ppf cdf pinvh natgrad other h' a (sub X i) init nn' k'.
case: (fit h' a (sub X i) init) fc fi => h1 r1 /= fc fi <-.
case: r1 => [[]|e] //=; case: (transform (get h1 a)) => [ci|e] //=; case: (set_sub M i ci) => [M'|e] //=.
by rewrite IH // => b; rewrite fc.
Qed.
Lemma cov_seqE h a X init l M : ~ natural h a -> o_iteration (get h a) <> None ->
  (cov_seq h a X init l M).2 = writes (fun i => estimate h a (sub X i) init) l M.
Proof. by move=> nn k; exact: cov_seq_gen. Qed.
Lemma writes_spec c l M M' : writes c l M = Ok M' ->
  [/\ kd M' = kd M, sh M' = sh M, (forall j, head 0%N j \notin l -> at_ M' j = at_ M j) &
    uniq l -> forall i, i \in l -> exists2 ci, c i = Ok ci & bshape (behead (sh M)) (sh ci) = Some (behead (sh M)) /\
      forall j, at_ M' (i :: j) = cast (kd M) (kd ci) (at_ ci (bidx (sh ci) j))].
Proof.
elim: l M => [|i l IH] M /=; first by case=> <-.
case ec: (c i) => [ci|] //=; rewrite /set_sub; case: eqP => // eb /=.
move=> /IH [/= k s out inn]; split=> //.
  by move=> j; rewrite inE negb_or => /andP [ji jl]; rewrite out //= (negbTE ji).
move=> /andP [il ul] i'; rewrite inE => /orP [/eqP -> {i'}|/(inn ul) [ci' e1 [e2 e3]]]; last by exists ci'.
by exists ci => //; split=> // j; rewrite out //= eqxx.
Qed.
Lemma writes_ok c l M : uniq l -> (forall i, i \in l -> exists2 ci, c i = Ok ci & bshape (behead (sh M)) (sh ci) = Some (behead (sh M))) ->
  exists M', writes c l M = Ok M'.
Proof.
elim: l M => [|i l IH] M /=; first by exists M.
move=> /andP [il ul] H; have [|ci -> eb] := H i; first by rewrite inE eqxx.
rewrite /= /set_sub eb eqxx /=; apply: IH => // i' i'l /=; apply: H; by rewrite inE i'l orbT.
Qed.
(* the two passes of n_jobs != 1 succeed when the single one does, with the same array *)
Lemma two_passes c l M M' : bindr (mapr (fun i => fmapr (pair i) (c i)) l) (fun q => write_all q M) = Ok M' <-> writes c l M = Ok M'.
Proof.
elim: l M => [//|i l IH] M /=; case: (c i) => [ci|e] //=.
case em: (mapr _ l) => [q|e] /=.
  by case es: (set_sub M i ci) => [M1|e] //=; rewrite -IH em.
by split=> //; case: (set_sub M i ci) => [M1|e'] //=; rewrite -IH em.
Qed.
Lemma transform_writes nj h a X init n N p M : steady h a -> sh X = [:: n; N; p] ->
  (cov_transform nj h a X init).2 = Ok M <-> writes (fun i => estimate h a (sub X i) init) (iota 0 n) (np_zeros (kd X) [:: n; p; p]) = Ok M.
Proof.
move=> st s; rewrite /cov_transform s; case: ifP => _ /=; first by have [nn k _ _] := st; rewrite cov_seqE.
rewrite -two_passes; suff -> : mapr (fun i => fmapr (pair i) (fit_copy h a (sub X i) init)) (iota 0 n) =
  mapr (fun i => fmapr (pair i) (estimate h a (sub X i) init)) (iota 0 n) by [].
by elim: (iota 0 n) => //= i l ->; rewrite copy_estimate.
Qed.

(* one covariance per trial, entry i being what a fit of the estimator on X[i] gives *)
Theorem C17_entry_is_fit_on_trial nj h a X init n N p M : steady h a -> sh X = [:: n; N; p] ->
  (cov_transform nj h a X init).2 = Ok M -> holds_trials M (kd X) n p (fun i => estimate h a (sub X i) init).
Proof.
move=> st s; rewrite (transform_writes nj init M st s) => /writes_spec [k sM _ H]; split=> // i i_n.
have [|ci e [_ he]] := H (iota_uniq _ _) i; first by rewrite mem_iota.
by exists ci => // j l _ _; rewrite he.
Qed.
(* transform succeeds exactly when every fit does, with a matrix that fits in *)
Theorem C17_succeeds nj h a X init n N p : steady h a -> sh X = [:: n; N; p] ->
  (exists M, (cov_transform nj h a X init).2 = Ok M) <->
  (forall i, (i < n)%N -> exists2 ci, estimate h a (sub X i) init = Ok ci & bshape [:: p; p] (sh ci) = Some [:: p; p]).
Proof.
move=> st s; split=> [[M]|H].
  rewrite (transform_writes nj init M st s) => /writes_spec [_ _ _ H] i i_n.
  by have [|ci e [eb _]] := H (iota_uniq _ _) i; [rewrite mem_iota|exists ci].
have [|M e] := @writes_ok (fun i => estimate h a (sub X i) init) (iota 0 n) (np_zeros (kd X) [:: n; p; p]) (iota_uniq _ _).
  by move=> i; rewrite mem_iota /= => /H.
by exists M; rewrite (transform_writes nj init M st s).
Qed.
(* the same array for any two values of n_jobs (when it fails, the exception may differ) *)
Theorem C17_any_n_jobs nj nj' h a X init n N p M : steady h a -> sh X = [:: n; N; p] ->
  (cov_transform nj h a X init).2 = Ok M -> (cov_transform nj' h a X init).2 = Ok M.
Proof. by move=> st s; rewrite (transform_writes nj init M st s) (transform_writes nj' init M st s). Qed.
(* the same array whatever the estimators were fitted on before, this one included *)
Theorem C17_any_history nj nj' h a X init n N p l M : steady h a -> sh X = [:: n; N; p] -> on_heap h l ->
  (cov_transform nj h a X init).2 = Ok M -> (cov_transform nj' (calls h l) a X init).2 = Ok M.
Proof.
move=> st s oh; have [nn k ah hs] := st.
have sz : size (calls h l) = size h.
  elim: l (h) oh => [//|[[b Y] i] l IH] g /= /andP [bg ol]; rewrite IH ?fit_size //.
  by apply: sub_all ol => q; rewrite fit_size.
have c := calls_config eigR eigC ppf cdf pinvh natgrad other h l; have ci := @calls_iteration eigR eigC ppf cdf pinvh natgrad other h l a nn k.
have st' : steady (calls h l) a.
  split=> //; rewrite ?sz //; first by move=> nt; apply: nn; apply: natural_config nt; exact: c.
  by move=> m t; rewrite (config_fun (c a)); exact: hs.
rewrite (transform_writes nj init M st s) (transform_writes nj' init M st' s).
suff -> : writes (fun i => estimate (calls h l) a (sub X i) init) (iota 0 n) (np_zeros (kd X) [:: n; p; p]) =
          writes (fun i => estimate h a (sub X i) init) (iota 0 n) (np_zeros (kd X) [:: n; p; p]) by [].
elim: (iota 0 n) (np_zeros _ _) => //= i q IH Z; rewrite (@estimate_alike (calls h l) a h a) //; last exact: alike_config.
by case: (estimate h a (sub X i) init) => //= x; case: (set_sub Z i x).
Qed.
(* entry i depends on trial i only *)
Theorem C17_other_trials_do_not_matter nj nj' h a X Y init init' n N p N' M M' i : steady h a ->
  sh X = [:: n; N; p] -> sh Y = [:: n; N'; p] -> kd X = kd Y -> (i < n)%N -> init = init' ->
  sub X i = sub Y i -> (cov_transform nj h a X init).2 = Ok M -> (cov_transform nj' h a Y init').2 = Ok M' ->
  forall j l, (j < p)%N -> (l < p)%N -> at_ M [:: i; j; l] = at_ M' [:: i; j; l].
Proof.
move=> st sX sY k i_n <- e /(C17_entry_is_fit_on_trial st sX) [_ _ H] /(C17_entry_is_fit_on_trial st sY) [_ _ H'] j l jp lp.
have [c e1 ->] := H i i_n => //; have [c' e2 ->] := H' i i_n => //.
by move: e1; rewrite e e2 => -[->]; rewrite k.
Qed.
(* what becomes of the estimator *)
Theorem C17_estimator_untouched (nj : Z) h a X init : nj <> 1%coqZ -> (cov_transform nj h a X init).1 = h.
Proof. by move=> /Z.eqb_neq e; rewrite /cov_transform; case: (sh X) => [|n [|N [|p [|]]]] //; rewrite e. Qed.

(* ------------------------------------------------------------------ C19 *)
(* the matrices of M are the estimates, entry for entry *)
Definition unrounded (M : arr) n p (c : nat -> res arr) := forall i, (i < n)%N -> exists2 ci, c i = Ok ci &
  sh ci = [:: p; p] /\ forall j l, (j < p)%N -> (l < p)%N -> at_ M [:: i; j; l] = at_ ci [:: j; l].

Lemma estimate_inv h a x init c : estimate h a x init = Ok c ->
  exists2 Xv, (exists n, validate (o_cls (get h a)) x = Ok (Xv, n)) & exists2 cov, checked_cov (o_cls (get h a)) cov = Ok c &
    match o_cls (get h a) with CEmp b => cov = cemp_cov b Xv | _ => exists err it, run h a Xv init = Ok (cov, err, it) end.
Proof.
rewrite /estimate /fit; have nc := config_cls (note_config (get h a) x).
case ec: (o_cls (get h a)) => [q|df||q|df||b]; last first.
  rewrite nc ec; case: (validate _ x) => [[Xv n]|e] //=.
  case es: (set_covariance _ _ _) => [o' r] /=; case: r es => [[]|e] //= es.
  have := @set_cov_ok pinvh (with_loc (note_nfeat (get h a) x) (Some (cemp_loc b Xv))) (cemp_cov b Xv).
  rewrite es /= => /(_ erefl) [c' e1 [e2 _]]; rewrite /transform get_put_same e2 => -[<-].
  by exists Xv; [exists n|exists (cemp_cov b Xv) => //; move: e1; rewrite nc ec].
all: case: (o_iteration (get h a)) => [k|] //; rewrite nc ec; case: (validate _ x) => [[Xv n]|e] //.
all: case er: (run h a Xv init) => [[[cov err] it]|e] //.
all: case es: (set_covariance _ _ _) => [o' r] /=; case: r es => [[]|e] //= es.
all: have := @set_cov_ok pinvh (note_nfeat (get h a) x) cov; rewrite es /= => /(_ erefl) [c' e1 [e2 _]].
all: rewrite /transform get_put_same /= e2 => -[<-].
all: by exists Xv; [exists n|exists cov => //; [move: e1; rewrite nc ec|exists err, it]].
Qed.
Definition is_emp c := if c is CEmp _ then true else false.
Lemma run_fp h a Xv init cov err it : ~ natural h a -> ~~ is_emp (o_cls (get h a)) ->
  run h a Xv init = Ok (cov, err, it) -> exists alg t m k, fp_run (is_cplx (o_cls (get h a))) alg Xv init t m = Ok (cov, err, k).
Proof.
rewrite /natural => nn.
have F b alg t m : fmapr (fun r => let '(c, e, k) := r in (c, e, Some k)) (fp_run b alg Xv init t m) = Ok (cov, err, it) ->
   exists alg t m k, fp_run b alg Xv init t m = Ok (cov, err, k).
  by case e: (fp_run b alg Xv init t m) => [[[? ?] k]|] //= [<- <- _]; exists alg, t, m, k.
rewrite /run; move: nn; case: (o_cls (get h a)) => [q|df||q|df||b] nn // _; try exact: F.
all: case ef: (o_fun (get h a)) nn => [[m s]|] // nn; case: eqb_spec => [_|ne]; try exact: F.
all: by case: nn; split=> //; exists m, s.
Qed.
Lemma real_run_shape alg X init t m c e k N p : sh X = [:: N; p.+1] ->
  (forall s, init = Some s -> sh s = [:: p.+1; p.+1] /\ kd s <> KCplx) ->
  real_run eigR ppf cdf other alg X init t m = Ok (c, e, k) ->
  [/\ kd c <> KCplx, sh c = [:: p.+1; p.+1] & forall idx, complex.Im (at_ c idx) = 0].
Proof.
move=> sX hi; rewrite /real_run sX.
have D k0 s : k0 <> KCplx -> fmapr (fun r => let '(sg, d, k) := r in (of_mx (out_kind alg k0 k KReal) (rmx sg), d, k))
    (done (real_fixed_point eigR ppf cdf alg (to_rmx N p.+1 X : 'M[real_sf]_(N, p.+1)) s t m)) = Ok (c, e, k) ->
    [/\ kd c <> KCplx, sh c = [:: p.+1; p.+1] & forall idx, complex.Im (at_ c idx) = 0].
  move=> hk; case: (done _) => [[[sg d] k']|] //= [<- _ _]; split=> //=.
    by rewrite /out_kind; case: ifP => // _; case: alg; case: k0 hk.
  move=> [|i [|j [|? ?]]] //=; case: (insub i) => // i'; case: (insub j) => // j'; by rewrite mxE.
case: init hi => [s /(_ s erefl) [ss ks]|_]; last exact: D.
by rewrite ss eqxx /=; case: iscomplexP => //= _; exact: D.
Qed.
Lemma bshapeP p q : bshape [:: p; p] [:: q; q] = Some [:: p; p] -> q = p \/ q = 1%N.
Proof.
rewrite /bshape /pad /= /bdim; case: eqP => [->|pq]; first by left.
case: eqP => [p1|p1]; first by move=> [e]; case: pq.
by case: eqP => // -> _; right.
Qed.
(* real-valued estimators on trials of floats *)
Theorem C19_real_partial nj h a X init n N p M : steady h a -> ~~ is_cplx (o_cls (get h a)) -> kd X = KReal -> sh X = [:: n; N.+1; p.+1] ->
  (forall s, init = Some s -> sh s = [:: p.+1; p.+1] /\ kd s <> KCplx) ->
  (cov_transform nj h a X init).2 = Ok M -> unrounded M n p.+1 (fun i => estimate h a (sub X i) init).
Proof.
move=> st nc k s hi /(C17_entry_is_fit_on_trial st s) [kM sM H] i i_n; have [c e he] := H i i_n; exists c => //.
have [Xv [n' ev] [cov ec er]] := estimate_inv e; have [nn _ _ _] := st.
have ce := C14_real_matrix_stored nc ec; have [Xe _] := C15_real_estimators nc ev; subst Xv cov.
have [err [it {}er]] : exists err it, run h a (sub X i) init = Ok (c, err, it) by case: (o_cls _) nc er.
have cl : ~~ is_emp (o_cls (get h a)) by case: (o_cls _) nc.
have [alg [t [m [kk]]]] := run_fp nn cl er; rewrite (negbTE nc) => rr.
have [|kc sc im] := real_run_shape _ hi rr (N := N.+1); first by rewrite /= s.
split=> // j l jp lp; rewrite he // bidx_id ?sc // ?k; last by rewrite /inb /= jp lp.
by rewrite /cast; case: (at_ c [:: j; l]) (im [:: j; l]) => x y /= ->; case: (kd c).
Qed.
(* complex estimators on trials of complex numbers *)
Theorem C19_complex_partial nj h a X init n N p M : steady h a -> is_cplx (o_cls (get h a)) -> kd X = KCplx -> sh X = [:: n; N.+1; p.+1] ->
  (forall s, init = Some s -> sh s = [:: p.+1; p.+1] /\ kd s = KCplx) ->
  (cov_transform nj h a X init).2 = Ok M -> unrounded M n p.+1 (fun i => estimate h a (sub X i) init).
Proof.
move=> st hc k s hi /(C17_entry_is_fit_on_trial st s) [kM sM H] i i_n; have [c e he] := H i i_n; exists c => //.
have [Xv [n' ev] [cov ec er]] := estimate_inv e; have [nn _ _ _] := st.
have [|Xv' [n'' [ev' sv]]] := @C15_complex_data (o_cls (get h a)) (sub X i) N p hc k; first by rewrite /= s.
move: ev'; rewrite ev => -[? _]; subst Xv'; have [kv shv _] := sv.
have [kc sc] : kd cov = KCplx /\ sh cov = [:: p.+1; p.+1].
  case cl: (is_emp (o_cls (get h a))).
    by case: (o_cls (get h a)) cl er => // b _ ->; rewrite /cemp_cov shv /= s.
  have cl' : ~~ is_emp (o_cls (get h a)) by case: (o_cls _) cl.
  have [err [it {}er]] : exists err it, run h a Xv init = Ok (cov, err, it) by case: (o_cls _) cl er.
  have [alg [t [m [kk]]]] := run_fp nn cl' er; rewrite hc => rr.
  apply: (C14_computed_is_complex (N := N.+1) (p := p) _ _ rr); first by rewrite shv /= s.
  by move=> q /hi [-> ->]; split=> //; left.
have [c' [ec' [_ shc hs]]] := C14_complex_matrix_stored hc kc sc; move: ec'; rewrite ec => -[?]; subst c'.
rewrite shc sc; split=> // j l jp lp; rewrite he // k bidx_id ?shc ?sc //; last by rewrite /inb /= jp lp.
Qed.
(* Violated for a complex estimator on real-valued trials with 2q columns: the estimate is q x q (see C15);
   transform fails unless q = 1, and then fills each 2 x 2 matrix with one value. *)
Theorem C19_complex_estimator_real_trials_refuted nj h a X n N q M : steady h a -> is_cplx (o_cls (get h a)) -> kd X <> KCplx ->
  sh X = [:: n.+1; N.+1; (q.+1 + q.+1)%N] -> (cov_transform nj h a X None).2 = Ok M ->
  q = 0%N /\ forall i j l, (i <= n)%N -> (j < 2)%N -> (l < 2)%N -> at_ M [:: i; j; l] = at_ M [:: i; 0%N; 0%N].
Proof.
move=> st hc k s ok; have [nn _ _ _] := st.
have shp i c : (i <= n)%N -> estimate h a (sub X i) None = Ok c -> sh c = [:: q.+1; q.+1].
  move=> i_n e; have [Xv [n' ev] [cov ec er]] := estimate_inv e.
  have [|Xv' [ev' shv _]] := @C15_real_data_halved_refuted (o_cls (get h a)) (sub X i) N q hc k; first by rewrite /= s.
  move: ev'; rewrite ev => -[? _]; subst Xv'.
  have [kc sc] : kd cov = KCplx /\ sh cov = [:: q.+1; q.+1].
    case cl: (is_emp (o_cls (get h a))).
      by case: (o_cls (get h a)) cl er => // b _ ->; rewrite /cemp_cov shv /=.
    have cl' : ~~ is_emp (o_cls (get h a)) by case: (o_cls _) cl.
    have [err [it {}er]] : exists err it, run h a Xv None = Ok (cov, err, it) by case: (o_cls _) cl er.
    have [alg [t [m [kk]]]] := run_fp nn cl' er; rewrite hc => rr.
    by apply: (C14_computed_is_complex (N := N.+1) (p := q) _ _ rr).
  have [c' [ec' [_ shc _]]] := C14_complex_matrix_stored hc kc sc; move: ec'; rewrite ec => -[?]; subst c'.
  by rewrite shc sc.
have q0 : q = 0%N.
  have [H _] := C17_succeeds nj None st s; have [|c e] := H (ex_intro _ M ok) 0%N; first by [].
  by rewrite (shp 0%N c) // => /bshapeP [|[]] //; lia.
split=> // i j l i_n j2 l2; have [_ _ H] := C17_entry_is_fit_on_trial st s ok.
have [c e he] := H i i_n; rewrite he ?q0 // he ?q0 //; congr cast; congr at_.
by rewrite (shp i c i_n e) q0 /bidx /=.
Qed.
End Trials.

(* Violated for trials of integers: a covariance of 5/2 comes back as 2. *)
Definition ex_trials k : arr := Arr k [:: 1%N; 2%N; 1%N] (fun idx => (nth 0%N idx 1).+1%:R).
Definition ex_h : oheap := (new [::] (RStudent 1) (Fin 0) "fixed-point" 0 "None").1.
Lemma trunc52 : trunc (5%:R / 2%:R) = 2%:R.
Proof.
have -> : 5%:R / 2%:R = Rdiv (IZR 5) (IZR 2) :> R by rewrite !natIZR -Rinv_E.
rewrite /trunc; have -> : 0 <= Rdiv (IZR 5) (IZR 2) by apply/RleP; change (Rle (IZR 0) (Rdiv (IZR 5) (IZR 2))); Lra.lra.
rewrite /Int_part; have -> : up (Rdiv (IZR 5) (IZR 2)) = 3%coqZ by symmetry; apply: tech_up; Lra.lra.
by rewrite natIZR.
Qed.
Section Example.
Variables (eigR : eigsolver real_sf) (eigC : eigsolver complex_sf) (ppf cdf : R -> R -> R).
Variable natgrad : bool -> string -> arr -> option arr -> res (arr * flt).
Variable other : bool -> algo -> arr -> option arr -> flt -> nat -> res (arr * flt * nat).
Local Notation cov_transform := (cov_transform eigR eigC ppf cdf (@Ok arr) natgrad other).
Local Notation estimate := (estimate eigR eigC ppf cdf (@Ok arr) natgrad other).
Lemma ex_steady : steady ex_h 0.
Proof.
have [nn k] := @C18_new_objects [::] (RStudent 1) (Fin 0) "fixed-point" 0 "None" (or_introl isT).
by split=> //; rewrite k.
Qed.
Lemma ex_estimate k : k <> KCplx -> exists c, [/\ estimate ex_h 0 (sub (ex_trials k) 0) None = Ok c, kd c = KReal, sh c = [:: 1%N; 1%N]
  & at_ c [:: 0%N; 0%N] = R2C (5%:R / 2%:R)].
Proof.
move=> hk; rewrite /estimate /ex_h /new /fit /= /note_nfeat /validate_nfeat /validate /= /check_array.
have -> : iscomplexobj (sub (ex_trials k) 0) = false by apply/iscomplexP.
rewrite /= /run /= /real_run /= /student_t_mle_fixed_point leNgt ltr01 /= /fp_loop /loop /while /loop_cond ?andbF /= /set_covariance /=.
eexists; split; first reflexivity; rewrite //= !insubT // !mxE /R2C.
congr Complex; rewrite mulrC; congr (_ * _).
have ren n : Re (n%:R : C) = n%:R by rewrite -R2C_nat.
rewrite !big_ord_recl big_ord0 !mxE addr0.
by rewrite (ren 1%N) (ren 2%N) -!natrM -natrD.
Qed.
Theorem C19_integer_trials_refuted nj : exists M c,
  [/\ (cov_transform nj ex_h 0 (ex_trials KInt) None).2 = Ok M, estimate ex_h 0 (sub (ex_trials KInt) 0) None = Ok c,
      at_ c [:: 0%N; 0%N] = R2C (5%:R / 2%:R) & at_ M [:: 0%N; 0%N; 0%N] = R2C 2%:R].
Proof.
have [//|c [e kc sc hc]] := @ex_estimate KInt.
have [_ H] := @C17_succeeds eigR eigC ppf cdf (@Ok arr) natgrad other nj ex_h 0 (ex_trials KInt) None 1 2 1 ex_steady erefl.
have [|M eM] := H; first by case=> // _; exists c => //; rewrite sc.
exists M, c; split=> //; have [_ _ HM] := C17_entry_is_fit_on_trial ex_steady (erefl : sh (ex_trials KInt) = [:: 1%N; 2%N; 1%N]) eM.
have [//|c' e' ->] := HM 0%N => //; move: e'; rewrite e => -[<-]; rewrite kc sc /= hc /=; by rewrite trunc52.
Qed.
(* C17 and the first part of C19 on trials of floats: 5/2 for any n_jobs *)
Theorem C17_ex nj : exists M, (cov_transform nj ex_h 0 (ex_trials KReal) None).2 = Ok M /\ at_ M [:: 0%N; 0%N; 0%N] = R2C (5%:R / 2%:R).
Proof.
have [//|c [e kc sc hc]] := @ex_estimate KReal.
have [_ H] := @C17_succeeds eigR eigC ppf cdf (@Ok arr) natgrad other nj ex_h 0 (ex_trials KReal) None 1 2 1 ex_steady erefl.
have [|M eM] := H; first by case=> // _; exists c => //; rewrite sc.
exists M; split=> //.
have [//|//|c' e' [_ he]] := @C19_real_partial eigR eigC ppf cdf (@Ok arr) natgrad other nj ex_h 0 (ex_trials KReal) None 1 1 0 M ex_steady isT erefl erefl _ eM 0%N.
by rewrite he //; move: e'; rewrite e => -[<-].
Qed.
End Example.

Print Assumptions C16_nonnegative.
Print Assumptions C16_zero_when_equal.
Print Assumptions C16_separates_partial.
Print Assumptions C16_separation_refuted.
Print Assumptions C17_entry_is_fit_on_trial.
Print Assumptions C17_succeeds.
Print Assumptions C17_any_n_jobs.
Print Assumptions C17_any_history.
Print Assumptions C17_other_trials_do_not_matter.
Print Assumptions C17_estimator_untouched.
Print Assumptions C19_real_partial.
Print Assumptions C19_complex_partial.
Print Assumptions C19_complex_estimator_real_trials_refuted.
Print Assumptions C19_integer_trials_refuted.
Print Assumptions C17_ex.
