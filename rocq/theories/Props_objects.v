(* Theorems about the estimator objects: C14, C15, C18, C41, C42, C43, C71. *)
From Coq Require Import Reals String.
From mathcomp Require Import all_ssreflect all_algebra.
From mathcomp Require Import complex zify.
From Verif Require Import RealsMC RealTac Star StarInst FunCalc Model_featurearray Model_linalg NpArray Proofs_numpy Model_mappings Proofs_mappings
  Props_mappings Model_covariance Spec_covariance Proofs_loop Model_estimators Proofs_estimators Props_covariance Model_scipy Model_probability Model_scores
  Model_sklearn Model_objects Proofs_objects.
Set Implicit Arguments.
Unset Strict Implicit.
Unset Printing Implicit Defensive.
Local Open Scope ring_scope.
Import GRing.Theory Num.Theory Order.TTheory.

Lemma bindrOk (A B : Type) (x : A) (f : A -> res B) : bindr (Ok x) f = f x. Proof. by []. Qed.
Lemma check_array_ok a m n : kd a <> KCplx -> sh a = [:: m.+1; n.+1] -> check_array a = Ok a.
Proof. by move=> /iscomplexP /negbTE k s; rewrite /check_array k /ndim s. Qed.
Lemma check_arrayP a b : check_array a = Ok b -> [/\ b = a, kd a <> KCplx & exists m n, sh a = [:: m.+1; n.+1]].
Proof.
rewrite /check_array; case: iscomplexP => // k; case: eqP => //= n2; have [m [n s]] := sh2 n2; rewrite s /=.
by case: m s => // m s; case: n s => // n s [<-]; split=> //; exists m, n.
Qed.

(* ------------------------------------------------------------------ C14 *)
Theorem C14_complex_matrix_stored c a p : is_cplx c -> kd a = KCplx -> sh a = [:: p.+1; p.+1] ->
  exists c', checked_cov c a = Ok c' /\ same c' a.
Proof.
move=> hc k s; rewrite /checked_cov hc; have [b [e [kb sb hb]]] := covtoreal k s; rewrite e /=.
rewrite (@check_array_ok b (p + p.+1) (p + p.+1)) ?kb //.
have := C03_complex_round_trip k s; rewrite e /=.
by case: (covariancetocomplex b) => //= c' h; exists c'.
Qed.
Theorem C14_real_matrix_stored c a c' : ~~ is_cplx c -> checked_cov c a = Ok c' -> c' = a.
Proof. by rewrite /checked_cov => /negbTE -> /check_arrayP []. Qed.
(* The property for dtype complex: what fit or set_estimate hands over is what covariance_ and transform
   give, shape and values. *)
Theorem C14_set_then_transform pinvh o a p : is_cplx (o_cls o) -> kd a = KCplx -> sh a = [:: p.+1; p.+1] ->
  (forall c, exists P, pinvh c = Ok P) ->
  exists o' c, [/\ set_covariance pinvh o a = (o', Ok tt), transform o' = Ok c & same c a].
Proof.
move=> hc k s hp; have [c [e hs]] := C14_complex_matrix_stored hc k s.
rewrite /set_covariance e /=; have [P ->] := hp c.
by case: ifP => _; do 2 eexists; split; try reflexivity.
Qed.
(* The dtype of what a complex estimator computes: complex as soon as one iteration is made, or when the
   initial point is not given or is complex. *)
Theorem C14_computed_is_complex eigC ppf cdf other a X init tol m c e k N p :
  sh X = [:: N; p.+1] -> (forall s, init = Some s -> sh s = [:: p.+1; p.+1] /\ (kd s = KCplx \/ (0 < k)%N)) ->
  complex_run eigC ppf cdf other a X init tol m = Ok (c, e, k) -> kd c = KCplx /\ sh c = [:: p.+1; p.+1].
Proof.
move=> sX hi; rewrite /complex_run sX.
have D k0 s : kd c = out_kind a k0 k KCplx /\ sh c = [:: p.+1; p.+1] \/
   fmapr (fun r => let '(sg, d, k) := r in (of_mx (out_kind a k0 k KCplx) sg, d, k))
    (done (complex_fixed_point eigC ppf cdf a (to_mx N p.+1 X : 'M[complex_sf]_(N, p.+1)) s tol m)) <> Ok (c, e, k).
  case: (done _) => [[[sg d] k']|x] /=; last by right.
  case: (Classical_Prop.classic (Ok (of_mx (out_kind a k0 k' KCplx) sg, d, k') = Ok (c, e, k))) => [[<- _ <-]|h]; first by left.
  by right.
case: init hi => [s /(_ s erefl) [ss hk]|_] H.
  rewrite ss eqxx in H; case: (D (kd s) (Some (to_mx p.+1 p.+1 s))) => [[-> ->]|]; last by [].
  by split=> //; rewrite /out_kind; case: eqP hk => [->|] // [->|] //; case: a {D H}.
case: (D KCplx None) => [[-> ->]|]; last by [].
by split=> //; rewrite /out_kind; case: ifP => // _; case: a {D H}.
Qed.
Lemma C14_parts (t x y : R) : R2C t * R2C x + Complex 0 t * R2C y = Complex (t * x) (t * y).
Proof. rewrite /R2C /GRing.mul /GRing.add /=; congr Complex; rring. Qed.
(* Violated for real dtype: the 2p x 2p real matrix is taken for the real representation of a p x p
   complex one.  The identity I_2 is stored as the 1 x 1 matrix 2; matrices of odd size raise. *)
Theorem C14_real_dtype_stored_half_size_refuted c p (A : 'M[R]_(p.+1 + p.+1)) : is_cplx c ->
  exists c', [/\ checked_cov c (of_mx KReal (rmx A)) = Ok c', sh c' = [:: p.+1; p.+1] &
    forall i j : 'I_p.+1, at_ c' [:: nat_of_ord i; nat_of_ord j] = Complex (2%:R * A (lshift _ i) (lshift _ j)) (2%:R * A (rshift _ i) (lshift _ j))].
Proof.
move=> hc; rewrite /checked_cov hc (proj1 (C03_unchanged _)) // bindrOk.
rewrite (@check_array_ok _ (p + p.+1) (p + p.+1)) // bindrOk.
have [//|//|c' [-> [kc sc hc']]] := @covtocomplex (of_mx KReal (rmx A)) p.+1.
exists c'; split=> // i j; rewrite hc' //.
have E1 : at_ (of_mx KReal (rmx A)) [:: nat_of_ord i; nat_of_ord j] = R2C (A (lshift _ i) (lshift _ j)).
  by rewrite -[nat_of_ord i]/(nat_of_ord (lshift p.+1 i)) -[nat_of_ord j]/(nat_of_ord (lshift p.+1 j)) at_of_mx mxE.
have E2 : at_ (of_mx KReal (rmx A)) [:: (p.+1 + i)%N; nat_of_ord j] = R2C (A (rshift _ i) (lshift _ j)).
  by rewrite -[(p.+1 + i)%N]/(nat_of_ord (rshift p.+1 i)) -[nat_of_ord j]/(nat_of_ord (lshift p.+1 j)) at_of_mx mxE.
rewrite E1 E2; exact: C14_parts.
Qed.
Theorem C14_identity_stored_as_2_refuted c : is_cplx c ->
  exists c', [/\ checked_cov c (of_mx KReal (rmx (1%:M : 'M[R]_2))) = Ok c', sh c' = [:: 1%N; 1%N] & at_ c' [:: 0%N; 0%N] = R2C 2%:R].
Proof.
move=> hc; have [c' [e s h]] := C14_real_dtype_stored_half_size_refuted (1%:M : 'M[R]_(1 + 1)) hc.
exists c'; split=> //; have := h 0 0 => /= ->; rewrite !mxE /= /R2C; congr Complex; rewrite ?mulr1 ?mulr0 //.
Qed.
Theorem C14_real_dtype_odd_refuted c p (A : 'M[R]_p) : is_cplx c -> odd p -> checked_cov c (of_mx KReal (rmx A)) = Err AttributeErr.
Proof.
move=> hc od; rewrite /checked_cov hc (proj1 (C03_unchanged _)) // bindrOk.
case: p A od => // p A od; rewrite (@check_array_ok _ p p) // bindrOk.
apply: (proj2 (C03_rejected _)) => //= -[q [e _]]; by move: od; rewrite e addnn odd_double.
Qed.
(* Such a matrix does come out of fit: iter_max = 0 and a real initial point. *)
Theorem C14_reached_by_fit_refuted eigR eigC ppf cdf natgrad other N (X : 'M[C]_(N.+1, 2)) df tol nrm : 0 < df ->
  let pinvh := @Ok arr in
  let h := (new [::] (CStudent df) tol "fixed-point" 0 nrm).1 in
  exists h' c, [/\ fit eigR eigC ppf cdf pinvh natgrad other h 0 (of_mx KCplx X) (Some (of_mx KReal (rmx (1%:M : 'M[R]_2)))) = (h', Ok tt),
     o_covariance (get h' 0) = Some c & sh c = [:: 1%N; 1%N]].
Proof.
move=> d0; rewrite /new /fit /=.
have [b [e1 [kb sb hb]]] := @toreal_2 (of_mx KCplx X) N.+1 2 erefl erefl.
have rt := @C01_round_trip (of_mx KCplx X) erefl (or_intror (conj erefl isT)).
rewrite /note_nfeat /validate_nfeat /validate /= e1 /= (@check_array_ok b N 3) ?kb //=.
rewrite e1 /= in rt; case: (arraytocomplex b) rt => //= Xv [kv sv _]; rewrite /run /= /complex_run sv /=.
rewrite /complex_student_t_mle_fixed_point leNgt d0 /= /fp_loop /loop /while /loop_cond andbF /=.
rewrite /set_covariance /=.
by do 2 eexists; split; first reflexivity.
Qed.

(* ------------------------------------------------------------------ C15 *)
(* complex data: the data used are the data given *)
Theorem C15_complex_data c X N p : is_cplx c -> kd X = KCplx -> sh X = [:: N.+1; p.+1] ->
  exists Xv n, validate c X = Ok (Xv, n) /\ same Xv X.
Proof.
move=> hc k s; rewrite /validate hc; have [b [e1 [kb sb hb]]] := toreal_2 k s.
have := @C01_round_trip X k; rewrite /ndim /len s /= => /(_ (or_intror (conj erefl isT))).
rewrite e1 /= (@check_array_ok b N (p + p.+1)) ?kb //=; case: (arraytocomplex b) => //= Xv h; by exists Xv; eexists; split.
Qed.
Theorem C15_real_estimators c X Xv n : ~~ is_cplx c -> validate c X = Ok (Xv, n) -> Xv = X /\ n = nth 0%N (sh X) 1.
Proof. by rewrite /validate => /negbTE ->; case e: (check_array X) => //= [X']; have [-> _ _] := check_arrayP e => -[<- <-]. Qed.
(* Violated for real-valued data: two columns make one feature; n_features_in_ counts twice the
   features of complex data. *)
Theorem C15_real_data_halved_refuted c X N p : is_cplx c -> kd X <> KCplx -> sh X = [:: N.+1; (p.+1 + p.+1)%N] ->
  exists Xv, [/\ validate c X = Ok (Xv, (p.+1 + p.+1)%N), sh Xv = [:: N.+1; p.+1] &
    forall i j, (i <= N)%N -> (j <= p)%N -> at_ Xv [:: i; j] = at_ X [:: i; j] + ii * at_ X [:: i; (p.+1 + j)%N]].
Proof.
move=> hc k s; rewrite /validate hc (C01_real_unchanged k) /= (@check_array_ok X N (p + p.+1)) //=.
by have [Xv [-> [kv sv hv]]] := tocomplex_2 k s; exists Xv; rewrite s.
Qed.
Theorem C15_n_features_in_doubled_refuted c X N p : is_cplx c -> kd X = KCplx -> sh X = [:: N.+1; p.+1] ->
  validate_nfeat c X = Some (p.+1 + p.+1)%N.
Proof.
move=> hc k s; rewrite /validate_nfeat hc; have [b [-> [kb sb hb]]] := toreal_2 k s.
by rewrite [bindr _ _]/= (@check_array_ok b N (p + p.+1)) ?kb // sb.
Qed.

Section Histories.
Variables (eigR : eigsolver real_sf) (eigC : eigsolver complex_sf) (ppf cdf : R -> R -> R) (pinvh : arr -> res arr).
Variable natgrad : bool -> string -> arr -> option arr -> res (arr * flt).
Variable other : bool -> algo -> arr -> option arr -> flt -> nat -> res (arr * flt * nat).
Variables (psd_other : psd_oracle) (gammaln : R -> R) (clog : C -> C) (gaussian_score : obj -> arr -> arr -> res C).
Local Notation fit := (fit eigR eigC ppf cdf pinvh natgrad other).
Local Notation run := (run eigR eigC ppf cdf natgrad other).
Local Notation fp_run := (fp_run eigR eigC ppf cdf other).
Local Notation exec := (exec eigR eigC ppf cdf pinvh natgrad other).
Local Notation execs := (execs eigR eigC ppf cdf pinvh natgrad other).
Local Notation score := (score psd_other gammaln clog gaussian_score).

(* a sequence of calls of fit on objects of the heap, successful or not *)
Definition call := (nat * arr * option arr)%type.
Fixpoint calls (h : oheap) (l : seq call) : oheap := match l with
  | [::] => h
  | (b, X, init) :: l' => calls (fit h b X init).1 l' end.
Definition on_heap (h : oheap) (l : seq call) := all (fun q : call => (q.1.1 < size h)%N) l.

(* ------------------------------------------------------------------ C18 *)
Lemma calls_config h l b : config (get (calls h l) b) = config (get h b).
Proof. by elim: l h => [//|[[c X] i] l IH] h /=; rewrite IH fit_config. Qed.
Lemma natural_config h h' a : config (get h a) = config (get h' a) -> natural h a -> natural h' a.
Proof. by move=> e; rewrite /natural -(config_cls e) -(config_fun e). Qed.
Lemma calls_iteration h l a : ~ natural h a -> o_iteration (get h a) <> None -> o_iteration (get (calls h l) a) <> None.
Proof.
elim: l h => [//|[[c X] i] l IH] h nn k /=; apply: IH.
  by move=> n; apply: nn; apply: natural_config n; rewrite fit_config.
have [<-|ac] := eqVneq a c; first exact: fit_iteration.
by rewrite fit_other.
Qed.
(* Whatever was fitted before, on this object or others, successfully or not: same outcome and same
   covariance_, precision_, n_features_in_, err_, iteration_ (location_ for ComplexEmpiricalCovariance). *)
Theorem C18_refit_partial h a l X init : ~ natural h a -> o_iteration (get h a) <> None ->
  (fit (calls h l) a X init).2 = (fit h a X init).2 /\
  ((fit h a X init).2 = Ok tt -> results (get (fit (calls h l) a X init).1 a) = results (get (fit h a X init).1 a)).
Proof.
move=> nn k; have A : alike eigR eigC ppf cdf natgrad other (calls h l) a h a.
  have c := calls_config h l a; split; rewrite ?(config_cls c) ?(config_sp c) //; first by split=> // /(@calls_iteration h l a nn k).
  by apply: run_config => // m s _ _; exact: calls_config.
have [e1 e2] := @fit_alike eigR eigC ppf cdf pinvh natgrad other _ _ _ _ X init A; split=> // ok; apply: e2; by rewrite e1.
Qed.
(* objects fresh from the constructor, not of Tyler's 'natural gradient', qualify *)
Theorem C18_new_objects h c tol me m nrm : ~~ is_tyler c \/ me = "fixed-point"%string ->
  let h' := (new h c tol me m nrm).1 in ~ natural h' (size h) /\ o_iteration (get h' (size h)) = Some 0%N.
Proof.
move=> hm /=; rewrite /new; have G : get (rcons h (blank c tol me m nrm)) (size h) = blank c tol me m nrm.
  by rewrite /get nth_rcons ltnn eqxx.
case: ifP hm => ty hm; last by rewrite /natural G /= ty; split=> // -[].
case: hm => // em; rewrite /set_method G /= em /= get_put_same /= /natural get_put_same /=; split=> // -[_ [me' [s [[<- _] H]]]]; by apply: H.
Qed.
(* Violated by 'natural gradient': once a fit has succeeded, every further call raises TypeError, from
   "self.iteration_ > 0" with iteration_ = None. *)
Theorem C18_natural_gradient_refit_refuted h a X init Y init' : natural h a ->
  (fit h a X init).2 = Ok tt -> fit (fit h a X init).1 a Y init' = ((fit h a X init).1, Err TypeErr).
Proof.
move=> nat ok.
have nn : natural (fit h a X init).1 a by apply: natural_config nat; rewrite fit_config.
suff k : o_iteration (get (fit h a X init).1 a) = None.
  by case: nn => + _; move: k; move: (Model_objects.fit _ _ _ _ _ _ _ _ _ _ _).1 => h1 k; rewrite /fit k; case: (o_cls _).
move: nat ok => [ty [m [s [ef mf]]]]; rewrite /fit; case ec: (o_cls (get h a)) ty => [q|df||q|df||b] // _.
all: case: (o_iteration (get h a)) => [k|] //; case: (validate _ _) => [[Xv n]|e] //.
all: rewrite /run ec ef; case: eqb_spec => // _; case: (natgrad _ _ _ _) => [[c e]|e] //=.
all: by case: (set_covariance _ _ _) => o' [u|e'] //= _; rewrite get_put_same.
Qed.

(* ------------------------------------------------------------------ C41 *)
(* after a successful fit, covariance_, err_ and iteration_ are what the estimation function returned *)
Theorem C41_success h a X init : (if o_cls (get h a) is CEmp _ then False else True) -> (fit h a X init).2 = Ok tt ->
  exists Xv n cov err k c, [/\ validate (o_cls (get h a)) X = Ok (Xv, n), run h a Xv init = Ok (cov, err, k),
     checked_cov (o_cls (get h a)) cov = Ok c &
     let o := get (fit h a X init).1 a in [/\ o_covariance o = Some c, o_err o = err & o_iteration o = k]].
Proof.
move=> nc; rewrite /fit; have c1 := config_cls (note_config (get h a) X); rewrite c1.
case ec: (o_cls (get h a)) nc => [q|df||q|df||b] // _.
all: case: (o_iteration _) => [k0|] //; case: (validate _ _) => [[Xv n]|e] //=; case er: (run h a Xv init) => [[[cov err] k]|e] //=.
all: have := @set_cov_ok pinvh (note_nfeat (get h a) X) cov; rewrite c1 ec; case: (set_covariance _ _ _) => o' [[]|e] //= H _.
all: have [//|c' hc [e2 _]] := H; exists Xv, n, cov, err, k, c'; split=> //; by rewrite ?get_put_same.
Qed.
(* a fit that raises leaves err_ and iteration_ alone; also covariance_ and precision_, provided that
   pinvh does not raise; no other object is ever changed *)
Theorem C41_failure_partial h a X init e : (fit h a X init).2 = Err e ->
  let o := get h a in let o' := get (fit h a X init).1 a in
  [/\ o_err o' = o_err o, o_iteration o' = o_iteration o,
      (forall c, exists P, pinvh c = Ok P) -> o_covariance o' = o_covariance o /\ o_precision o' = o_precision o &
      forall b, b <> a -> get (fit h a X init).1 b = get h b].
Proof.
move=> er /=; suff [H1 H2 H3] : [/\ o_err (get (fit h a X init).1 a) = o_err (get h a),
   o_iteration (get (fit h a X init).1 a) = o_iteration (get h a) &
   (forall c, exists P, pinvh c = Ok P) -> o_covariance (get (fit h a X init).1 a) = o_covariance (get h a) /\
     o_precision (get (fit h a X init).1 a) = o_precision (get h a)].
  by split=> // b /eqP ba; rewrite fit_other.
have N (o := note_nfeat (get h a) X) : [/\ o_err o = o_err (get h a), o_iteration o = o_iteration (get h a),
    o_covariance o = o_covariance (get h a) & o_precision o = o_precision (get h a)].
  by rewrite /o /note_nfeat; case: (validate_nfeat _ _).
case: N => n1 n2 n3 n4.
have S o cov : (set_covariance pinvh o cov).2 <> Ok tt -> (forall c, exists P, pinvh c = Ok P) ->
    o_covariance (set_covariance pinvh o cov).1 = o_covariance o /\ o_precision (set_covariance pinvh o cov).1 = o_precision o.
  rewrite /set_covariance; case: (checked_cov _ _) => //= c'; case: ifP => //= _ H /(_ c') [P e']; by rewrite e' in H.
move: er; rewrite /fit; case ec: (o_cls (get h a)) => [q|df||q|df||b]; last first.
  case: (validate _ _) => [[Xv n]|x]; last by move=> _; rewrite get_put_same n1 n2 n3 n4.
  set o := with_loc _ _; have := S o (cemp_cov b Xv); have [_ _ k3 k4] := set_cov_keeps pinvh o (cemp_cov b Xv).
  by move: k3 k4; case: (set_covariance _ _ _) => o' r /= k3 k4 H er; rewrite get_put_same k3 k4 n1 n2 -n3 -n4; split=> //; apply: H; rewrite er.
all: case ei: (o_iteration (get h a)) => [k|]; last by move=> _ /=; rewrite ei.
all: rewrite ei in n2.
all: case: (validate _ _) => [[Xv n]|x]; last by move=> _; rewrite get_put_same n1 n2 n3 n4.
all: case: (run _ _ _ _) => [[[cov err] it]|x]; last by move=> _; rewrite get_put_same n1 n2 n3 n4.
all: have := S (note_nfeat (get h a) X) cov; have [_ _ k3 k4] := set_cov_keeps pinvh (note_nfeat (get h a) X) cov.
all: move: k3 k4; case: (set_covariance _ _ _) => o' [u|x] //= k3 k4 H _; rewrite get_put_same k3 k4 n1 n2 -n3 -n4; split=> //; exact: H.
Qed.
(* if pinvh does raise, covariance_ is already the new one while err_ and iteration_ are the old ones *)
Theorem C41_pinvh_failure_refuted o cov c e : checked_cov (o_cls o) cov = Ok c -> o_store_precision o -> pinvh c = Err e ->
  let o' := (set_covariance pinvh o cov).1 in
  [/\ (set_covariance pinvh o cov).2 = Err e, o_covariance o' = Some c, o_err o' = o_err o & o_iteration o' = o_iteration o].
Proof. by move=> h sp hp /=; rewrite /set_covariance h /= sp hp. Qed.

(* ------------------------------------------------------------------ C42 *)
(* the options of the object at the time of the fit *)
Definition own_options_used (h : oheap) (a : nat) : Prop := forall X init,
  let o := get h a in
  run h a X init = fmapr (fun r => let '(c, e, k) := r in (c, e, Some k))
    (fp_run (is_cplx (o_cls o)) (TylerFP (o_norm o)) X init (o_tol o) (o_iter_max o)).
Definition own_fixed_point (h : oheap) (a : nat) : Prop := o_fun (get h a) = Some ("fixed-point"%string, a).
Theorem C42_own_options_used h a : is_tyler (o_cls (get h a)) -> own_fixed_point h a -> own_options_used h a.
Proof. by rewrite /own_options_used /own_fixed_point /run => ty e X init /=; move: ty; rewrite e; case: (o_cls _). Qed.
(* such are new objects and objects on which set_method has just been called, and they stay so until
   set_method is called again *)
Lemma exec_keeps h q b : (b < size h)%N -> (forall a, q = SetMethod a -> a <> b) ->
  [/\ o_cls (get (exec h q).1 b) = o_cls (get h b), o_fun (get (exec h q).1 b) = o_fun (get h b) &
      (forall a c, q = Change a c -> a <> b) -> config (get (exec h q).1 b) = config (get h b)].
Proof.
move=> bh hq; have rc o : get (rcons h o) b = get h b by rewrite /get nth_rcons bh.
case: q hq => [c t me m n|a c|a|a|a X i] hq /=.
- rewrite /new; case: ifP => _; last by rewrite /= !rc.
  rewrite /set_method; case: ifP => _ /=; rewrite ?rc // get_put; case: eqP bh => [->|_ _]; rewrite ?ltnn // rc //.
- case: ifP => // ah; rewrite get_put; case: eqP => [->|//]; split; try by case: c {hq}.
  by move=> /(_ a c erefl).
- case: ifP => //= /andP [ah _]; rewrite /set_method; case: ifP => //= _; rewrite get_put; case: eqP => // e; by case: (hq a erefl).
- by case: ifP => //= ah; rewrite get_copy.
- case: ifP => //= ah; have c := fit_config eigR eigC ppf cdf pinvh natgrad other h a X i b.
  by rewrite (config_cls c) (config_fun c).
Qed.
Theorem C42_new_and_set_method h :
  (forall c tol m nrm, is_tyler c -> own_fixed_point (new h c tol "fixed-point" m nrm).1 (size h)) /\
  (forall a, o_method (get h a) = "fixed-point"%string -> own_fixed_point (set_method h a).1 a).
Proof.
rewrite /own_fixed_point; split=> [c tol m nrm ty|a e]; last by rewrite /set_method e /= get_put_same.
by rewrite /new ty /set_method /get nth_rcons ltnn eqxx /= -/(get _ _) get_put_same.
Qed.
Theorem C42_stays h q a : (a < size h)%N -> (forall b, q = SetMethod b -> b <> a) -> is_tyler (o_cls (get h a)) ->
  own_fixed_point h a -> own_options_used (exec h q).1 a.
Proof.
move=> ah hq ty own; have [c f _] := exec_keeps ah hq.
by apply: C42_own_options_used; rewrite /own_fixed_point ?c ?f.
Qed.
(* no operation on other objects matters *)
Theorem C42_others_do_not_matter h q a : (a < size h)%N -> own_fixed_point h a ->
  (forall b, q = SetMethod b -> b <> a) -> (forall b c, q = Change b c -> b <> a) ->
  forall X init, run (exec h q).1 a X init = run h a X init.
Proof.
move=> ah own h1 h2; have [c f] := exec_keeps ah h1; move=> /(_ h2) cf; apply: run_config => // m s _.
by rewrite f own => -[_ <-].
Qed.
(* Huber and Student estimators read their own options, whatever the history *)
Theorem C42_huber_student h a X init alg : (match o_cls (get h a) with RHuber q | CHuber q => alg = HuberM q
    | RStudent df | CStudent df => alg = StudentMLE df | _ => False end) ->
  run h a X init = fmapr (fun r => let '(c, e, k) := r in (c, e, Some k))
    (fp_run (is_cplx (o_cls (get h a))) alg X init (o_tol (get h a)) (o_iter_max (get h a))).
Proof. by rewrite /run; case: (o_cls _) => [q|df||q|df||b] // ->. Qed.
Lemma exec_copy h a : (a < size h)%N -> (exec h (Copy a)).1 = deepcopy h a. Proof. by move=> e; rewrite /exec e. Qed.
Lemma exec_change h a c : (a < size h)%N -> (exec h (Change a c)).1 = put h a (set_option (get h a) c). Proof. by move=> e; rewrite /exec e. Qed.
Lemma execs_cons h q l : execs h (q :: l) = execs (exec h q).1 l. Proof. by []. Qed.
Lemma execs_nil h : execs h [::] = h. Proof. by []. Qed.
Lemma put_put h a o o' : put (put h a o) a o' = put h a o'. Proof. by rewrite /put set_set_nth eqxx. Qed.
Lemma change_put h b o c : (b < size h)%N -> (exec (put h b o) (Change b c)).1 = put h b (set_option o c).
Proof. by move=> e; rewrite exec_change ?size_put // put_put get_put_same. Qed.
(* Violated by copies: the copy of a Tyler estimator keeps reading the options of the original. *)
Theorem C42_copy_reads_original_refuted h a t m n me : (a < size h)%N -> is_tyler (o_cls (get h a)) -> own_fixed_point h a ->
  let b := size h in
  let h' := execs h [:: Copy a; Change b (SetTol t); Change b (SetIterMax m); Change b (SetNorm n); Change b (SetMethodName me)] in
  [/\ o_tol (get h' b) = t, o_iter_max (get h' b) = m, o_norm (get h' b) = n, o_method (get h' b) = me &
      forall X init, run h' b X init = run h a X init].
Proof.
move=> ah ty own b h'; have E : h' = put (deepcopy h a) b (with_opts (get h a) t m n me).
  have s0 : (b < size (deepcopy h a))%N by rewrite size_rcons.
  by rewrite /h' !execs_cons execs_nil exec_copy // (exec_change _ s0) !change_put // get_copy_new.
rewrite E get_put_same; split=> // X init; rewrite /run get_put_same /= own.
have G : get (put (deepcopy h a) b (with_opts (get h a) t m n me)) a = get h a.
  by rewrite get_put; case: eqP => [e|_]; [rewrite e ltnn in ah|rewrite get_copy].
by move: ty; rewrite G; case: (o_cls _).
Qed.
(* and a change of the original changes the fits of its copy *)
Theorem C42_original_changes_copy_refuted h a m : (a < size h)%N -> is_tyler (o_cls (get h a)) -> own_fixed_point h a ->
  let b := size h in
  let h' := execs h [:: Copy a; Change a (SetIterMax m)] in
  o_iter_max (get h' b) = o_iter_max (get h a) /\
  forall X init, run h' b X init = fmapr (fun r => let '(c, e, k) := r in (c, e, Some k))
    (fp_run (is_cplx (o_cls (get h a))) (TylerFP (o_norm (get h a))) X init (o_tol (get h a)) m).
Proof.
move=> ah ty own b h'; have E : h' = put (deepcopy h a) a (with_opts (get h a) (o_tol (get h a)) m (o_norm (get h a)) (o_method (get h a))).
  by rewrite /h' !execs_cons execs_nil exec_copy // exec_change ?get_copy // size_rcons ltnS ltnW.
have ab : (b == a) = false by rewrite /b; case: eqP ah => // ->; rewrite ltnn.
have G : get h' b = get h a by rewrite E get_put ab get_copy_new.
rewrite G; split=> // X init; rewrite /run G own E get_put_same /=.
by move: ty; case: (o_cls _).
Qed.
(* and a change of method has no effect until set_method is called *)
Theorem C42_method_ignored_refuted h a me : (a < size h)%N -> own_fixed_point h a ->
  let h' := (exec h (Change a (SetMethodName me))).1 in
  o_method (get h' a) = me /\ forall X init, run h' a X init = run h a X init.
Proof.
move=> ah own /=; rewrite ah /= get_put_same; split=> // X init; rewrite /run get_put_same /= own get_put_same /=.
by case: (o_cls _).
Qed.

(* ------------------------------------------------------------------ C43 *)
Definition is_student (c : cls) := match c with RStudent _ | CStudent _ => true | _ => false end.
(* the log-likelihood of the data under the fitted distribution: C13 is about these functions *)
Definition loglik (c : cls) (cov X : arr) : res (option C) := match c with
  | RStudent df => student_score psd_other gammaln clog 1 cov df X
  | CStudent df => complex_student_score psd_other gammaln clog 1 cov df X
  | _ => Err NotImplementedErr end.
Lemma loglik_not_none c cov X : loglik c cov X <> Ok None.
Proof.
case: c => // df; rewrite /= /student_score /complex_student_score /=.
  by case: (freeze _ _ _) => //= f; case: (mvt_frozen_logpdf _ _ _ _ _).
by case: (complex_freeze _ _ _) => //= f; case: (ct_frozen_logpdf _ _ _ _ _).
Qed.
(* fits of a that all raise, and any fits of other objects *)
Fixpoint all_fail (a : nat) (h : oheap) (l : seq call) : Prop := match l with
  | [::] => True
  | (b, X, init) :: l' => (b = a -> exists e, (fit h b X init).2 = Err e) /\ all_fail a (fit h b X init).1 l' end.
Lemma all_fail_keeps a h l : all_fail a h l -> o_iteration (get (calls h l) a) = o_iteration (get h a) /\ o_err (get (calls h l) a) = o_err (get h a).
Proof.
elim: l h => [//|[[b X] i] l IH] h /= [hb /IH [-> ->]]; have [ab|ab] := eqVneq a b; last by rewrite fit_other.
by have [e er] := hb (esym ab); subst b; have [-> -> _ _] := C41_failure_partial er.
Qed.
Theorem C43_none_before_any_successful_fit h a l Y model : is_student (o_cls (get h a)) -> o_iteration (get h a) = Some 0%N ->
  all_fail a h l -> score (calls h l) a Y model = Ok None.
Proof.
move=> st k /all_fail_keeps [e _]; have c := config_cls (calls_config h l a).
by rewrite /score c e k; case: (o_cls _) st.
Qed.
(* data that the fixed-point functions are modelled for: at least one feature after validation, and an
   initial point, if given, of that size (and real for the real estimators) *)
Definition good_data (c : cls) (X : arr) (init : option arr) := exists Xv n N p,
  [/\ validate c X = Ok (Xv, n), sh Xv = [:: N; p.+1] &
      forall s, init = Some s -> sh s = [:: p.+1; p.+1] /\ (is_cplx c \/ kd s <> KCplx)].
Lemma stop_pos (K : starField) p (step : 'M[K]_p -> res 'M[K]_p) tol m s0 s d k : gtf PInf tol -> (0 < m)%N ->
  fp_loop step tol m s0 = Some (Ok (s, d, k)) -> (0 < k)%N.
Proof.
move=> t0 m0 h; have [_ r _ st _] := loop_stops h; case: k r st {h} => // r; rewrite /= in r; rewrite r => /(_ t0) e; by rewrite -e in m0.
Qed.
Lemma student_run_pos h a X init cov err k Xv n : is_student (o_cls (get h a)) -> validate (o_cls (get h a)) X = Ok (Xv, n) ->
  good_data (o_cls (get h a)) X init -> gtf PInf (o_tol (get h a)) -> (0 < o_iter_max (get h a))%N ->
  run h a Xv init = Ok (cov, err, k) -> exists j, k = Some j.+1.
Proof.
move=> st ev [Xv' [n' [N [p [ev' sX gi]]]]] t0 m0; move: ev'; rewrite ev => -[eX _]; rewrite -{}eX {Xv' n'} in sX.
have F (r : res (arr * flt * nat)) : (forall c e j, r = Ok (c, e, j) -> (0 < j)%N) ->
   fmapr (fun r => let '(c, e, k) := r in (c, e, Some k)) r = Ok (cov, err, k) -> exists j, k = Some j.+1.
  by case: r => //= -[[c1 e1] j] H [_ _ <-]; have := H _ _ _ erefl; case: j {H} => // j _; exists j.
rewrite /run; case ec: (o_cls (get h a)) st gi => [q|df||q|df||b] // _ gi; apply: F => c e j /=; rewrite /real_run /complex_run sX.
  have G s k0 : fmapr (fun r => let '(sg, d, k) := r in (of_mx (out_kind (StudentMLE df) k0 k KReal) (rmx sg), d, k))
      (done (real_fixed_point eigR ppf cdf (StudentMLE df) (to_rmx N p.+1 Xv : 'M[real_sf]_(N, p.+1)) s (o_tol (get h a)) (o_iter_max (get h a)))) =
      Ok (c, e, j) -> (0 < j)%N.
    rewrite /= /student_t_mle_fixed_point; case: ifP => // _; case el: (fp_loop _ _ _ _) => [[[[s' d'] k']|e']|] //= [_ _ <-].
    exact: stop_pos el.
  case: init gi => [s /(_ s erefl) [-> [//|/iscomplexP /negbTE ->]]|_]; rewrite ?eqxx /=; exact: G.
have G s k0 : fmapr (fun r => let '(sg, d, k) := r in (of_mx (out_kind (StudentMLE df) k0 k KCplx) sg, d, k))
    (done (complex_fixed_point eigC ppf cdf (StudentMLE df) (to_mx N p.+1 Xv : 'M[complex_sf]_(N, p.+1)) s (o_tol (get h a)) (o_iter_max (get h a)))) =
    Ok (c, e, j) -> (0 < j)%N.
  rewrite /= /complex_student_t_mle_fixed_point; case: ifP => // _; case el: (fp_loop _ _ _ _) => [[[[s' d'] k']|e']|] //= [_ _ <-].
  exact: stop_pos el.
case: init gi => [s /(_ s erefl) [-> _]|_]; rewrite ?eqxx /=; exact: G.
Qed.
Lemma all_fail_cov a h l : (forall c, exists P, pinvh c = Ok P) -> all_fail a h l ->
  o_covariance (get (calls h l) a) = o_covariance (get h a).
Proof.
move=> hp; elim: l h => [//|[[b X] i] l IH] h /= [hb /IH ->]; have [ab|ab] := eqVneq a b; last by rewrite fit_other.
by have [e er] := hb (esym ab); subst b; have [_ _ /(_ hp) [-> _] _] := C41_failure_partial er.
Qed.
(* after a successful fit with iter_max >= 1 (and a finite tol), and after any failing fits that follow:
   the log-likelihood under the covariance of that fit *)
Theorem C43_loglik_after_successful_fit_partial h a X init l Y model :
  is_student (o_cls (get h a)) -> good_data (o_cls (get h a)) X init -> gtf PInf (o_tol (get h a)) -> (0 < o_iter_max (get h a))%N ->
  (forall c, exists P, pinvh c = Ok P) ->
  (fit h a X init).2 = Ok tt -> all_fail a (fit h a X init).1 l ->
  exists2 cov, o_covariance (get (fit h a X init).1 a) = Some cov &
    score (calls (fit h a X init).1 l) a Y model = loglik (o_cls (get h a)) cov Y /\ loglik (o_cls (get h a)) cov Y <> Ok None.
Proof.
move=> st gd t0 m0 hp ok fl.
have [|Xv [n [cov [err [k [c [ev er ec [e1 e2 e3]]]]]]]] := C41_success _ ok; first by case: (o_cls _) st.
have [j ej] := student_run_pos st ev gd t0 m0 er; exists c => //; split; last exact: loglik_not_none.
have [i1 _] := all_fail_keeps fl; have i2 := all_fail_cov hp fl.
have cf := config_cls (calls_config (fit h a X init).1 l a); rewrite (config_cls (fit_config _ _ _ _ _ _ _ h a X init a)) in cf.
by rewrite /score cf i1 e3 ej i2 e1; case: (o_cls _) st.
Qed.
(* Violated for iter_max = 0: the fit succeeds and score says that the estimator has not been fitted. *)
Theorem C43_no_iteration_refuted N p (X : 'M[R]_(N.+1, p.+1)) Y df tol nrm model : 0 < df -> (forall c, exists P, pinvh c = Ok P) ->
  let h := (new [::] (RStudent df) tol "fixed-point" 0 nrm).1 in
  exists h', fit h 0 (of_mx KReal (rmx X)) None = (h', Ok tt) /\ score h' 0 Y model = Ok None.
Proof.
move=> d0 hp; rewrite /new /fit /= /note_nfeat /validate_nfeat /validate /=.
rewrite /run /= /real_run /=.
rewrite /student_t_mle_fixed_point leNgt d0 /= /fp_loop /loop /while /loop_cond andbF /=.
rewrite /set_covariance /=.
by match goal with |- context [pinvh ?c] => have [P ->] := hp c end; eexists; split; first reflexivity.
Qed.

(* ------------------------------------------------------------------ C71 *)
(* no history gives a Tyler estimator the attribute location_ that sklearn's score reads *)
Lemma tyler_no_location l h : (forall b, is_tyler (o_cls (get h b)) -> o_location (get h b) = None) ->
  forall a, is_tyler (o_cls (get (execs h l) a)) -> o_location (get (execs h l) a) = None.
Proof.
elim: l h => [//|q l IH] h H; rewrite execs_cons; apply: IH => b.
have rc o : o_location o = None -> is_tyler (o_cls (get (rcons h o) b)) -> o_location (get (rcons h o) b) = None.
  by rewrite /get nth_rcons => e; case: ifP => bh; [exact: H|case: eqP].
case: q => [c t me m n|a c|a|a|a X i] /=.
- rewrite /new; case: ifP => ty /=; last by apply: rc.
  rewrite /set_method; case: ifP => _ /=; last by apply: rc.
  rewrite get_put; case: eqP => _ /=; last by apply: rc.
  by rewrite /get nth_rcons ltnn eqxx.
- case: ifP => // ah; last by apply: H.
  by rewrite get_put; case: eqP => [_|_]; [case: c => ? /=; apply: H|apply: H].
- case: ifP => // _; last by apply: H.
  rewrite /set_method; case: ifP => _ /=; last by apply: H.
  by rewrite get_put; case: eqP => [_|_] /=; apply: H.
- case: ifP => // ah; last by apply: H.
  by rewrite /= /deepcopy /get nth_rcons; case: ifP => bh; [exact: H|case: eqP => // _; exact: H].
- case: ifP => // ah; last by apply: H.
  have cf := config_cls (fit_config eigR eigC ppf cdf pinvh natgrad other h a X i b); rewrite cf.
  have [<-|ba] := eqVneq b a; last by rewrite fit_other //; apply: H.
  move=> ty; have L : o_location (note_nfeat (get h b) X) = None by rewrite -(H b ty) /note_nfeat; case: (validate_nfeat _ _).
  rewrite /fit; case ec: (o_cls (get h b)) ty => [q|df||q|df||e] // ty.
  all: case: (o_iteration _) => [k|] //=; try by apply: H; rewrite ec.
  all: case: (validate _ _) => [[Xv n]|e]; last by rewrite get_put_same.
  all: case: (run _ _ _ _) => [[[cov err] it]|e]; last by rewrite get_put_same.
  all: have [k1 _ _ _] := set_cov_keeps pinvh (note_nfeat (get h b) X) cov.
  all: by move: k1; case: (set_covariance _ _ _) => o' [u|e] /= k1; rewrite get_put_same /= k1.
Qed.
(* Violated: score(model='Gaussian') raises whatever has been done with the estimator and whatever the
   data are. *)
Theorem C71_tyler_score_always_raises_refuted l a Y model : is_tyler (o_cls (get (execs [::] l) a)) ->
  exists e, score (execs [::] l) a Y model = Err e.
Proof.
move=> ty; have L : o_location (get (execs [::] l) a) = None.
  by apply: tyler_no_location => // b; rewrite /get nth_nil.
rewrite /score; case ec: (o_cls _) ty => [q|df||q|df||b] // _ /=; case: ifP => _; try by eexists.
case: (check_array Y) => [Yv|e] /=; last by eexists.
by rewrite L; case: ifP => _; eexists.
Qed.
(* the only models that score refuses by itself *)
Theorem C71_other_models h a Y model : is_tyler (o_cls (get h a)) -> model <> "Gaussian"%string -> score h a Y model = Err NotImplementedErr.
Proof. by rewrite /score => ty /eqb_spec /negbTE -> //=; case: (o_cls _) ty => // -[]. Qed.
End Histories.

(* ---------- the hypotheses are met ---------- *)
(* a data set of two samples with one feature *)
Definition ex_X : arr := of_mx KReal (rmx (\matrix_(i < 2, j < 1) (i.+1)%:R : 'M[R]_(2, 1))).
(* C18, C41: a Student estimator fits it any number of times *)
Theorem C18_ex eigR eigC ppf cdf natgrad other l :
  let h := (new [::] (RStudent 1) (Fin 0) "fixed-point" 0 "None").1 in
  (fit eigR eigC ppf cdf (@Ok arr) natgrad other (calls eigR eigC ppf cdf (@Ok arr) natgrad other h l) 0 ex_X None).2 = Ok tt.
Proof.
move=> h; have [nn k] := @C18_new_objects [::] (RStudent 1) (Fin 0) "fixed-point" 0 "None" (or_introl isT).
have := @C18_refit_partial eigR eigC ppf cdf (@Ok arr) natgrad other h 0 l ex_X None nn; rewrite k => /(_ _) [] // -> _.
have [h' [-> _]] := @C43_no_iteration_refuted eigR eigC ppf cdf (@Ok arr) natgrad other (fun _ _ => Err ValueErr) id id (fun _ _ _ => Err ValueErr)
  1 0 (\matrix_(i < 2, j < 1) (i.+1)%:R) ex_X 1 (Fin 0) "None" "Gaussian" ltr01 (fun c => ex_intro _ c erefl).
by [].
Qed.
(* C18, violated: natural gradient, an optimiser that returns a matrix *)
Theorem C18_natural_gradient_ex eigR eigC ppf cdf other :
  let natgrad := fun (_ : bool) (_ : string) (_ : arr) (_ : option arr) => Ok (of_mx KReal (rmx (1%:M : 'M[R]_1)), Fin 0) in
  let f := fit eigR eigC ppf cdf (@Ok arr) natgrad other in
  let h := (new [::] RTyler (Fin 0) "natural gradient" 5 "None").1 in
  (f h 0%N ex_X None).2 = Ok tt /\ (f (f h 0%N ex_X None).1 0%N ex_X None).2 = Err TypeErr.
Proof.
move=> natgrad f h; have ok : (f h 0%N ex_X None).2 = Ok tt by [].
have nt : natural h 0 by split=> //; exists "natural gradient"%string, 0%N.
by split=> //; rewrite /f (C18_natural_gradient_refit_refuted _ nt ok).
Qed.
(* C42, violated: a copy with iter_max = 5 and a zero tolerance makes no iteration, because the original
   has iter_max = 0 *)
Theorem C42_ex eigR eigC ppf cdf natgrad other :
  let ex := execs eigR eigC ppf cdf (@Ok arr) natgrad other in
  let h := ex [::] [:: New RTyler (Fin 0) "fixed-point" 0 "None"; Copy 0; Change 1 (SetIterMax 5)] in
  let h' := ex h [:: Fit 1 ex_X None] in
  o_iter_max (get h 1) = 5%N /\ o_iteration (get h' 1) = Some 0%N.
Proof. by []. Qed.
(* C43: a Student estimator with iter_max = 3 that has failed to fit a complex array, and fits ex_X *)
Theorem C43_ex eigR eigC ppf cdf natgrad other :
  let h := (new [::] (RStudent 1) (Fin 0) "fixed-point" 3 "None").1 in
  let f := fit eigR eigC ppf cdf (@Ok arr) natgrad other in
  [/\ (f h 0%N (of_mx KCplx (1%:M : 'M[C]_2)) None).2 = Err ValueErr, good_data (RStudent 1) ex_X None & (f h 0%N ex_X None).2 = Ok tt].
Proof.
move=> h f; split=> //; first by exists ex_X, 1%N, 2%N, 0%N.
rewrite /f /h /new /fit /= /note_nfeat /validate_nfeat /validate /= /run /= /real_run /=.
have [|s [d [k [e _]]]] := proj1 (@C29_estimators_follow_contract ppf cdf 2 0 (StudentMLE 1) (Fin 0) 3) eigR
  (to_rmx 2 1 ex_X) None; first exact: ltr01.
by rewrite /= in e; rewrite e /= /out_kind; case: k {e}.
Qed.

Print Assumptions C14_complex_matrix_stored.
Print Assumptions C14_real_matrix_stored.
Print Assumptions C14_set_then_transform.
Print Assumptions C14_computed_is_complex.
Print Assumptions C14_parts.
Print Assumptions C14_real_dtype_stored_half_size_refuted.
Print Assumptions C14_identity_stored_as_2_refuted.
Print Assumptions C14_real_dtype_odd_refuted.
Print Assumptions C14_reached_by_fit_refuted.
Print Assumptions C15_complex_data.
Print Assumptions C15_real_estimators.
Print Assumptions C15_real_data_halved_refuted.
Print Assumptions C15_n_features_in_doubled_refuted.
Print Assumptions C18_refit_partial.
Print Assumptions C18_new_objects.
Print Assumptions C18_natural_gradient_refit_refuted.
Print Assumptions C41_success.
Print Assumptions C41_failure_partial.
Print Assumptions C41_pinvh_failure_refuted.
Print Assumptions C42_own_options_used.
Print Assumptions C42_new_and_set_method.
Print Assumptions C42_stays.
Print Assumptions C42_others_do_not_matter.
Print Assumptions C42_huber_student.
Print Assumptions C42_copy_reads_original_refuted.
Print Assumptions C42_original_changes_copy_refuted.
Print Assumptions C42_method_ignored_refuted.
Print Assumptions C43_none_before_any_successful_fit.
Print Assumptions C43_loglik_after_successful_fit_partial.
Print Assumptions C43_no_iteration_refuted.
Print Assumptions C71_tyler_score_always_raises_refuted.
Print Assumptions C71_other_models.
Print Assumptions C18_ex.
Print Assumptions C18_natural_gradient_ex.
Print Assumptions C42_ex.
Print Assumptions C43_ex.
