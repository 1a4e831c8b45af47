(* Lemmas on the estimator objects. *)
From Coq Require Import Reals String.
From mathcomp Require Import all_ssreflect all_algebra.
From mathcomp Require Import complex zify.
From Verif Require Import RealsMC Star StarInst FunCalc Model_featurearray Model_linalg NpArray Proofs_numpy Model_mappings Proofs_mappings
  Model_covariance Spec_covariance Model_estimators Model_scipy Model_probability Model_scores Model_sklearn Model_objects.
Set Implicit Arguments.
Unset Strict Implicit.
Unset Printing Implicit Defensive.
Local Open Scope ring_scope.
Import GRing.Theory Num.Theory Order.TTheory.

(* what an object was configured with *)
Definition config (o : obj) := (o_cls o, o_tol o, o_iter_max o, o_norm o, o_method o, o_store_precision o, o_fun o).
Lemma config_cls o o' : config o = config o' -> o_cls o = o_cls o'. Proof. by rewrite /config => -[]. Qed.
Lemma config_fun o o' : config o = config o' -> o_fun o = o_fun o'. Proof. by rewrite /config => -[]. Qed.
Lemma config_sp o o' : config o = config o' -> o_store_precision o = o_store_precision o'. Proof. by rewrite /config => -[]. Qed.

Lemma get_put h a o b : get (put h a o) b = if b == a then o else get h b.
Proof. by rewrite /get /put nth_set_nth. Qed.
Lemma get_put_same h a o : get (put h a o) a = o. Proof. by rewrite get_put eqxx. Qed.
Lemma size_put h a o : (a < size h)%N -> size (put h a o) = size h.
Proof. by move=> ah; rewrite /put size_set_nth; apply/maxn_idPr. Qed.
Lemma get_copy h a b : (b < size h)%N -> get (deepcopy h a) b = get h b.
Proof. by move=> bh; rewrite /get /deepcopy nth_rcons bh. Qed.
Lemma get_copy_new h a : get (deepcopy h a) (size h) = get h a.
Proof. by rewrite /get /deepcopy nth_rcons ltnn eqxx. Qed.

Lemma note_config o X : config (note_nfeat o X) = config o.
Proof. by rewrite /note_nfeat; case: validate_nfeat. Qed.

Section Oracles.
Variables (eigR : eigsolver real_sf) (eigC : eigsolver complex_sf) (ppf cdf : R -> R -> R) (pinvh : arr -> res arr).
Variable natgrad : bool -> string -> arr -> option arr -> res (arr * flt).
Variable other : bool -> algo -> arr -> option arr -> flt -> nat -> res (arr * flt * nat).
Local Notation fit := (fit eigR eigC ppf cdf pinvh natgrad other).
Local Notation run := (run eigR eigC ppf cdf natgrad other).
Local Notation set_covariance := (set_covariance pinvh).

Lemma set_cov_config o c : config (set_covariance o c).1 = config o.
Proof. by rewrite /set_covariance; case: (checked_cov _ _) => // c'; case: ifP => // _; case: (pinvh c'). Qed.
Lemma set_cov_keeps o c : let o' := (set_covariance o c).1 in
  [/\ o_location o' = o_location o, o_nfeat o' = o_nfeat o, o_err o' = o_err o & o_iteration o' = o_iteration o].
Proof. by rewrite /set_covariance; case: (checked_cov _ _) => // c'; case: ifP => // _; case: (pinvh c'). Qed.
(* a successful _set_covariance determines covariance_ and precision_ *)
Lemma set_cov_det o1 o2 c : o_cls o1 = o_cls o2 -> o_store_precision o1 = o_store_precision o2 ->
  let s1 := set_covariance o1 c in let s2 := set_covariance o2 c in
  s1.2 = s2.2 /\ (s1.2 = Ok tt -> o_covariance s1.1 = o_covariance s2.1 /\ o_precision s1.1 = o_precision s2.1).
Proof.
rewrite /set_covariance => -> e; case: (checked_cov _ _) => //= c'; rewrite e; case: ifP => //= _; by case: (pinvh c').
Qed.
Lemma set_cov_ok o c : (set_covariance o c).2 = Ok tt ->
  exists2 c', checked_cov (o_cls o) c = Ok c' & o_covariance (set_covariance o c).1 = Some c' /\
    o_precision (set_covariance o c).1 = if o_store_precision o then (if pinvh c' is Ok P then Some (Some P) else None) else Some None.
Proof.
rewrite /set_covariance; case: (checked_cov _ _) => //= c'; case: ifP => // e; last by exists c'.
by case ep: (pinvh c') => [P|] //= _; exists c' => //; rewrite ep.
Qed.

(* fit only changes the object fitted, never its configuration *)
Lemma fit_put h a X init : exists2 o', (fit h a X init).1 = put h a o' \/ (fit h a X init).1 = h /\ o' = get h a &
  config o' = config (get h a).
Proof.
rewrite /fit; case ec: (o_cls (get h a)) => [q|df||q|df||b]; last first.
  have nc := note_config (get h a) X.
  case: (validate _ _) => [[Xv n]|e]; last by eexists; [left; reflexivity|].
  case es: (set_covariance _ _) => [o' r] /=; exists o'; first by left.
  by have := set_cov_config (with_loc (note_nfeat (get h a) X) (Some (cemp_loc b Xv))) (cemp_cov b Xv); rewrite es => ->.
all: case: (o_iteration _) => [k|]; last by exists (get h a) => //; right.
all: have nc := note_config (get h a) X.
all: case: (validate _ _) => [[Xv n]|e]; last by eexists; [left; reflexivity|].
all: case: (run _ _ _ _) => [[[cov err] it]|e]; last by eexists; [left; reflexivity|].
all: have := set_cov_config (note_nfeat (get h a) X) cov; rewrite nc; case: (set_covariance _ _) => o' [u|e] /= ce.
all: by eexists; [left; reflexivity|].
Qed.
Lemma fit_size h a X init : (a < size h)%N -> size (fit h a X init).1 = size h.
Proof. by move=> ah; have [o' [->|[-> _]] _] := fit_put h a X init; rewrite ?size_put. Qed.
Lemma fit_other h a X init b : b != a -> get (fit h a X init).1 b = get h b.
Proof. by move=> /negbTE ba; have [o' [->|[-> _]] _] := fit_put h a X init; rewrite ?get_put ?ba. Qed.
Lemma fit_config h a X init b : config (get (fit h a X init).1 b) = config (get h b).
Proof.
have [->|ba] := eqVneq b a; last by rewrite fit_other.
by have [o' [->|[-> _]] e] := fit_put h a X init; rewrite ?get_put ?eqxx.
Qed.

(* the estimation function only reads the configuration of the objects *)
Lemma run_config h1 h2 a1 a2 : config (get h1 a1) = config (get h2 a2) ->
  (forall m s, is_tyler (o_cls (get h1 a1)) -> o_fun (get h1 a1) = Some (m, s) -> config (get h1 s) = config (get h2 s)) ->
  forall X init, run h1 a1 X init = run h2 a2 X init.
Proof.
rewrite /run => c H X init; move: H; have := c; rewrite /config => -[-> -> -> _ _ _ ->] H.
case: (o_cls (get h2 a2)) H => [q|df||q|df||b] // H; case ef: (o_fun (get h2 a2)) H => [[m s]|] // H;
  by have := H m s isT erefl; rewrite /config => -[_ -> -> -> _ _ _].
Qed.

(* the two objects behave alike *)
Definition alike h1 a1 h2 a2 :=
  [/\ o_cls (get h1 a1) = o_cls (get h2 a2), o_store_precision (get h1 a1) = o_store_precision (get h2 a2),
      (o_iteration (get h1 a1) = None <-> o_iteration (get h2 a2) = None) &
      forall X init, run h1 a1 X init = run h2 a2 X init].
(* what a successful fit determines *)
Definition results (o : obj) := (o_covariance o, o_precision o, o_nfeat o,
  if o_cls o is CEmp _ then (o_location o, PInf, None) else (None, o_err o, o_iteration o)).
Lemma validate_note c X o Xn : o_cls o = c -> validate c X = Ok Xn -> o_nfeat (note_nfeat o X) = Some Xn.2.
Proof.
move=> <-; rewrite /validate /note_nfeat /validate_nfeat; case: ifP => _.
  by case: (arraytoreal X) => //= Xr; case: (check_array Xr) => //= Xc; case: (arraytocomplex Xc) => //= a [<-].
by rewrite /=; case: (check_array X) => //= Xr [<-].
Qed.
Lemma fit_alike h1 a1 h2 a2 X init : alike h1 a1 h2 a2 ->
  (fit h1 a1 X init).2 = (fit h2 a2 X init).2 /\
  ((fit h1 a1 X init).2 = Ok tt -> results (get (fit h1 a1 X init).1 a1) = results (get (fit h2 a2 X init).1 a2)).
Proof.
move=> [ec es ei er].
have n1 := note_config (get h1 a1) X; have n2 := note_config (get h2 a2) X.
have c1 := config_cls n1; have c2 := config_cls n2; have s1 := config_sp n1; have s2 := config_sp n2.
rewrite /fit ec; case ec2: (o_cls (get h2 a2)) => [q|df||q|df||b]; rewrite ?c1 ?c2 ?ec ?ec2; last first.
  case ev: (validate _ X) => [[Xv n]|e] //.
  set o1 := with_loc _ _; set o2 := with_loc (note_nfeat (get h2 a2) X) _.
  have E : o_cls o1 = o_cls o2 by rewrite /o1 /o2 /= c1 c2 ec.
  have S : o_store_precision o1 = o_store_precision o2 by rewrite /o1 /o2 /= s1 s2 es.
  have := set_cov_det (cemp_cov b Xv) E S.
  have [k1 k1' _ _] := set_cov_keeps o1 (cemp_cov b Xv); have [k2 k2' _ _] := set_cov_keeps o2 (cemp_cov b Xv).
  have z1 := set_cov_config o1 (cemp_cov b Xv); have z2 := set_cov_config o2 (cemp_cov b Xv).
  move: k1 k1' k2 k2' z1 z2; case: (set_covariance o1 _) => o1' r1; case: (set_covariance o2 _) => o2' r2 /=.
  move=> k1 k1' k2 k2' /config_cls z1 /config_cls z2 [-> H]; split=> // /H [e1 e2].
  rewrite !get_put_same /results e1 e2 z1 z2 E k1 k1' k2 k2' /o1 /o2 /= c2 ec2.
  have V1 : o_nfeat (note_nfeat (get h1 a1) X) = Some n by rewrite (validate_note _ ev) // ec ec2.
  have V2 : o_nfeat (note_nfeat (get h2 a2) X) = Some n by rewrite (validate_note _ ev) // ec2.
  by rewrite V1 V2.
all: case i1: (o_iteration (get h1 a1)) ei => [k1|]; case i2: (o_iteration (get h2 a2)) => [k2|] [u v];
  try (by have := u erefl); try (by have := v erefl); try by [].
all: case ev: (validate _ X) => [[Xv n]|e] //; rewrite er; case: (run h2 a2 Xv init) => [[[cov err] it]|e] //.
all: have E : o_cls (note_nfeat (get h1 a1) X) = o_cls (note_nfeat (get h2 a2) X) by rewrite c1 c2 ec.
all: have S : o_store_precision (note_nfeat (get h1 a1) X) = o_store_precision (note_nfeat (get h2 a2) X) by rewrite s1 s2 es.
all: have := set_cov_det cov E S.
all: have [_ p1 _ _] := set_cov_keeps (note_nfeat (get h1 a1) X) cov; have [_ p2 _ _] := set_cov_keeps (note_nfeat (get h2 a2) X) cov.
all: have z1 := set_cov_config (note_nfeat (get h1 a1) X) cov; have z2 := set_cov_config (note_nfeat (get h2 a2) X) cov.
all: have V1 : o_nfeat (note_nfeat (get h1 a1) X) = Some n by rewrite (validate_note _ ev) // ec ec2.
all: have V2 : o_nfeat (note_nfeat (get h2 a2) X) = Some n by rewrite (validate_note _ ev) // ec2.
all: move: p1 p2 z1 z2; case: (set_covariance (note_nfeat (get h1 a1) X) _) => o1' r1; case: (set_covariance (note_nfeat (get h2 a2) X) _) => o2' r2 /=.
all: move=> p1 p2 /config_cls z1 /config_cls z2 [-> H]; case: r2 H => [[]|e] H //; split=> // _; have [//|e1 e2] := H.
all: by rewrite !get_put_same /results /= e1 e2 z1 z2 E p1 p2 V1 V2 c2 ec2.
Qed.

(* the iteration count is a number after a fit unless the natural gradient is used *)
Definition natural (h : oheap) (a : nat) : Prop :=
  is_tyler (o_cls (get h a)) /\ exists m s, o_fun (get h a) = Some (m, s) /\ m <> "fixed-point"%string.
Lemma run_iteration h a X init c e k : ~ natural h a -> run h a X init = Ok (c, e, k) -> k <> None.
Proof.
rewrite /run /natural => nn.
have F (r : res (arr * flt * nat)) : fmapr (fun r => let '(c, e, k) := r in (c, e, Some k)) r = Ok (c, e, k) -> k <> None.
  by case: r => //= -[[? ?] ?] [_ _ <-].
move: nn; case: (o_cls (get h a)) => [q|df||q|df||b] nn //=; try exact: F.
all: case ef: (o_fun (get h a)) nn => [[m s]|] // nn; case: eqb_spec => [_|ne]; try exact: F.
all: by case: nn; split=> //; exists m, s.
Qed.
Lemma fit_iteration h a X init : ~ natural h a -> o_iteration (get h a) <> None ->
  o_iteration (get (fit h a X init).1 a) <> None.
Proof.
move=> nn; case ei: (o_iteration (get h a)) => [k|] // _.
have en : o_iteration (note_nfeat (get h a) X) = Some k by rewrite -ei /note_nfeat; case: (validate_nfeat _ _).
rewrite /fit ei; case ec: (o_cls (get h a)) => [q|df||q|df||b]; last first.
  case: (validate _ _) => [[Xv n]|e]; last by rewrite get_put_same en.
  have [_ _ _ k4] := set_cov_keeps (with_loc (note_nfeat (get h a) X) (Some (cemp_loc b Xv))) (cemp_cov b Xv).
  move: k4; case: (set_covariance _ _) => o' r /= k4; by rewrite get_put_same k4 en.
all: case: (validate _ _) => [[Xv n]|e]; last by rewrite get_put_same en.
all: case er: (run h a Xv init) => [[[cov err] it]|e]; last by rewrite get_put_same en.
all: have [_ _ _ k4] := set_cov_keeps (note_nfeat (get h a) X) cov.
all: move: k4; case: (set_covariance _ _) => o' [u|e] /= k4; rewrite get_put_same /= ?k4 ?en //.
all: exact: run_iteration er.
Qed.
End Oracles.
