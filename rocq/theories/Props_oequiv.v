(* Equivariance of the online estimator: C118. *)
From Coq Require Import Reals String FunctionalExtensionality.
From mathcomp Require Import all_ssreflect all_algebra.
From mathcomp Require Import complex.
From Verif Require Import RealsMC RealTac RealTac2 Star StarInst FunCalc Model_featurearray Model_linalg Proofs_linalg Props_linalg NpArray Proofs_numpy
  Model_mappings Model_covariance Spec_covariance Model_estimators Model_scipy Model_probability Model_scores
  Model_sklearn Model_objects Proofs_objects Props_objects Model_manifolds Props_hpd Proofs_hpd Proofs_mest Proofs_cost Model_online Props_online Props_ascent.
Set Implicit Arguments.
Unset Strict Implicit.
Unset Printing Implicit Defensive.
Local Open Scope ring_scope.
Import GRing.Theory Num.Theory Order.TTheory.

(* ---------- specification ---------- *)
Section Equivariance.
Variable p : nat.
Local Notation M := 'M[complex_sf]_p.+1.
Local Notation ofR := (@ofR complex_sf).
Variable pinvh : arr -> res arr.
Hypothesis pinvh_ok : forall c, exists P, pinvh c = Ok P.
Local Notation set_estimate := (@Model_online.set_estimate M (@as_cplx p) None pinvh).

Section General.
(* what is done to the estimates, to the gradients and to the data *)
Variables (phi psi : M -> M) (act : arr -> arr).
Definition op_image (q : on_op M) : on_op M := match q with
  | OSet e => OSet (omap phi e)
  | OUpdate X lr => OUpdate (act X) lr
  | OFit X e lr => OFit (act X) (omap phi e) lr end.
Variables rgrad rgrad' : arr -> M -> res M.
Local Notation on_exec := (@Model_online.on_exec M M (@hretr p) rgrad (@hscale p) (@as_cplx p) None pinvh).
Local Notation on_exec' := (@Model_online.on_exec M M (@hretr p) rgrad' (@hscale p) (@as_cplx p) None pinvh).
Local Notation on_execs := (@Model_online.on_execs M M (@hretr p) rgrad (@hscale p) (@as_cplx p) None pinvh).
Local Notation on_execs' := (@Model_online.on_execs M M (@hretr p) rgrad' (@hscale p) (@as_cplx p) None pinvh).
Local Notation update := (@Model_online.update M M (@hretr p) rgrad (@hscale p) (@as_cplx p) None pinvh).
Local Notation update' := (@Model_online.update M M (@hretr p) rgrad' (@hscale p) (@as_cplx p) None pinvh).
Hypothesis phi_pd : forall e, pd e -> pd (phi e).
Hypothesis grad_herm : forall X e g, pd e -> rgrad X e = Ok g -> herm g.
Hypothesis gradE : forall X e, pd e -> rgrad' (act X) (phi e) = fmapr psi (rgrad X e).
Hypothesis retrE : forall e u, pd e -> hretr1 (phi e) (psi u) = phi (hretr1 e u).
Hypothesis scaleE : forall t u, hscale t (psi u) = psi (hscale t u).
Hypothesis act_sample : forall X i, sample (act X) i = act (sample X i).
Hypothesis act_shape : forall X, sh (act X) = sh X.
(* states that correspond to each other *)
Definition related (s s' : online M) := [/\ on_est s' = omap phi (on_est s), on_lrate s' = on_lrate s, on_iteration s' = on_iteration s,
  o_cls (on_obj s) = CEmp false /\ o_cls (on_obj s') = CEmp false & forall e, on_est s = Some e -> pd e].
Lemma set_related s s' e : (forall e', e = Some e' -> pd e') -> related s s' ->
  related (set_estimate s e).1 (set_estimate s' (omap phi e)).1 /\ (set_estimate s' (omap phi e)).2 = (set_estimate s e).2.
Proof.
move=> pe [h1 h2 h3 [h4 h5] h6]; split.
  have [l1 i1] := set_lrate (@as_cplx p) None pinvh s e; have [l2 i2] := set_lrate (@as_cplx p) None pinvh s' (omap phi e).
  by split; rewrite ?set_est ?l1 ?l2 ?i1 ?i2 ?set_obj_cls.
case: e pe => [e|] // _; by rewrite !(set_cplx _ _ pinvh_ok).
Qed.
Lemma update_related s s' X lr : related s s' -> related (update s X lr).1 (update' s' (act X) lr).1 /\ (update' s' (act X) lr).2 = (update s X lr).2.
Proof.
move=> rl; have [h1 h2 h3 h4 h5] := rl; rewrite /Model_online.update h1; case es: (on_est s) => [e|] //=.
have pe := h5 e es; rewrite gradE //; case eg: (rgrad X e) => [g|x] //=.
have -> : current_lr s' lr (on_iteration s') = current_lr s lr (on_iteration s) by rewrite /current_lr h2 h3.
rewrite scaleE /hretr (pd_unit pe) (pd_unit (phi_pd pe)) retrE //=; apply: set_related => // _ [<-].
have hg : herm (hscale (current_lr s lr (on_iteration s)) g) by rewrite /hscale /herm adjZR (grad_herm pe eg).
exact: (@C48_retr_positive_definite complex_sf p.+1 1 (fun _ => e) (fun _ => _) (fun _ => pe) (fun _ => hg) 0).
Qed.
Lemma it_related s s' i : related s s' -> related (with_it s i) (with_it s' i). Proof. by case. Qed.
Lemma loop_related X lr l s s' : related s s' ->
  related (fit_loop (@hretr p) rgrad (@hscale p) (@as_cplx p) None pinvh s X lr l).1 (fit_loop (@hretr p) rgrad' (@hscale p) (@as_cplx p) None pinvh s' (act X) lr l).1 /\
  (fit_loop (@hretr p) rgrad' (@hscale p) (@as_cplx p) None pinvh s' (act X) lr l).2 = (fit_loop (@hretr p) rgrad (@hscale p) (@as_cplx p) None pinvh s X lr l).2.
Proof.
elim: l s s' => [//|i l IH] s s' rl /=; rewrite act_sample; have := update_related (sample X i) lr rl.
case: (update s _ _) => s1 r; case: (update' s' _ _) => s1' r' /= [rl1 ->]; case: r => [[]|x] //=.
by apply: IH; have [_ _ -> _ _] := rl1; exact: it_related.
Qed.
Lemma exec_related q s s' : (forall e, (q = OSet (Some e)) \/ (exists X lr, q = OFit X (Some e) lr) -> pd e) -> related s s' ->
  related (on_exec s q).1 (on_exec' s' (op_image q)).1 /\ (on_exec' s' (op_image q)).2 = (on_exec s q).2.
Proof.
case: q => [e|X lr|X e lr] pq rl /=; [|exact: update_related|].
  by apply: set_related => // e' ee; apply: pq; left; rewrite ee.
have := set_related (e := e) _ rl; rewrite /on_fit; case: (set_estimate s e) => s1 r; case: (set_estimate s' _) => s1' r' /= h.
have {h} [|rl1 ->] := h; first by move=> e' ee; apply: pq; right; exists X, lr; rewrite ee.
case: r => [[]|x] //=; have [-> _ _ _ _] := rl1; case: (on_est s1) => [e1|] //=.
rewrite /ndim /len act_shape; case: ifP => // _; exact: loop_related.
Qed.
(* any history; calls that raise included *)
Theorem C118_histories l lrate : (forall q, List.In q l -> starts_on (fun e : M => pd e) q) ->
  let s := on_execs (on_new M lrate) l in let s' := on_execs' (on_new M lrate) [seq op_image q | q <- l] in
  on_est s' = omap phi (on_est s) /\ on_iteration s' = on_iteration s.
Proof.
move=> hl; suff [] : related (on_execs (on_new M lrate) l) (on_execs' (on_new M lrate) [seq op_image q | q <- l]) by [].
have : related (on_new M lrate) (on_new M lrate) by [].
elim: l {1 2}(on_new M lrate) {2 4}(on_new M lrate) hl => [//|q l IH] s s' hl rl /=; apply: IH; first by move=> q' h; apply: hl; right.
apply: (proj1 (exec_related _ rl)) => e h; have := hl q (or_introl erefl).
by case: h => [->|[X [lr ->]]].
Qed.
End General.

(* ---------- the gradients of elliptical costs: c (e - w(q) x x^H) ---------- *)
Definition wgrad (c : R) (w : R -> R) (X : arr) (e : M) : res M :=
  Ok (ofR c *: (e - ofR (w (maha e (the_sample p X))) *: outer (the_sample p X))).
Lemma wgrad_herm c w X e g : pd e -> wgrad c w X e = Ok g -> herm g.
Proof. by move=> pe [<-]; rewrite /herm adjZR adjB (pd_herm pe) adjZR adjM adjK. Qed.
(* the rows x of X replaced by A x *)
Definition act_lin (A : M) (X : arr) : arr :=
  Arr (kd X) (sh X) (fun idx => \sum_(j < p.+1) (A (inord (nth 0%N idx 1)) j : C) * at_ X [:: nth 0%N idx 0; j : nat]).
Lemma act_lin_sample A X i : sample (act_lin A X) i = act_lin A (sample X i). Proof. by []. Qed.
Lemma the_act_lin A X : the_sample p (act_lin A X) = A *m the_sample p X.
Proof. by apply/matrixP => i j; rewrite !mxE /=; apply: eq_bigr => k _; rewrite inord_val mxE. Qed.
Lemma retr_congr (A e u : M) : A \in unitmx -> e \in unitmx -> hretr1 (A *m e *m A^H) (A *m u *m A^H) = A *m hretr1 e u *m A^H.
Proof.
move=> uA ue; have uH : A^H \in unitmx by rewrite unitmx_adj.
rewrite /hretr1 /solve !mulmxDr !mulmxDl; congr (_ + _ + _).
rewrite !invmxM' ?unitmx_mul ?uA // -!scalemxAl -!scalemxAr -!scalemxAl; congr (_ *: _).
by rewrite !mulmxA mulmxKV // mulmxK // .
Qed.
(* linear changes of the data: any history of calls *)
Theorem C118_linear (A : M) rgrad l lrate : A \in unitmx -> (forall X e g, pd e -> rgrad X e = Ok g -> herm g) ->
  (forall X e, pd e -> rgrad (act_lin A X) (A *m e *m A^H) = fmapr (fun g => A *m g *m A^H) (rgrad X e)) ->
  (forall q, List.In q l -> starts_on (fun e : M => pd e) q) ->
  let run l := on_execs (@hretr p) rgrad (@hscale p) (@as_cplx p) None pinvh (on_new M lrate) l in
  on_est (run [seq op_image (fun e => A *m e *m A^H) (act_lin A) q | q <- l]) = omap (fun e => A *m e *m A^H) (on_est (run l)).
Proof.
move=> uA hg gE hl; apply: (proj1 (C118_histories (phi := fun e => A *m e *m A^H) (psi := fun e => A *m e *m A^H) (act := act_lin A) _ hg gE _ _ _ _ _ hl)) => //.
- by move=> e pe; apply: pd_congr.
- by move=> e u pe; apply: retr_congr => //; exact: pd_unit.
by move=> t u; rewrite /hscale -scalemxAr -scalemxAl.
Qed.
Lemma wgrad_lin c w (A : M) X e : A \in unitmx -> pd e -> wgrad c w (act_lin A X) (A *m e *m A^H) = fmapr (fun g => A *m g *m A^H) (wgrad c w X e).
Proof.
move=> uA pe; rewrite /wgrad /= the_act_lin maha_congr // ?pd_unit // outer_mul; congr Ok.
by rewrite -scalemxAr -scalemxAl mulmxBr mulmxBl -scalemxAr -scalemxAl.
Qed.
Theorem C118_elliptical c w (A : M) l lrate : A \in unitmx -> (forall q, List.In q l -> starts_on (fun e : M => pd e) q) ->
  let run l := on_execs (@hretr p) (wgrad c w) (@hscale p) (@as_cplx p) None pinvh (on_new M lrate) l in
  on_est (run [seq op_image (fun e => A *m e *m A^H) (act_lin A) q | q <- l]) = omap (fun e => A *m e *m A^H) (on_est (run l)).
Proof. by move=> uA; apply: C118_linear => // [X e g|X e]; [exact: wgrad_herm|exact: wgrad_lin]. Qed.

(* ---------- conjugate data, real data ---------- *)
Local Notation cjm := (map_mx (@cj complex_sf)).
Definition act_conj (X : arr) : arr := Arr (kd X) (sh X) (fun idx => @cj complex_sf (at_ X idx)).
Lemma the_act_conj X : the_sample p (act_conj X) = cjm (the_sample p X).
Proof. by apply/matrixP => i j; rewrite !mxE. Qed.
Lemma adj_cjm m n (B : 'M[complex_sf]_(m, n)) : (cjm B)^H = cjm B^H.
Proof. by apply/matrixP => i j; rewrite !mxE. Qed.
Lemma qf_cjm n (S : 'M[complex_sf]_n) x : qf (cjm S) (cjm x) = @cj complex_sf (qf S x).
Proof. by rewrite /qf /sesq adj_cjm -!map_mxM mxE. Qed.
Lemma pd_cjm n (S : 'M[complex_sf]_n) : pd S -> pd (cjm S).
Proof.
move=> [hS h]; split; first by rewrite /herm adj_cjm hS.
move=> x x0; have cc m k (B : 'M[complex_sf]_(m, k)) : cjm (cjm B) = B by apply/matrixP => i j; rewrite !mxE cjK.
have := h (cjm x); rewrite map_mx_eq0 => /(_ x0) q0.
by rewrite -[x]cc qf_cjm cj_ge0 // ltW.
Qed.
Lemma maha_cjm (S : M) x : maha (cjm S) (cjm x) = maha S x.
Proof. by rewrite /maha adj_cjm -map_invmx -!map_mxM mxE toR_cj. Qed.
Lemma cjmZ (t : R) (u : M) : cjm (ofR t *: u) = ofR t *: cjm u.
Proof. by apply/matrixP => i j; rewrite !mxE rmorphM cj_ofR. Qed.
Theorem C118_conjugate rgrad l lrate : (forall X e g, pd e -> rgrad X e = Ok g -> herm g) ->
  (forall X e, pd e -> rgrad (act_conj X) (cjm e) = fmapr cjm (rgrad X e)) ->
  (forall q, List.In q l -> starts_on (fun e : M => pd e) q) ->
  let run l := on_execs (@hretr p) rgrad (@hscale p) (@as_cplx p) None pinvh (on_new M lrate) l in
  on_est (run [seq op_image cjm act_conj q | q <- l]) = omap cjm (on_est (run l)).
Proof.
move=> hg gE hl; apply: (proj1 (C118_histories (phi := cjm) (psi := cjm) (act := act_conj) _ hg gE _ _ _ _ _ hl)) => //.
- by move=> e pe; apply: pd_cjm.
- move=> e u pe; have hz : cjm (2%:R^-1 *: u) = 2%:R^-1 *: cjm u by apply/matrixP => i j; rewrite !mxE rmorphM fmorphV rmorph_nat.
  by rewrite /hretr1 /solve !map_mxD !map_mxM map_invmx hz.
by move=> t u; rewrite /hscale cjmZ.
Qed.
Lemma wgrad_conj c w X e : pd e -> wgrad c w (act_conj X) (cjm e) = fmapr cjm (wgrad c w X e).
Proof.
move=> pe; rewrite /wgrad /= the_act_conj maha_cjm; congr Ok.
by rewrite cjmZ map_mxB cjmZ /outer adj_cjm -map_mxM.
Qed.
(* real data and real initial points give real estimates *)
Definition real_op (q : on_op M) : Prop := match q with
  | OSet e => forall e', e = Some e' -> cjm e' = e'
  | OUpdate X _ => forall idx, @cj complex_sf (at_ X idx) = at_ X idx
  | OFit X e _ => (forall idx, @cj complex_sf (at_ X idx) = at_ X idx) /\ forall e', e = Some e' -> cjm e' = e' end.
Theorem C118_real c w l lrate : (forall q, List.In q l -> starts_on (fun e : M => pd e) q) -> (forall q, List.In q l -> real_op q) ->
  forall e, on_est (on_execs (@hretr p) (wgrad c w) (@hscale p) (@as_cplx p) None pinvh (on_new M lrate) l) = Some e -> cjm e = e.
Proof.
move=> hl hr e es; have := C118_conjugate lrate (@wgrad_herm c w) (@wgrad_conj c w) hl.
have -> : [seq op_image cjm act_conj q | q <- l] = l.
  elim: l {hl es} hr => [//|q l IH] hr /=; rewrite IH; last by move=> q' h; apply: hr; right.
  have aX X : (forall idx, @cj complex_sf (at_ X idx) = at_ X idx) -> act_conj X = X.
    by case: X => k s a h; rewrite /act_conj; congr Arr; apply: functional_extensionality.
  have aE (o : option M) : (forall e', o = Some e' -> cjm e' = e') -> omap cjm o = o by case: o => [a|] // /(_ a erefl) /= ->.
  congr cons; have := hr q (or_introl erefl); case: q {hr} => [o|X lr|X o lr] /=; [by move/aE => ->|by move/aX => ->|].
  by move=> [/aX -> /aE ->].
by rewrite /= es => -[].
Qed.
End Equivariance.

(* ---------- examples ---------- *)
(* rotation by a right angle and two samples: a history of one fit *)
Definition ex_rot : 'M[complex_sf]_2 := \matrix_(i, j) (if i == j then 0 else if i == 0 then -1 else 1).
Theorem C118_ex c w (lrate : R) X : ex_rot \in unitmx /\
  let run l := on_execs (@hretr 1) (wgrad c w) (@hscale 1) (@as_cplx 1) None (@Ok arr) (on_new _ lrate) l in
  on_est (run [:: OFit (act_lin ex_rot X) (Some 1%:M) "constant"]) = omap (fun e => ex_rot *m e *m ex_rot^H) (on_est (run [:: OFit X (Some 1%:M) "constant"])).
Proof.
have e1 : ex_rot *m ex_rot^H = 1%:M.
  apply/matrixP => i j; rewrite !mxE big_ord_recl big_ord1 !mxE !(fun_if (@cj complex_sf)) !rmorphN !rmorph0 !rmorph1.
  by case: i => [[|[|i]] hi] //; case: j => [[|[|j]] hj] //=; rewrite ?mulrNN ?mulr0 ?mul0r ?mulr1 ?addr0 ?add0r.
have u : ex_rot \in unitmx by have /mulmx1_unit[] := e1.
split=> // run; have := @C118_elliptical 1 (@Ok arr) (fun x => ex_intro _ x erefl) c w ex_rot [:: OFit X (Some 1%:M) "constant"] lrate u.
rewrite /= mulmx1 e1; apply => q [<-|//] /=; exact: pd1.
Qed.

Print Assumptions C118_histories.
Print Assumptions C118_linear.
Print Assumptions C118_elliptical.
Print Assumptions C118_conjugate.
Print Assumptions C118_real.
Print Assumptions C118_ex.
