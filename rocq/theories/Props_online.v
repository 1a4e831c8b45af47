(* Theorems about the online estimator: C44, C45, C46. *)
From Coq Require Import Reals String.
From mathcomp Require Import all_ssreflect all_algebra.
From mathcomp Require Import complex zify.
From Verif Require Import RealsMC RealTac RealTac2 Star StarInst FunCalc Model_featurearray Model_linalg Proofs_linalg Props_linalg NpArray Proofs_numpy
  Model_mappings Proofs_mappings Props_mappings Proofs_probability Model_covariance Spec_covariance Model_estimators Model_scipy Model_probability Model_scores
  Model_sklearn Model_objects Proofs_objects Props_objects Model_manifolds Props_hpd Model_online.
Set Implicit Arguments.
Unset Strict Implicit.
Unset Printing Implicit Defensive.
Local Open Scope ring_scope.
Import GRing.Theory Num.Theory Order.TTheory.

Section Online.
Variables (E G : Type) (retr : E -> G -> res E) (rgrad : arr -> E -> res G) (scale : R -> G -> G) (as_arr : E -> arr).
Variables (estimatetocov : option (option E -> res arr)) (pinvh : arr -> res arr).
Local Notation online := (online E).
Local Notation set_estimate := (@set_estimate E as_arr estimatetocov pinvh).
Local Notation update := (@update E G retr rgrad scale as_arr estimatetocov pinvh).
Local Notation fit_loop := (@fit_loop E G retr rgrad scale as_arr estimatetocov pinvh).
Local Notation on_fit := (@on_fit E G retr rgrad scale as_arr estimatetocov pinvh).
Local Notation on_exec := (@on_exec E G retr rgrad scale as_arr estimatetocov pinvh).
Local Notation on_execs := (@on_execs E G retr rgrad scale as_arr estimatetocov pinvh).

(* ---------- specification ---------- *)
(* the covariance of an estimate *)
Definition covariance_of (e : E) (c : arr) : Prop :=
  match estimatetocov with None => c = as_arr e | Some f => f (Some e) = Ok c end.
(* covariance_ is the covariance of the current estimate, as stored by _set_covariance (C14: itself when it
   is complex) *)
Definition imaged (s : online) := forall e, on_est s = Some e -> exists a c,
  [/\ covariance_of e a, checked_cov (CEmp false) a = Ok c & o_covariance (on_obj s) = Some c].
(* all calls of the history return normally *)
Fixpoint no_raise (s : online) (l : seq (on_op E)) : Prop := match l with
  | [::] => True
  | q :: l' => (on_exec s q).2 = Ok tt /\ no_raise (on_exec s q).1 l' end.

Lemma set_obj_cls (s : online) e : o_cls (on_obj (set_estimate s e).1) = o_cls (on_obj s).
Proof.
rewrite /set_estimate; case: (estimate_to_cov _ _ _) => [[c|]|x] //=.
have := set_cov_config pinvh (on_obj s) c; case: (set_covariance _ _ _) => o r /= /config_cls //.
Qed.
Lemma set_est (s : online) e : on_est (set_estimate s e).1 = e.
Proof. by rewrite /set_estimate; case: (estimate_to_cov _ _ _) => [[c|]|x] //=; case: (set_covariance _ _ _). Qed.
Lemma set_lrate (s : online) e : on_lrate (set_estimate s e).1 = on_lrate s /\ on_iteration (set_estimate s e).1 = on_iteration s.
Proof. by rewrite /set_estimate; case: (estimate_to_cov _ _ _) => [[c|]|x] //=; case: (set_covariance _ _ _). Qed.
Lemma set_imaged (s : online) e : o_cls (on_obj s) = CEmp false -> (set_estimate s e).2 = Ok tt -> imaged (set_estimate s e).1.
Proof.
move=> cl; have se := set_est s e; move: se; rewrite /set_estimate /estimate_to_cov.
case ec: estimatetocov => [f|] /=; last first.
  case: e => [e|] //=; case es: (set_covariance _ _ _) => [o r] /= _ /= er e' [<-].
  have := @set_cov_ok pinvh (on_obj s) (as_arr e); rewrite es er => /(_ erefl) [c e1 [e2 _]].
  by exists (as_arr e), c; split=> //; [rewrite /covariance_of ec|rewrite -cl].
case ef: (f e) => [a|x] //=; case es: (set_covariance _ _ _) => [o r] /= _ /= er e' ee.
have := @set_cov_ok pinvh (on_obj s) a; rewrite es er => /(_ erefl) [c e1 [e2 _]].
by exists a, c; split=> //; [rewrite /covariance_of ec -ee|rewrite -cl].
Qed.
Lemma update_imaged (s : online) X lr : o_cls (on_obj s) = CEmp false -> (update s X lr).2 = Ok tt -> imaged s -> imaged (update s X lr).1.
Proof.
move=> cl; rewrite /update; case: (on_est s) => // e; case: (bindr _ _) => // e' ok _; exact: set_imaged.
Qed.
Lemma update_cls (s : online) X lr : o_cls (on_obj (update s X lr).1) = o_cls (on_obj s).
Proof. rewrite /update; case: (on_est s) => // e; case: (bindr _ _) => // e'; exact: set_obj_cls. Qed.
Lemma loop_imaged X lr l (s : online) : o_cls (on_obj s) = CEmp false -> (fit_loop s X lr l).2 = Ok tt -> imaged s -> imaged (fit_loop s X lr l).1.
Proof.
elim: l s => [//|i l IH] s cl /=.
have := update_imaged (X := sample X i) (lr := lr) cl; have := update_cls s (sample X i) lr.
case: (update s (sample X i) lr) => s1 [[]|x] //= c1 H ok im; apply: IH => //; first by rewrite /= c1.
by move=> e /= /(H erefl im).
Qed.
Lemma loop_cls X lr l (s : online) : o_cls (on_obj (fit_loop s X lr l).1) = o_cls (on_obj s).
Proof.
elim: l s => [//|i l IH] s /=; have := update_cls s (sample X i) lr.
by case: (update s (sample X i) lr) => s1 [[]|x] //= c1; rewrite IH.
Qed.
Lemma exec_cls (s : online) q : o_cls (on_obj (on_exec s q).1) = o_cls (on_obj s).
Proof.
case: q => [e|X lr|X init lr] /=; [exact: set_obj_cls|exact: update_cls|].
rewrite /on_fit; have := set_obj_cls s init; case: (set_estimate s init) => s1 [[]|x] //= c1.
by case: (on_est s1) => // e; case: ifP => // _; rewrite loop_cls.
Qed.
(* the learning rate is never changed *)
Lemma update_lrate (s : online) X lr : on_lrate (update s X lr).1 = on_lrate s.
Proof. rewrite /update; case: (on_est s) => // e; case: (bindr _ _) => // e'; exact: (proj1 (set_lrate _ _)). Qed.
Lemma loop_lrate X lr l (s : online) : on_lrate (fit_loop s X lr l).1 = on_lrate s.
Proof.
elim: l s => [//|i l IH] s /=; have := update_lrate s (sample X i) lr.
by case: (update s (sample X i) lr) => s1 [[]|x] //= c1; rewrite IH.
Qed.
Lemma fit_lrate (s : online) X init lr : on_lrate (on_fit s X init lr).1 = on_lrate s.
Proof.
rewrite /on_fit; have := proj1 (set_lrate s init); case: (set_estimate s init) => s1 [[]|x] //= c1.
by case: (on_est s1) => // e; case: ifP => // _; rewrite loop_lrate.
Qed.
(* a call that returns normally *)
Lemma exec_imaged (s : online) q : o_cls (on_obj s) = CEmp false -> (on_exec s q).2 = Ok tt -> imaged s -> imaged (on_exec s q).1.
Proof.
case: q => [e|X lr|X init lr] cl /=; [by move=> ok _; exact: set_imaged|exact: update_imaged|].
rewrite /on_fit; have := set_imaged (e := init) cl; have := set_obj_cls s init; have := set_est s init.
case: (set_estimate s init) => s1 [[]|x] //= e1 c1 H; case: (on_est s1) => [e|] // ok _; last exact: H.
by move: ok; case: ifP => // _ ok; apply: loop_imaged ok _; [rewrite c1|exact: H].
Qed.

(* ------------------------------------------------------------------ C44 *)
Theorem C44_covariance_is_image_partial lrate l : no_raise (on_new E lrate) l -> imaged (on_execs (on_new E lrate) l).
Proof.
have : o_cls (on_obj (on_new E lrate)) = CEmp false by [].
have : imaged (on_new E lrate) by [].
elim: l (on_new E lrate) => [//|q l IH] s im cl /= [ok nr]; apply: IH nr; first exact: exec_imaged.
by rewrite exec_cls.
Qed.
(* with a covariance of complex dtype, covariance_ has its entries *)
Theorem C44_complex_image (s : online) e a p : imaged s -> on_est s = Some e -> covariance_of e a ->
  kd a = KCplx -> sh a = [:: p.+1; p.+1] -> exists2 c, o_covariance (on_obj s) = Some c & same c a.
Proof.
move=> im es ca k sa; have [a' [c [ca' cc oc]]] := im e es.
have ea : a' = a by move: ca ca'; rewrite /covariance_of; case: estimatetocov => [f ->|-> ->] // [->].
subst a'; have [c' [ec' hs]] := @C14_complex_matrix_stored (CEmp false) a p isT k sa.
by exists c => //; move: ec'; rewrite cc => -[->].
Qed.
(* Violated once a call has raised: estimate_ is replaced before the covariance is computed. *)
Theorem C44_stale_covariance_refuted (s : online) e a x : covariance_of e a -> o_cls (on_obj s) = CEmp false ->
  checked_cov (CEmp false) a = Err x ->
  (on_exec s (OSet (Some e))).2 = Err x /\ on_est (on_exec s (OSet (Some e))).1 = Some e /\
  o_covariance (on_obj (on_exec s (OSet (Some e))).1) = o_covariance (on_obj s).
Proof.
move=> ca cl ck /=; rewrite /set_estimate; have -> : estimate_to_cov as_arr estimatetocov (Some e) = Ok (Some a).
  by move: ca; rewrite /covariance_of /estimate_to_cov; case: estimatetocov => [f -> //|->].
by rewrite /set_covariance cl ck.
Qed.

(* ------------------------------------------------------------------ C45 *)
(* the path prescribed: step lrate/(i+1), lrate/(i+2), ... *)
Fixpoint path (lrate : R) (i : nat) (xs : seq arr) (e : E) : res E := match xs with
  | [::] => Ok e
  | x :: xs' => bindr (bindr (rgrad x e) (fun g => retr e (scale (lrate / (i + 1)%N%:R) g))) (path lrate i.+1 xs') end.
Lemma path_loop X l (s : online) e : on_est s = Some e -> (fit_loop s X "inverse iteration" l).2 = Ok tt ->
  exists2 e', path (on_lrate s) (on_iteration s) [seq sample X i | i <- l] e = Ok e' &
    on_est (fit_loop s X "inverse iteration" l).1 = Some e' /\
    on_iteration (fit_loop s X "inverse iteration" l).1 = (on_iteration s + size l)%N /\
    on_lrate (fit_loop s X "inverse iteration" l).1 = on_lrate s.
Proof.
elim: l s e => [|i l IH] s e es /=; first by exists e; rewrite // addn0.
case eu: (update s (sample X i) "inverse iteration") => [s1 [[]|x]] //= ok; move: eu.
rewrite /update es /current_lr /=; case: (bindr _ _) => [e1|x] //=.
have := set_est s (Some e1); have := set_lrate s (Some e1).
case: (set_estimate s (Some e1)) => s2 r /= [l1 i1] e1s [e21 _]; subst s2.
have [e2 p2 [q1 [q2 q3]]] := IH (with_it s1 (on_iteration s1).+1) e1 e1s ok; exists e2; rewrite ?q1 ?q2 ?q3 /=.
  by move: p2; rewrite /= l1 i1.
by rewrite i1 l1 addSnnS.
Qed.
(* What fit does: it goes on with the iteration counter where the previous calls of fit left it. *)
Theorem C45_fit_path (s : online) X e : (on_fit s X (Some e) "inverse iteration").2 = Ok tt ->
  exists2 e', path (on_lrate s) (on_iteration s) [seq sample X i | i <- iota 0 (len X)] e = Ok e' &
    on_est (on_fit s X (Some e) "inverse iteration").1 = Some e' /\
    on_iteration (on_fit s X (Some e) "inverse iteration").1 = (on_iteration s + len X)%N.
Proof.
rewrite /on_fit; have := set_est s (Some e); have := set_lrate s (Some e).
case: (set_estimate s (Some e)) => s1 [[]|x] //= [l1 i1] e1; rewrite e1; case: ifP => // _ ok.
have [e2 p2 [q1 [q2 _]]] := path_loop e1 ok; exists e2; first by rewrite -l1 -i1.
by rewrite q1 q2 size_iota i1.
Qed.
(* hence the prescribed steps lrate/1, lrate/2, ... when no call of fit was made before; calls of update and
   set_estimate do not matter *)
Theorem C45_first_fit_partial lrate l X e : (forall q, List.In q l -> if q is OFit _ _ _ then False else True) ->
  let s := on_execs (on_new E lrate) l in (on_fit s X (Some e) "inverse iteration").2 = Ok tt ->
  exists2 e', path lrate 0 [seq sample X i | i <- iota 0 (len X)] e = Ok e' & on_est (on_fit s X (Some e) "inverse iteration").1 = Some e'.
Proof.
move=> nf s ok; have [e' p [es _]] := C45_fit_path ok; exists e' => //.
suff [p1 p2] : on_lrate s = lrate /\ on_iteration s = 0%N by rewrite p1 p2 in p.
rewrite {p es ok}/s; have : on_lrate (on_new E lrate) = lrate /\ on_iteration (on_new E lrate) = 0%N by [].
elim: l (on_new E lrate) nf => [//|q l IH] s1 nf h /=; apply: IH; first by move=> q' qin; apply: nf; right.
have := nf q (or_introl erefl); case: q {nf} => [e1|X1 lr|//] /= _; first by have [-> ->] := set_lrate s1 e1.
by rewrite /update; case: (on_est s1) => // e1; case: (bindr _ _) => // e2; have [-> ->] := set_lrate s1 (Some e2).
Qed.

(* ------------------------------------------------------------------ C46 *)
Theorem C46_update_before_initialisation (s : online) X lr : on_est s = None -> update s X lr = (s, Ok tt).
Proof. by rewrite /update => ->. Qed.
(* Violated by fit without an initial point: it raises, and forgets the current estimate *)
Theorem C46_fit_without_init_refuted (s : online) X lr : estimatetocov = None ->
  (on_fit s X None lr).2 = Err ValueErr /\ on_est (on_fit s X None lr).1 = None.
Proof. by rewrite /on_fit /set_estimate /estimate_to_cov => ->. Qed.
(* with a function estimatetocov, it is called on None; the estimate is forgotten too *)
Theorem C46_fit_without_init_tocov (s : online) X lr f x : estimatetocov = Some f -> f None = Err x ->
  (on_fit s X None lr).2 = Err x /\ on_est (on_fit s X None lr).1 = None.
Proof. by rewrite /on_fit /set_estimate /estimate_to_cov => -> /= ->. Qed.

(* ------------------------------------------------------------------ C44: manifolds *)
(* P: the points, Q e: the tangent vectors at e *)
Variables (P : E -> Prop) (Q : E -> G -> Prop).
Hypotheses (retrP : forall e u e', P e -> Q e u -> retr e u = Ok e' -> P e').
Hypotheses (gradQ : forall X e g t, P e -> rgrad X e = Ok g -> Q e (scale t g)).
Definition starts_on (q : on_op E) := match q with
  | OSet (Some e) | OFit _ (Some e) _ => P e
  | _ => True end.
Definition on_manifold (s : online) := forall e, on_est s = Some e -> P e.
Lemma set_on (s : online) e : (forall e', e = Some e' -> P e') -> on_manifold (set_estimate s e).1.
Proof. by move=> h e'; rewrite set_est; exact: h. Qed.
Lemma update_on (s : online) X lr : on_manifold s -> on_manifold (update s X lr).1.
Proof.
rewrite /update => im; case es: (on_est s) => [e|] //.
case eg: (rgrad X e) => [g|x] //=; case er: (retr _ _) => [e'|x] //=.
apply: set_on => _ [<-]; apply: retrP er; first exact: im.
by apply: gradQ eg; exact: im.
Qed.
Lemma loop_on X lr l (s : online) : on_manifold s -> on_manifold (fit_loop s X lr l).1.
Proof.
elim: l s => [//|i l IH] s im /=; have := update_on (X := sample X i) (lr := lr) im.
by case: (update s (sample X i) lr) => s1 [[]|x] //= im1; apply: IH.
Qed.
(* calls that raise included *)
Theorem C44_stays_on_manifold lrate l : (forall q, List.In q l -> starts_on q) -> on_manifold (on_execs (on_new E lrate) l).
Proof.
have : on_manifold (on_new E lrate) by [].
elim: l (on_new E lrate) => [//|q l IH] s im hl /=; apply: IH; last by move=> q' h; apply: hl; right.
have := hl q (or_introl erefl); case: q {hl} => [e|X lr|X init lr] /= st; last first.
- rewrite /on_fit; have h : forall e, init = Some e -> P e by move=> e ei; move: st; rewrite ei.
  have := set_on (s := s) h; case: (set_estimate s init) => s1 [[]|x] //= im1.
  by case: (on_est s1) => // e; case: ifP => // _; exact: loop_on.
- exact: update_on.
by apply: set_on => e' ee; move: st; rewrite ee.
Qed.
End Online.

(* ------------------------------------------------------------------ Hermitian positive definite estimates *)
Section HPD.
Variable p : nat.
Local Notation M := 'M[complex_sf]_p.+1.
(* t*nabla; the manifold HermitianPositiveDefinite(p+1) *)
Definition hscale (t : R) (u : M) : M := @ofR complex_sf t *: u.
Definition hretr (x u : M) : res M := if x \in unitmx then Ok (hretr1 x u) else Err LinAlgErr.
Definition as_cplx (e : M) : arr := of_mx KCplx (e : 'M[C]_p.+1).
(* whatever the data, the learning rates, and the calls that raise *)
Theorem C44_positive_definite rgrad tocov pinvh lrate l :
  (forall X e g, pd e -> rgrad X e = Ok g -> herm g) ->
  (forall q, List.In q l -> starts_on (fun e : M => pd e) q) ->
  forall e, on_est (on_execs hretr rgrad hscale as_cplx tocov pinvh (on_new M lrate) l) = Some e -> pd e.
Proof.
move=> hg hl; apply: (C44_stays_on_manifold (P := fun e : M => pd e) (Q := fun _ u => herm u)) hl.
- move=> e u e' pe hu; rewrite /hretr; case: ifP => // _ [<-].
  exact: (@C48_retr_positive_definite complex_sf p.+1 1 (fun _ => e) (fun _ => u) (fun _ => pe) (fun _ => hu) 0).
by move=> X e g t pe /(hg _ _ _ pe) hh; rewrite /hscale /herm adjZ cj_ofR hh.
Qed.
(* and covariance_ is the estimate *)
Theorem C44_covariance_is_estimate rgrad pinvh lrate l :
  no_raise hretr rgrad hscale as_cplx None pinvh (on_new M lrate) l ->
  let s := on_execs hretr rgrad hscale as_cplx None pinvh (on_new M lrate) l in
  forall e, on_est s = Some e -> exists2 c, o_covariance (on_obj s) = Some c & same c (as_cplx e).
Proof.
move=> nr s e es; have im := C44_covariance_is_image_partial nr.
exact: (C44_complex_image (e := e) (a := as_cplx e) (p := p) im es).
Qed.

(* every estimate is accepted *)
Lemma set_cplx (s : online M) e pinvh : o_cls (on_obj s) = CEmp false -> (forall c, exists P, pinvh c = Ok P) ->
  (set_estimate (@as_cplx) None pinvh s (Some e)).2 = Ok tt.
Proof.
move=> cl hp; rewrite /set_estimate /=.
have hc : is_cplx (o_cls (on_obj s)) by rewrite cl.
by have [o' [c [-> _ _]]] := @C14_set_then_transform pinvh (on_obj s) (as_cplx e) p hc erefl erefl hp.
Qed.
Lemma fit_cplx rgrad pinvh (s : online M) X e lr : o_cls (on_obj s) = CEmp false -> (forall c, exists P, pinvh c = Ok P) ->
  (forall X e, pd e -> exists2 g, rgrad X e = Ok g & herm g) -> ndim X = 2%N -> pd e ->
  (on_fit hretr rgrad hscale as_cplx None pinvh s X (Some e) lr).2 = Ok tt.
Proof.
move=> cl hp hg nX pe; rewrite /on_fit; have := set_cplx e cl hp; have := set_est as_cplx None pinvh s (Some e).
have := set_obj_cls as_cplx None pinvh s (Some e).
case: (set_estimate _ _ _ _ _) => s1 r /= c1 e1 -> /=; rewrite e1 nX eqxx.
rewrite cl in c1; elim: (iota _ _) s1 e c1 e1 pe => [//|i l IH] s1 e c1 e1 pe /=.
rewrite /update e1; have [g -> hgg] /= := hg (sample X i) e pe; rewrite /hretr pd_unit //=; set e2 := hretr1 _ _.
have := set_cplx e2 c1 hp; have := set_est as_cplx None pinvh s1 (Some e2).
have := set_obj_cls as_cplx None pinvh s1 (Some e2).
case: (set_estimate _ _ _ _ _) => s2 r2 /= c2 e2s -> /=; apply: (IH _ e2) => //; first by rewrite c2.
apply: (@C48_retr_positive_definite complex_sf p.+1 1 (fun _ => e) (fun _ => _) (fun _ => pe) (fun _ => _) 0).
by rewrite /hscale /herm adjZR hgg.
Qed.
End HPD.

Lemma retr_scalar (K : starField) n (t : R) :
  hretr1 (1%:M : 'M[K]_n) (@ofR K t *: 1%:M) = (@ofR K (1 + t + 2%:R^-1 * (t * t)))%:M.
Proof.
rewrite /hretr1 /solve invmx1 mul1mx -!scalemxAl mul1mx !scalerA -[RHS]scalemx1 -{1}(scale1r 1%:M) -!scalerDl; congr (_ *: _).
by rewrite !rmorphD !rmorphM rmorph1 -halfR mulrA.
Qed.
(* C45, violated by a second fit: the counter goes on, so that fitting the same sample from the same initial
   point gives 5/2, then 13/8 (lrate = 1, constant gradient 1) *)
Definition ex_x : arr := of_mx KCplx (1%:M : 'M[C]_1).
Theorem C45_second_fit_refuted :
  let fit1 (s : online 'M[complex_sf]_1) := on_fit (@hretr 0) (fun _ _ => Ok 1%:M) (@hscale 0) (@as_cplx 0) None (@Ok arr) s ex_x (Some 1%:M) "inverse iteration" in
  let s1 := fit1 (on_new _ 1) in let s2 := fit1 s1.1 in
  [/\ s1.2 = Ok tt, s2.2 = Ok tt, on_est s1.1 = Some (@ofR complex_sf (5%:R / 2%:R))%:M & on_est s2.1 = Some (@ofR complex_sf (13%:R / 8%:R))%:M].
Proof.
have s52 : 1 + 1 / (0 + 1)%N%:R + 2%:R^-1 * ((1 / (0 + 1)%N%:R) * (1 / (0 + 1)%N%:R)) = 5%:R / 2%:R :> R by rewrite add0n; rfield.
have s138 : 1 + 1 / (1 + 1)%N%:R + 2%:R^-1 * ((1 / (1 + 1)%N%:R) * (1 / (1 + 1)%N%:R)) = 13%:R / 8%:R :> R by rewrite -[(1 + 1)%N]/2%N; rfield.
move=> fit1; have p1 : pd (1%:M : 'M[complex_sf]_1) by exact: pd1.
have hg (X : arr) (e : 'M[complex_sf]_1) : pd e -> exists2 g : 'M[complex_sf]_1, Ok 1%:M = Ok g & herm g by exists 1%:M => //; exact: pd_herm.
have F s : o_cls (on_obj s) = CEmp false -> (fit1 s).2 = Ok tt.
  by move=> cl; apply: (fit_cplx "inverse iteration" cl (fun c => ex_intro _ c erefl) hg _ p1).
have step i e' : path (@hretr 0) (fun _ _ => Ok 1%:M) (@hscale 0) 1 i [:: sample ex_x 0] 1%:M = Ok e' ->
    e' = (@ofR complex_sf (1 + 1 / (i + 1)%N%:R + 2%:R^-1 * ((1 / (i + 1)%N%:R) * (1 / (i + 1)%N%:R))))%:M.
  by rewrite /path /hretr unitmx1 /bindr /hscale retr_scalar => -[<-].
move=> s1 s2; have k1 : s1.2 = Ok tt by exact: F.
have k2 : s2.2 = Ok tt.
  apply: F; exact: (exec_cls (@hretr 0) (fun _ _ => Ok 1%:M) (@hscale 0) (@as_cplx 0) None (@Ok arr) (on_new _ 1) (OFit ex_x (Some 1%:M) "inverse iteration")).
have [e1 q1 [m1 i1]] := C45_fit_path k1; have [e2 q2 [m2 _]] := C45_fit_path k2.
have l1 : on_lrate s1.1 = 1 by rewrite /s1 /fit1 fit_lrate.
rewrite l1 i1 in q2.
have {}q1 : path (@hretr 0) (fun _ _ => Ok 1%:M) (@hscale 0) 1 0 [:: sample ex_x 0] 1%:M = Ok e1 by exact: q1.
have {}q2 : path (@hretr 0) (fun _ _ => Ok 1%:M) (@hscale 0) 1 1 [:: sample ex_x 0] 1%:M = Ok e2 by exact: q2.
split=> //; [rewrite m1 (step _ _ q1)|rewrite m2 (step _ _ q2)].
  by rewrite s52.
by rewrite s138.
Qed.

(* ------------------------------------------------------------------ examples and witnesses *)
(* C44: estimates are arrays.  A real 3x3 start after a complex 1x1 one: AttributeError is raised, the estimate
   is the real matrix and covariance_ is still the complex one. *)
Theorem C44_stale_witness_refuted G retr rgrad scale lrate :
  let ex := @on_exec arr G retr rgrad scale id None (@Ok arr) in
  let s1 := ex (on_new arr lrate) (OSet (Some ex_x)) in
  let s2 := ex s1.1 (OSet (Some (of_mx KReal (rmx (1%:M : 'M[R]_3))))) in
  [/\ s1.2 = Ok tt, s2.2 = Err AttributeErr, on_est s2.1 = Some (of_mx KReal (rmx (1%:M : 'M[R]_3))) &
     exists2 c, o_covariance (on_obj s2.1) = Some c & same c ex_x].
Proof.
move=> ex s1 s2; have [o' [c [es oc sc]]] := @C14_set_then_transform (@Ok arr) (on_obj (on_new arr lrate)) ex_x 0 isT erefl erefl (fun c => ex_intro _ c erefl).
have E1 : s1 = let: (o, r) := set_covariance (@Ok arr) (on_obj (on_new arr lrate)) ex_x in (Onl (Some ex_x) o lrate 0, r) by [].
rewrite es in E1; have k1 : s1.2 = Ok tt by rewrite E1.
have cl : o_cls (on_obj s1.1) = CEmp false by rewrite /s1 exec_cls.
have od := @C14_real_dtype_odd_refuted (CEmp false) 3 1%:M isT isT.
have [k2 [e2 c2]] := @C44_stale_covariance_refuted arr G retr rgrad scale id None (@Ok arr) s1.1 (of_mx KReal (rmx (1%:M : 'M[R]_3))) _ AttributeErr erefl cl od.
split=> //; exists c => //; rewrite c2 E1 /=.
by move: oc; rewrite /transform; case: (o_covariance o') => // a [->].
Qed.
(* C44: the start np.eye(2), of real dtype, is accepted and covariance_ is the 1x1 matrix 2 *)
Theorem C44_real_start_refuted G retr rgrad scale lrate :
  let s := @on_exec arr G retr rgrad scale id None (@Ok arr) (on_new arr lrate) (OSet (Some (of_mx KReal (rmx (1%:M : 'M[R]_2))))) in
  s.2 = Ok tt /\ exists c, [/\ o_covariance (on_obj s.1) = Some c, sh c = [:: 1%N; 1%N] & at_ c [:: 0%N; 0%N] = R2C 2%:R].
Proof.
move=> s; have [c [ec sc ac]] := @C14_identity_stored_as_2_refuted (CEmp false) isT.
have E1 : s = let: (o, r) := set_covariance (@Ok arr) (on_obj (on_new arr lrate)) (of_mx KReal (rmx (1%:M : 'M[R]_2))) in (Onl (Some (of_mx KReal (rmx (1%:M : 'M[R]_2)))) o lrate 0, r) by [].
rewrite E1 /set_covariance ec; by split=> //; exists c.
Qed.
(* C44: a history with two fits and an update, none of which raises *)
Theorem C44_ex (lrate : R) :
  no_raise (@hretr 1) (fun _ e => Ok e) (@hscale 1) (@as_cplx 1) None (@Ok arr) (on_new _ lrate)
    [:: OFit (of_mx KCplx (1%:M : 'M[C]_2)) (Some 1%:M) "constant"; OSet (Some 1%:M); OFit (of_mx KCplx (1%:M : 'M[C]_2)) (Some (2%:R *: 1%:M)) "inverse iteration"].
Proof.
have p1 : pd (1%:M : 'M[complex_sf]_2) by exact: pd1.
have p2 : pd (2%:R *: 1%:M : 'M[complex_sf]_2) by apply: pdZ => //; rewrite ltr0n.
have F s e lr : o_cls (on_obj s) = CEmp false -> pd e ->
    (on_fit (@hretr 1) (fun _ e => Ok e) (@hscale 1) (@as_cplx 1) None (@Ok arr) s (of_mx KCplx (1%:M : 'M[C]_2)) (Some e) lr).2 = Ok tt.
  by move=> cl pe; apply: fit_cplx => //; [move=> c; exists c|move=> X e1 /pd_herm h; exists e1].
have S s : o_cls (on_obj s) = CEmp false -> (set_estimate (@as_cplx 1) None (@Ok arr) s (Some 1%:M)).2 = Ok tt.
  by move=> cl; apply: set_cplx => // c; exists c.
split; first exact: F.
split; first by apply: S; rewrite exec_cls.
split=> //; apply: F => //; by rewrite !exec_cls.
Qed.

Print Assumptions C44_covariance_is_image_partial.
Print Assumptions C44_complex_image.
Print Assumptions C44_stale_covariance_refuted.
Print Assumptions C45_fit_path.
Print Assumptions C45_first_fit_partial.
Print Assumptions C46_update_before_initialisation.
Print Assumptions C46_fit_without_init_refuted.
Print Assumptions C46_fit_without_init_tocov.
Print Assumptions C44_stays_on_manifold.
Print Assumptions C44_positive_definite.
Print Assumptions C44_covariance_is_estimate.
Print Assumptions C45_second_fit_refuted.
Print Assumptions C44_stale_witness_refuted.
Print Assumptions C44_real_start_refuted.
Print Assumptions C44_ex.
