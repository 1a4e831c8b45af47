(* Samples given to the online estimator at once, in blocks, or one by one: C117. *)
From Coq Require Import Reals String FunctionalExtensionality.
From mathcomp Require Import all_ssreflect all_algebra.
From mathcomp Require Import complex zify.
From Verif Require Import RealsMC RealTac RealTac2 Star StarInst FunCalc Model_featurearray Model_linalg Proofs_linalg Props_linalg NpArray Proofs_numpy
  Model_mappings Model_covariance Spec_covariance Model_estimators Model_scipy Model_probability Model_scores
  Model_sklearn Model_objects Proofs_objects Props_objects Model_manifolds Props_hpd Model_online Props_online.
Set Implicit Arguments.
Unset Strict Implicit.
Unset Printing Implicit Defensive.
Local Open Scope ring_scope.
Import GRing.Theory Num.Theory Order.TTheory.

(* ---------- specification: the rows of X, then those of Y ---------- *)
Definition stack_of (X Y Z : arr) := [/\ ndim X = 2%N, ndim Y = 2%N, kd Z = kd X /\ kd Z = kd Y,
  sh Z = [:: (len X + len Y)%N; nth 0%N (sh X) 1] /\ nth 0%N (sh Y) 1 = nth 0%N (sh X) 1 &
  (forall i j, (i < len X)%N -> at_ Z [:: i; j] = at_ X [:: i; j]) /\ (forall i j, at_ Z [:: (len X + i)%N; j] = at_ Y [:: i; j])].

Section Stream.
Variables (E G : Type) (retr : E -> G -> res E) (rgrad : arr -> E -> res G) (scale : R -> G -> G) (as_arr : E -> arr).
Variables (estimatetocov : option (option E -> res arr)) (pinvh : arr -> res arr).
Local Notation online := (online E).
Local Notation set_estimate := (@set_estimate E as_arr estimatetocov pinvh).
Local Notation update := (@update E G retr rgrad scale as_arr estimatetocov pinvh).
Local Notation fit_loop := (@fit_loop E G retr rgrad scale as_arr estimatetocov pinvh).
Local Notation on_fit := (@on_fit E G retr rgrad scale as_arr estimatetocov pinvh).
Local Notation on_exec := (@on_exec E G retr rgrad scale as_arr estimatetocov pinvh).
Local Notation on_execs := (@on_execs E G retr rgrad scale as_arr estimatetocov pinvh).

(* ---------- the loop, on the list of its samples ---------- *)
Fixpoint run (s : online) lr (xs : seq arr) : online * res unit := match xs with
  | [::] => (s, Ok tt)
  | x :: xs' => match update s x lr with
      | (s1, Err e) => (s1, Err e)
      | (s1, Ok _) => run (with_it s1 (on_iteration s1).+1) lr xs' end end.
Lemma loop_run s X lr l : fit_loop s X lr l = run s lr [seq sample X i | i <- l].
Proof. by elim: l s => [//|i l IH] s /=; case: (update _ _ _) => s1 [[]|e]. Qed.
Lemma run_cat s lr xs ys : run s lr (xs ++ ys) = match run s lr xs with (s1, Ok _) => run s1 lr ys | r => r end.
Proof. by elim: xs s => [//|x xs IH] s /=; case: (update _ _ _) => s1 [[]|e] //=. Qed.
Lemma stack_samples X Y Z : stack_of X Y Z ->
  [seq sample Z i | i <- iota 0 (len Z)] = [seq sample X i | i <- iota 0 (len X)] ++ [seq sample Y i | i <- iota 0 (len Y)].
Proof.
move=> [dX dY [kX kY] [sZ cY] [aX aY]].
have lZ : len Z = (len X + len Y)%N by rewrite /len sZ.
rewrite lZ iotaD add0n map_cat; congr (_ ++ _).
  apply/eq_in_map => i; rewrite mem_iota add0n => /andP[_ hi]; rewrite /sample sZ kX /=; congr Arr.
  by apply: functional_extensionality => idx; apply: aX.
rewrite -{1}[len X]addn0 iotaDl -map_comp; apply: eq_map => i /=; rewrite /sample sZ kY /= cY; congr Arr.
by apply: functional_extensionality => idx; apply: aY.
Qed.

(* setting again the estimate that was set changes nothing *)
Definition settled (s : online) := exists2 e, on_est s = Some e & set_estimate s (Some e) = (s, Ok tt).
Lemma set_cov_again o c : (set_covariance pinvh o c).2 = Ok tt -> set_covariance pinvh (set_covariance pinvh o c).1 c = set_covariance pinvh o c.
Proof.
case: o => cl a1 a2 a3 a4 sp a5 a6 a7 a8 a9 b1 b2; rewrite /set_covariance /=; case ec: (checked_cov _ _) => [c'|x] //=.
by case: sp => /=; [case ep: (pinvh c') => [P|x] //= _|move=> _]; rewrite /= ec //= ep.
Qed.
Lemma set_settled (s s1 : online) e : set_estimate s (Some e) = (s1, Ok tt) -> settled s1.
Proof.
move=> h; have es : on_est s1 = Some e by rewrite -(set_est as_arr estimatetocov pinvh s (Some e)) h.
exists e => //; move: h es; rewrite /set_estimate; case ec: (estimate_to_cov _ _ _) => [[c|]|x] //=.
have := @set_cov_again (on_obj s) c; case eo: (set_covariance _ _ _) => [o r] /= h [<- rok] _; subst r.
by rewrite /= (h erefl).
Qed.
Lemma it_settled (s : online) i : settled s -> settled (with_it s i).
Proof.
case=> e es h; exists e => //; move: h; rewrite /set_estimate; case: (estimate_to_cov _ _ _) => [[c|]|x] //=.
by case: s es => a o l k /= ->; case: (set_covariance _ _ _) => o' r [<- ->].
Qed.
Lemma run_settled s s1 lr xs : settled s -> run s lr xs = (s1, Ok tt) -> settled s1.
Proof.
elim: xs s => [|x xs IH] s st /=; first by case=> <-.
case eu: (update s x lr) => [s2 [[]|e]] //= h; apply: IH h; apply: it_settled.
move: eu; rewrite /update; case: st => e -> _; case: (bindr _ _) => [e'|e'] //; exact: set_settled.
Qed.
Lemma fit_settled s s1 X e lr : on_fit s X (Some e) lr = (s1, Ok tt) -> settled s1.
Proof.
rewrite /on_fit; case es: (set_estimate s (Some e)) => [s2 [[]|x]] //.
have st := set_settled es; case: (st) => e2 -> _; case: ifP => // _; rewrite loop_run; exact: run_settled.
Qed.

(* ------------------------------------------------------------------ C117 *)
(* In blocks: the whole state and the result are the same, calls that raise included. *)
Theorem C117_blocks (s : online) X Y Z e lr : stack_of X Y Z -> let r := on_fit s X (Some e) lr in
  match r with
  | (s1, Ok _) => exists2 e1, on_est s1 = Some e1 & on_fit s Z (Some e) lr = on_fit s1 Y (Some e1) lr
  | (s1, Err x) => on_fit s Z (Some e) lr = (s1, Err x) end.
Proof.
move=> sk r; case er: r => [s1 [[]|x]]; last first.
  move: er; rewrite /r /on_fit; case es: (set_estimate s (Some e)) => [s2 [[]|y]] //.
  have [e2 -> _] := set_settled es; have [nX nY kk [sZ cY] aa] := sk.
  rewrite nX eqxx /ndim sZ /= !loop_run (stack_samples sk) run_cat => ->; by [].
have [e1 e1s fix1] := fit_settled er; exists e1 => //.
rewrite /Model_online.on_fit fix1 e1s; move: er; rewrite /r /Model_online.on_fit; case es: (set_estimate s (Some e)) => [s2 [[]|y]] //.
have [e2 -> _] := set_settled es; have [nX nY kk [sZ cY] aa] := sk.
by rewrite nX nY !eqxx /ndim sZ /= !loop_run (stack_samples sk) run_cat => ->.
Qed.
(* hence the samples that follow do not matter for what is reached after the first ones *)
Corollary C117_causal (s s1 : online) X Y Y' Z Z' e lr : stack_of X Y Z -> stack_of X Y' Z' -> on_fit s X (Some e) lr = (s1, Ok tt) ->
  exists2 e1, on_est s1 = Some e1 & on_fit s Z (Some e) lr = on_fit s1 Y (Some e1) lr /\ on_fit s Z' (Some e) lr = on_fit s1 Y' (Some e1) lr.
Proof.
move=> k1 k2 es; have := C117_blocks s e lr k1; have := C117_blocks s e lr k2; rewrite /= es => -[e1 h1 h2] [e2 g1 g2].
by exists e1 => //; move: g1 g2; rewrite h1 => -[<-].
Qed.

(* One by one, with calls of update: the same when the step is constant, but for the counter. *)
Lemma update_with_it s i X lr : (lr =? "inverse iteration")%string = false ->
  update (with_it s i) X lr = (with_it (update s X lr).1 i, (update s X lr).2).
Proof.
move=> c; rewrite /update /current_lr c /=; case: (on_est s) => [e|] //; case: (bindr _ _) => [e'|x] //.
by rewrite /set_estimate; case: (estimate_to_cov _ _ _) => [[a|]|x] //=; case: (set_covariance _ _ _).
Qed.
Lemma update_it s X lr : on_iteration (update s X lr).1 = on_iteration s.
Proof. rewrite /update; case: (on_est s) => // e; case: (bindr _ _) => // e'; exact: (proj2 (set_lrate _ _ _ _ _)). Qed.
Lemma with_it_it (s : online) i j : with_it (with_it s i) j = with_it s j. Proof. by []. Qed.
Lemma with_it_id (s : online) : with_it s (on_iteration s) = s. Proof. by case: s. Qed.
Lemma run_execs s s1 lr xs : (lr =? "inverse iteration")%string = false -> run s lr xs = (s1, Ok tt) ->
  on_execs s [seq OUpdate x lr | x <- xs] = with_it s1 (on_iteration s).
Proof.
move=> c; elim: xs s => [|x xs IH] s /=; first by case=> <-; rewrite with_it_id.
case eu: (update s x lr) => [s2 [[]|e]] //= h; have i2 : on_iteration s2 = on_iteration s by rewrite -(update_it s x lr) eu.
have K : forall ys (a : online) i, on_execs (with_it a i) [seq OUpdate y lr | y <- ys] = with_it (on_execs a [seq OUpdate y lr | y <- ys]) i.
  by elim=> [//|y ys IHy] a i /=; rewrite /= update_with_it //= IHy.
have := IH _ h; rewrite K => /(congr1 (fun a => with_it a (on_iteration s))); rewrite !with_it_it => <-.
have e2 : forall ys (a : online), on_iteration (on_execs a [seq OUpdate y lr | y <- ys]) = on_iteration a.
  by elim=> [//|y ys IHy] a /=; rewrite IHy update_it.
by rewrite -i2 -(e2 xs s2) with_it_id.
Qed.
Theorem C117_one_by_one_partial (s s1 : online) X e lr : (lr =? "inverse iteration")%string = false -> on_fit s X (Some e) lr = (s1, Ok tt) ->
  on_execs s (OSet (Some e) :: [seq OUpdate (sample X i) lr | i <- iota 0 (len X)]) = with_it s1 (on_iteration s).
Proof.
move=> c; rewrite /on_fit /=; have := proj2 (set_lrate as_arr estimatetocov pinvh s (Some e)).
case es: (set_estimate s (Some e)) => [s2 [[]|x]] //=; have [e2 -> _] := set_settled es.
case: ifP => // _; rewrite loop_run => i2 /(run_execs c) h.
by rewrite -i2 -h -map_comp.
Qed.
(* update never advances the counter: all the steps are those of the first call *)
Fixpoint cpath (t : R) (xs : seq arr) (e : E) : res E := match xs with
  | [::] => Ok e
  | x :: xs' => bindr (bindr (rgrad x e) (fun g => retr e (scale t g))) (cpath t xs') end.
Theorem C117_update_schedule (s : online) e e' xs lr : on_est s = Some e -> cpath (current_lr s lr (on_iteration s)) xs e = Ok e' ->
  on_est (on_execs s [seq OUpdate x lr | x <- xs]) = Some e'.
Proof.
elim: xs s e => [|x xs IH] s e es /=; first by case=> <-.
rewrite /Model_online.update es; case: (bindr (rgrad x e) _) => [e1|y] //= h; apply: (IH _ e1); first exact: set_est.
by have [h1 h2] := set_lrate as_arr estimatetocov pinvh s (Some e1); rewrite /current_lr h1 h2.
Qed.
End Stream.

(* Violated one by one with the default schedule: two samples, lrate 1, constant gradient 1, from 1: fit gives 61/20, the
   two calls of update 37/10 *)
Definition two_samples : arr := Arr KCplx [:: 2%N; 1%N] (fun _ => 1).
Lemma retr_scalar2 (a t : R) : a != 0 ->
  hretr1 (@ofR complex_sf a)%:M (@ofR complex_sf t *: 1%:M) = (@ofR complex_sf (a + t + 2%:R^-1 * (t * t) / a))%:M :> 'M_1.
Proof.
move=> a0; have u : @ofR complex_sf a != 0 by rewrite fmorph_eq0.
rewrite /hretr1 /solve invmx_scalar scalemx1 -!scalar_mxM scale_scalar_mx -scalar_mxM -!raddfD /=; congr (_%:M).
by rewrite !rmorphD !rmorphM !fmorphV ofR_nat; congr (_ + _); rewrite !mulrA mulrAC.
Qed.
Theorem C117_one_by_one_refuted :
  let fit := on_fit (@hretr 0) (fun _ _ => Ok 1%:M) (@hscale 0) (@as_cplx 0) None (@Ok arr) (on_new _ 1) two_samples (Some 1%:M) "inverse iteration" in
  let calls := OSet (Some 1%:M) :: [seq OUpdate (sample two_samples i) "inverse iteration" | i <- iota 0 2] in
  [/\ fit.2 = Ok tt, no_raise (@hretr 0) (fun _ _ => Ok 1%:M) (@hscale 0) (@as_cplx 0) None (@Ok arr) (on_new _ 1) calls,
     on_est fit.1 = Some (@ofR complex_sf (61%:R / 20%:R))%:M &
     on_est (on_execs (@hretr 0) (fun _ _ => Ok 1%:M) (@hscale 0) (@as_cplx 0) None (@Ok arr) (on_new _ 1) calls) = Some (@ofR complex_sf (37%:R / 10%:R))%:M].
Proof.
have n1 : 1 + 1 + 2%:R^-1 * (1 * 1) / 1 = 5%:R / 2%:R :> R by rfield.
have n2 : 5%:R / 2%:R + 2%:R^-1 + 2%:R^-1 * (2%:R^-1 * 2%:R^-1) / (5%:R / 2%:R) = 61%:R / 20%:R :> R by rfield.
have n3 : 5%:R / 2%:R + 1 + 2%:R^-1 * (1 * 1) / (5%:R / 2%:R) = 37%:R / 10%:R :> R by rfield.
have h52 : 5%:R / 2%:R != 0 :> R by rewrite mulf_neq0 ?invr_eq0 ?pnatr_eq0.
have u52 : (@ofR complex_sf (5%:R / 2%:R))%:M \in (unitmx : {pred 'M[complex_sf]_1}).
  by rewrite unitmxE det_scalar1 unitfE fmorph_eq0.
have e1 : 1%:M = (@ofR complex_sf 1)%:M :> 'M[complex_sf]_1 by rewrite rmorph1.
have r1 : hretr (1%:M : 'M[complex_sf]_1) (hscale 1 1%:M) = Ok (@ofR complex_sf (5%:R / 2%:R))%:M.
  by rewrite /hretr unitmx1 /hscale [X in hretr1 X _]e1 retr_scalar2 ?oner_eq0 // n1.
move=> fit calls.
have ok : fit.2 = Ok tt.
  apply: fit_cplx => //; [by move=> c; exists c|move=> X e _; exists 1%:M => //; exact: pd_herm (pd1 _ _)|exact: pd1].
split=> //.
- have S1 := set_cplx (1%:M : 'M[complex_sf]_1) (erefl : o_cls (on_obj (on_new 'M[complex_sf]_1 1)) = CEmp false) (fun c => ex_intro _ c erefl).
  have U (s : online 'M[complex_sf]_1) e X : o_cls (on_obj s) = CEmp false -> on_est s = Some e -> e \in unitmx ->
      (on_exec (@hretr 0) (fun _ _ => Ok 1%:M) (@hscale 0) (@as_cplx 0) None (@Ok arr) s (OUpdate X "inverse iteration")).2 = Ok tt.
    by move=> cl es ue; rewrite /= /update es /= /hretr ue /=; apply: set_cplx => // c; exists c.
  have [l0 i0] := set_lrate (@as_cplx 0) None (@Ok arr) (on_new _ 1) (Some (1%:M : 'M[complex_sf]_1)).
  split; first exact: S1.
  split; first by apply: (U _ 1%:M); [exact: set_obj_cls|exact: set_est|exact: unitmx1].
  split=> //; apply: (U _ (@ofR complex_sf (5%:R / 2%:R))%:M) => //; first by rewrite !exec_cls.
  rewrite -[LHS]/(on_est (on_execs (@hretr 0) (fun _ _ => Ok 1%:M) (@hscale 0) (@as_cplx 0) None (@Ok arr) (set_estimate (@as_cplx 0) None (@Ok arr) (on_new _ 1) (Some 1%:M)).1 [seq OUpdate x "inverse iteration" | x <- [:: sample two_samples 0]])).
  by apply: (@C117_update_schedule _ _ _ _ _ _ _ _ _ 1%:M); [exact: set_est|rewrite /current_lr l0 i0 /= divr1 r1].
- have [e' q [m _]] := C45_fit_path ok; rewrite m; congr Some; move: q.
  rewrite /= divr1 r1 /= /hretr u52 /= retr_scalar2 // div1r n2 => -[] //.
have [l0 i0] := set_lrate (@as_cplx 0) None (@Ok arr) (on_new _ 1) (Some (1%:M : 'M[complex_sf]_1)).
rewrite -[LHS]/(on_est (on_execs (@hretr 0) (fun _ _ => Ok 1%:M) (@hscale 0) (@as_cplx 0) None (@Ok arr) (set_estimate (@as_cplx 0) None (@Ok arr) (on_new _ 1) (Some 1%:M)).1 [seq OUpdate x "inverse iteration" | x <- [:: sample two_samples 0; sample two_samples 1]])).
apply: (@C117_update_schedule _ _ _ _ _ _ _ _ _ 1%:M); first exact: set_est.
by rewrite /current_lr l0 i0 /= divr1 r1 /= /hretr u52 /= retr_scalar2 // n3.
Qed.

(* np.vstack: any two blocks with as many columns and the same dtype can be stacked *)
Theorem C117_stack_exists X Y : ndim X = 2%N -> ndim Y = 2%N -> kd X = kd Y -> nth 0%N (sh X) 1 = nth 0%N (sh Y) 1 ->
  exists Z, stack_of X Y Z.
Proof.
move=> nX nY k c; exists (Arr (kd X) [:: (len X + len Y)%N; nth 0%N (sh X) 1]
  (fun idx => if (head 0%N idx < len X)%N then at_ X idx else at_ Y ((head 0%N idx - len X)%N :: behead idx))).
by split=> //; split=> [i j hi|i j] /=; [rewrite hi|rewrite ltnNge leq_addr /= addKn].
Qed.
(* fit of two samples, in two blocks *)
Theorem C117_blocks_ex : let one := Arr KCplx [:: 1%N; 1%N] (fun _ => 1) in
  stack_of one one two_samples /\
  (on_fit (@hretr 0) (fun _ _ => Ok 1%:M) (@hscale 0) (@as_cplx 0) None (@Ok arr) (on_new _ 1) one (Some 1%:M) "inverse iteration").2 = Ok tt.
Proof.
split=> //; apply: fit_cplx => //; [by move=> c; exists c|move=> X e _; exists 1%:M => //; exact: pd_herm (pd1 _ _)|exact: pd1].
Qed.

Print Assumptions C117_blocks.
Print Assumptions C117_causal.
Print Assumptions C117_one_by_one_partial.
Print Assumptions C117_update_schedule.
Print Assumptions C117_one_by_one_refuted.
Print Assumptions C117_stack_exists.
Print Assumptions C117_blocks_ex.
