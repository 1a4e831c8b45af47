(* Theorems about FeaturesEstimation: C27. *)
From mathcomp Require Import all_ssreflect zify.
From Coq Require Import ZArith.
From Verif Require Import Model_featurearray Spec_featurearray Proofs_featurearray Proofs_fa2 Model_featest.
Set Implicit Arguments.
Unset Strict Implicit.
Unset Printing Implicit Defensive.

Section FE.
Variables (V : Type) (zero : V) (dty : eqType).
Notation heap := (heap V).
Notation nd := (nd dty).
Notation fa := (fa dty).
Notation aval := (aval V dty).
Notation ndata := (ndata zero).

(* an array value is consistent: as many entries as its shape says *)
Definition aval_ok (a : aval) := size (av_data a) = \prod_(d <- av_shape a) d.
(* the features of one trial: arrays of the given shapes and dtypes *)
Definition like shapes dts (l : seq aval) :=
  [/\ [seq av_shape a | a <- l] = shapes, [seq av_dtype a | a <- l] = dts & forall a, List.In a l -> aval_ok a].

Lemma wf_cat (h t : heap) (a : nd) : nd_wf h a -> nd_wf (h ++ t) a.
Proof.
rewrite !nd_wfE => /and3P [l -> p]; rewrite size_cat (leq_trans l) ?leq_addr //=.
by rewrite nth_cat l.
Qed.
Lemma ndata_cat (h t : heap) (a : nd) : nd_wf h a -> ndata (h ++ t) a = ndata h a.
Proof. by rewrite nd_wfE /ndata => /and3P [l _ _]; rewrite nth_cat l. Qed.
Lemma allocsE (h : heap) (l : seq aval) : (forall a, List.In a l -> aval_ok a) ->
  exists ds, [/\ allocs h l = (h ++ [seq av_data a | a <- l], ds), all (nd_wf (h ++ [seq av_data a | a <- l])) ds,
    [seq nd_shape d | d <- ds] = [seq av_shape a | a <- l], [seq nd_dtype d | d <- ds] = [seq av_dtype a | a <- l] &
    [seq ndata (h ++ [seq av_data a | a <- l]) d | d <- ds] = [seq av_data a | a <- l]].
Proof.
elim: l h => [|a l IH] h ok /=; first by exists [::]; rewrite cats0.
have [|ds [e w s t d]] := IH (rcons h (av_data a)); first by move=> b bl; apply: ok; right.
rewrite e; exists (Nd (size h) (av_dtype a) (av_shape a) (iota 0 (size (av_data a))) :: ds).
rewrite -cats1 -catA /= in w d; rewrite -cats1 -catA; split=> //=; rewrite ?s ?t ?d //.
  rewrite w andbT nd_wfE /= size_cat /= addnS ltnS leq_addr /= size_iota prodnE (ok a (or_introl erefl)) eqxx /=.
  rewrite nth_cat ltnn subnn /=; apply/allP => p; by rewrite mem_iota (ok a (or_introl erefl)).
congr cons; rewrite /ndata /= nth_cat ltnn subnn /=.
by apply: (@eq_from_nth _ zero); rewrite size_map size_iota // => i hi; rewrite (nth_map 0) ?size_iota // nth_iota.
Qed.

Lemma typed_self (ds : seq nd) : typed [seq nd_shape d | d <- ds] [seq nd_dtype d | d <- ds] ds 1.
Proof. by elim: ds => //= d ds IH; split=> //; right. Qed.
Lemma batches_self (ds : seq nd) : batches [seq nd_shape d | d <- ds] ds = [seq newaxis d | d <- ds].
Proof. by elim: ds => //= d ds ->; rewrite /batch eqxx. Qed.
(* the feature array made of the arrays ds, one item *)
Definition one (ds : seq nd) : fa := Fa (Some (map Some [seq newaxis d | d <- ds])) [seq nd_shape d | d <- ds] 1000 1.
Lemma append_one (h : heap) (ds : seq nd) : (0 < size ds) -> all (nd_wf h) ds ->
  append zero h (fa_init dty [seq nd_shape d | d <- ds]) (DList [seq ENd d | d <- ds]) = (h, one ds, Ok tt).
Proof.
move=> s0 wf; rewrite /append; cbv beta iota zeta.
rewrite /nb_manifolds [fa_shape _]/= [fa_pre _]/= [fa_len _]/= [fa_array _]/= !size_map eqxx [~~ true]/=; cbv iota.
have := first_append_loop zero 1000 None [::] [::] (typed_self ds) wf; rewrite size_map => -[d' [-> e2 _ _ _]].
have [d -> nd] : exists2 d, d' = Some d & ndlen d = 1 by move: e2; case: (ds) s0.
by rewrite nd batches_self.
Qed.
Lemma ev_newaxis (h : heap) (d : nd) : nd_wf h d -> ev 1 (newaxis d) = d.
Proof.
rewrite nd_wfE => /and3P [_ /eqP sz _]; rewrite /ev /take_first /take_rows /= /row_view /=.
have ck : chunk (prodn (nd_shape d)) 0 (nd_pos d) = nd_pos d by rewrite /chunk mul0n drop0 -sz take_size.
by rewrite cats0 !ck; case: (d).
Qed.
Lemma export_one (h : heap) (ds : seq nd) : all (nd_wf h) ds ->
  export (one ds) = Ok (if ds is [:: d] then XNd d else XList ds).
Proof.
move=> wf; rewrite /export /nb_manifolds; cbv beta iota zeta delta [one fa_array fa_shape fa_len].
rewrite take_oversize ?size_map // mapr_export.
have -> : [seq ev 1 a | a <- [seq newaxis d | d <- ds]] = ds.
  by elim: ds wf => //= d ds IH /andP [w /IH ->]; rewrite (ev_newaxis w).
by rewrite /=; case: ds {wf} => [|d [|e ds]].
Qed.
Lemma append_dfa (h : heap) (h0 : heap) (f : fa) (ds : seq nd) : all (nd_wf h0) ds ->
  append zero h f (DFA (one ds)) = append zero h f (DList [seq ENd d | d <- ds]).
Proof. by move=> wf; rewrite /append (export_one wf) /=; case: ds {wf} => [|d [|e ds]]. Qed.

(* merging one-item feature arrays made of arrays of the pool *)
Lemma merge_ok dts (dss : seq (seq nd)) h f pool log :
  Inv zero dts (W h f pool) log -> (forall ds d, List.In ds dss -> List.In d ds -> List.In d pool) ->
  (forall ds, List.In ds dss -> typed (fa_shape f) dts ds 1) ->
  exists h' f', [/\ merge zero h f [seq one ds | ds <- dss] = (h', Ok f'), fa_shape f' = fa_shape f &
    Inv zero dts (W h' f' pool) (log ++ [seq (1, [seq ndata h d | d <- ds]) | ds <- dss])].
Proof.
elim: dss h f log => [|ds dss IH] h f log I sub ty /=; first by exists h, f; rewrite cats0.
have wfd : all (nd_wf h) ds.
  by have [_ wp _ _ _] := I; apply: all_In_intro => d dd; apply: all_In wp _; apply: sub dd; left.
rewrite (append_dfa _ _ wfd).
have [||h1 [f1 [-> s1 I1 _ k1]]] := append_ok I _ (ty ds _); [by move=> d; apply: sub; left|by left|].
have [||h2 [f2 [-> s2 I2]]] := IH h1 f1 _ I1.
- by move=> es d es_in; apply: sub; right.
- by move=> es es_in; rewrite s1; apply: ty; right.
exists h2, f2; split=> //; first by rewrite s2 s1.
suff -> : [seq (1, [seq ndata h d | d <- es]) | es <- dss] = [seq (1, [seq ndata h1 d | d <- es]) | es <- dss] by rewrite -cat1s catA.
elim: (dss) sub => //= es rest IHr sub; congr cons.
  congr (1, _).
  have : forall d, List.In d es -> List.In d pool by move=> d; apply: sub; right; left.
  by elim: (es) => //= d es' IHe hs; rewrite IHe => [|e ein]; [rewrite k1 //; apply: hs; left|apply: hs; right].
by apply: IHr => es' d [e|e_in]; apply: sub; [left|right; right].
Qed.

Variables (S T : Type) (fit_transform : S -> T -> S * res (fval V dty)).
Local Notation transform := (transform zero fit_transform).
Local Notation estimates := (estimates zero fit_transform).

(* the values that fit_transform returns in the course of transform *)
Fixpoint values (workers : bool) (s : S) (X : seq T) : seq (res (fval V dty)) := match X with
  | [::] => [::]
  | x :: X' => (fit_transform s x).2 :: values workers (if workers then s else (fit_transform s x).1) X' end.

Lemma estimatesE workers s h X shapes dts ls : 0 < size shapes ->
  [seq bindr v (@farrays V dty) | v <- values workers s X] = [seq Ok l | l <- ls] ->
  (forall l, List.In l ls -> like shapes dts l) ->
  exists s' t dss, [/\ estimates workers s h X = (s', h ++ t, Ok [seq one ds | ds <- dss]),
    (forall ds, List.In ds dss -> [/\ all (nd_wf (h ++ t)) ds, [seq nd_shape d | d <- ds] = shapes & [seq nd_dtype d | d <- ds] = dts]) &
    [seq [seq ndata (h ++ t) d | d <- ds] | ds <- dss] = [seq [seq av_data a | a <- l] | l <- ls]].
Proof.
move=> s0; elim: X s h ls => [|x X IH] s h ls /=.
  by case: ls => // _ _; exists s, [::], [::]; rewrite cats0.
case: ls => [//|l ls]; case ef: (fit_transform s x) => [s1 r] /= [].
case: r ef => [f|e] ef //= ea ev lk; have [sh dt ok] := lk l (or_introl erefl).
have [ds [e1 w1 sh1 dt1 d1]] := allocsE h ok.
have dsz : 0 < size ds by rewrite -(size_map (@nd_shape dty)) sh1 sh.
rewrite /wrap ea e1 (append_one dsz w1) /=.
have [|s' [t [dss [e2 w2 d2]]]] := IH (if workers then s else s1) (h ++ [seq av_data a | a <- l]) ls ev; first by move=> l' l'in; apply: lk; right.
rewrite e2; exists s', ([seq av_data a | a <- l] ++ t), (ds :: dss); rewrite catA; split=> //=.
- move=> es [<-|/w2 //]; split; rewrite ?sh1 ?dt1 //.
  by apply: sub_all w1 => d; exact: wf_cat.
- congr cons; last exact: d2.
  rewrite -[RHS]d1; move: (h ++ _) w1 => h1; elim: (ds) => //= d ds' IHd /andP [wd /IHd ->]; by rewrite ndata_cat.
Qed.

(* One item per trial, item i being the features estimated on trial i (expected: the entries of each
   component, concatenated in the order of the trials), for any number of trials. *)
Theorem C27_one_item_per_trial workers s h X shapes dts ls : 0 < size shapes -> 0 < size X ->
  [seq bindr v (@farrays V dty) | v <- values workers s X] = [seq Ok l | l <- ls] ->
  (forall l, List.In l ls -> like shapes dts l) ->
  exists s' h' f, [/\ transform workers s h X = (s', h', Ok f), fa_len f = size X &
    observe zero h' f = Some (expected shapes [seq (1, [seq av_data a | a <- l]) | l <- ls])].
Proof.
move=> s0 X0 ev lk; have [s' [t [dss [e w d]]]] := estimatesE h s0 ev lk.
have szX : size ls = size X.
  by rewrite -(size_map (@Ok _) ls) -ev size_map; elim: (X) (s) => //= x X' IH s1; rewrite IH.
have szd : size dss = size ls by rewrite -(size_map (fun ds => [seq ndata (h ++ t) d0 | d0 <- ds])) d size_map.
rewrite /transform e; case: dss e w d szd => [|ds dss] e w d szd; first by rewrite -szX -szd in X0.
have [w1 sh1 dt1] := w ds (or_introl erefl).
rewrite [map _ _]/=; cbv iota.
have wp : all (nd_wf (h ++ t)) (flatten (ds :: dss)).
  apply: all_In_intro => v; elim: (ds :: dss) w => [//|es ess IH] w; rewrite [flatten _]/= => /List.in_app_iff [vi|vi].
    by have [we _ _] := w es (or_introl erefl); exact: all_In vi.
  by apply: IH => // es' ein; apply: w; right.
have sub es v : List.In es (ds :: dss) -> List.In v es -> List.In v (flatten (ds :: dss)).
  by elim: (ds :: dss) => //= es' ess IH [->|ein] vin; apply/List.in_app_iff; [left|right; exact: IH].
have I0 := Inv_init zero dts s0 wp.
have ty es : List.In es (ds :: dss) -> typed shapes dts es 1 by move=> /w [_ <- <-]; exact: typed_self.
have [h1 [f1 [e1 fs1 I1 _ _]]] := append_ok I0 (fun v => sub ds v (or_introl erefl)) (ty ds (or_introl erefl)).
have dsz : 0 < size ds by rewrite -(size_map (@nd_shape dty)) sh1.
move: e1; rewrite -{1}sh1 (append_one dsz w1) => -[? ?]; subst h1 f1.
have [||h2 [f2 [-> fs2 I2]]] := merge_ok (dss := dss) I1.
- by move=> es v ein; apply: sub; right.
- by move=> es ein; rewrite fs1; apply: ty; right.
exists s', h2, f2; split=> //.
  have [_ _ _ -> _] := I2; rewrite total_cat /total !big_cons big_nil /= big_map /= addn0 sum1_size -szX -szd /=.
  by rewrite ?addn0 ?add1n.
have fsh : fa_shape f2 = shapes by rewrite fs2 fs1.
rewrite (observe_ok I2); last by rewrite size_cat.
rewrite fsh; congr (Some (expected _ _)); rewrite cat0s -cat1s.
have -> : [seq (1, [seq av_data a | a <- l]) | l <- ls] = [seq (1, x) | x <- [seq [seq av_data a | a <- l] | l <- ls]] by rewrite -map_comp.
by rewrite -d -map_comp.
Qed.

(* an estimator whose answer depends on the trial only: any n_jobs *)
Theorem C27_any_n_jobs workers s h X shapes dts F : 0 < size shapes -> 0 < size X ->
  (forall s x, exists2 v, (fit_transform s x).2 = Ok v & farrays v = Ok (F x)) ->
  (forall x, List.In x X -> like shapes dts (F x)) ->
  exists s' h' f, [/\ transform workers s h X = (s', h', Ok f), fa_len f = size X &
    observe zero h' f = Some (expected shapes [seq (1, [seq av_data a | a <- F x]) | x <- X])].
Proof.
move=> s0 X0 ft lk.
have [|l|s' [h' [f [e1 e2 e3]]]] := @C27_one_item_per_trial workers s h X shapes dts [seq F x | x <- X] s0 X0.
- by elim: (X) (s) => //= x X' IH s1; rewrite IH; have [v -> /= ->] := ft s1 x.
- elim: (X) lk => //= x X' IH lk [<-|]; first by apply: lk; left.
  by apply: IH => y yin; apply: lk; right.
by exists s', h', f; split=> //; rewrite e3 -map_comp.
Qed.
Theorem C27_no_trial workers s h : transform workers s h [::] = (s, h, Err IndexErr).
Proof. by []. Qed.
End FE.

(* the hypotheses are met: any number of trials (beyond the preallocation size) with features of two arrays *)
Theorem C27_ex workers n : let ft := fun (_ : unit) x => (tt, Ok (FSeq [:: @Aval nat nat_eqType 0 [:: 2] [:: x; x.+1]; @Aval nat nat_eqType 0 [::] [:: x]])) in
  exists s h f, [/\ transform 0 ft workers tt [::] (iota 0 n.+1) = (s, h, Ok f), fa_len f = n.+1 &
    observe 0 h f = Some (expected [:: [:: 2]; [::]] [seq (1, [:: [:: x; x.+1]; [:: x]]) | x <- iota 0 n.+1])].
Proof.
move=> ft; have sz : 0 < size (iota 0 n.+1) by [].
move: (iota 0 n.+1) (size_iota 0 n.+1) sz => X <- X0.
apply: (@C27_any_n_jobs nat 0 nat_eqType unit nat ft workers tt [::] X [:: [:: 2]; [::]] [:: 0; 0]
  (fun x => [:: @Aval nat nat_eqType 0 [:: 2] [:: x; x.+1]; @Aval nat nat_eqType 0 [::] [:: x]])) => // [s x|x _]; first by eexists.
by split=> // a /= [<-|[<-|//]]; rewrite /aval_ok /= ?big_cons big_nil.
Qed.

Print Assumptions C27_one_item_per_trial.
Print Assumptions C27_any_n_jobs.
Print Assumptions C27_no_trial.
Print Assumptions C27_ex.
