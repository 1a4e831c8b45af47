From mathcomp Require Import all_ssreflect.
From Coq Require Import ZArith.
From Verif Require Import Model_featurearray Spec_featurearray.
Set Implicit Arguments.
Unset Strict Implicit.
Unset Printing Implicit Defensive.

Section P.
Variable V : Type.
Variable zero : V.
Variable dty : eqType.
Notation heap := (heap V).
Notation nd := (nd dty).
Notation fa := (fa dty).
Notation ndata := (@ndata V zero dty).

Lemma prodnE s : prodn s = \prod_(d <- s) d.
Proof. by rewrite /prodn unlock /=. Qed.

Lemma nd_wfE (h : heap) (a : nd) :
  nd_wf h a = [&& nd_loc a < size h, size (nd_pos a) == prodn (nd_shape a)
    & all (fun p => p < size (nth [::] h (nd_loc a))) (nd_pos a)].
Proof. by rewrite /nd_wf prodnE. Qed.

Lemma size_ndata h a : size (ndata h a) = size (nd_pos a).
Proof. by rewrite size_map. Qed.

Lemma chunk_map (A B : Type) (f : A -> B) k j (xs : seq A) :
  chunk k j (map f xs) = map f (chunk k j xs).
Proof. by rewrite /chunk -map_drop -map_take. Qed.

Lemma take_take_drop (A : Type) a b (xs : seq A) : take a xs ++ take b (drop a xs) = take (a + b) xs.
Proof.
case: (leqP (size xs) a) => h.
  by rewrite take_oversize // drop_oversize //= cats0 take_oversize // (leq_trans h) // leq_addr.
rewrite takeD. done.
Qed.

Lemma flatten_chunks (A : Type) k m n (xs : seq A) :
  flatten [seq chunk k j xs | j <- iota m n] = take (n * k) (drop (m * k) xs).
Proof.
elim: n m => [|n IH] m; first by rewrite mul0n take0.
by rewrite [LHS]/= IH /chunk !mulSn -take_take_drop drop_drop.
Qed.

Lemma ndata_take_rows h (a : nd) js :
  ndata h (take_rows a js) = flatten [seq chunk (prodn (behead (nd_shape a))) j (ndata h a) | j <- js].
Proof.
rewrite /ndata /take_rows /= map_flatten -map_comp; congr flatten.
by apply: eq_map => j /=; rewrite chunk_map.
Qed.

Lemma ndata_row h (a : nd) j :
  ndata h (row_view a j) = chunk (prodn (behead (nd_shape a))) j (ndata h a).
Proof. by rewrite /ndata /row_view /= chunk_map. Qed.

Lemma ndata_newaxis h (a : nd) : ndata h (newaxis a) = ndata h a.
Proof. by []. Qed.

Lemma newaxis_wf (h : heap) (a : nd) : nd_wf h (newaxis a) = nd_wf h a.
Proof. by rewrite !nd_wfE /= mul1n. Qed.

Lemma wf_rows (h : heap) (a : nd) m n k s :
  nd_wf h a -> nd_shape a = k :: s -> m + n <= k ->
  nd_wf h (take_rows a (iota m n)) /\ size (nd_pos (take_rows a (iota m n))) = n * prodn s.
Proof.
rewrite !nd_wfE => /and3P[hl /eqP hs hp] es le.
rewrite /take_rows /= es /= flatten_chunks hl.
have e : size (take (n * prodn s) (drop (m * prodn s) (nd_pos a))) = n * prodn s.
  rewrite size_take size_drop hs es /=.
  have h0 : n <= k - m by rewrite leq_subRL // (leq_trans (leq_addr _ _) le).
  case: ltngtP => // h1; exfalso.
  by move: h1; rewrite -/(prodn s) -mulnBl ltnNge leq_mul2r h0 orbT.
rewrite e /prodn /= size_iota eqxx /=; split=> //.
apply/allP => p /mem_take/mem_drop; exact: (allP hp).
Qed.

(* ---- broadcasting to the same shape is the identity ---- *)
Lemma bcast_id s xs : size xs = prodn s -> bcast (V:=V) s s xs = xs.
Proof.
elim: s xs => [|d s IH] xs //= e.
rewrite eqxx.
transitivity (flatten [seq chunk (prodn s) j xs | j <- iota 0 d]).
  congr flatten; apply/eq_in_map => j; rewrite mem_iota /= add0n => hj.
  apply: IH; rewrite /chunk size_take size_drop e.
  have h0 : 0 < d - j by rewrite subn_gt0.
  case: ltngtP => // h1; exfalso; move: h1; rewrite -/(prodn s) -mulnBl ltnNge.
  by rewrite leq_pmull.
by rewrite flatten_chunks mul0n drop0 take_oversize // e.
Qed.

Lemma bcast_ok_refl s : bcast_ok s s.
Proof.
rewrite /bcast_ok eqxx /=.
by elim: s => //= d s ->; rewrite eqxx.
Qed.

(* ---- writing ---- *)
Lemma size_write_cells (buf : seq V) ps xs :
  all (fun p => p < size buf) ps -> size (write_cells zero buf ps xs) = size buf.
Proof.
elim: ps xs buf => [|p ps IH] [|x xs] buf //= /andP[hp hps].
have e : size (set_nth zero buf p x) = size buf by rewrite size_set_nth; apply/maxn_idPr.
by rewrite IH e.
Qed.

Lemma nth_write_other (buf : seq V) ps xs q :
  q \notin ps -> nth zero (write_cells zero buf ps xs) q = nth zero buf q.
Proof.
elim: ps xs buf => [|p ps IH] [|x xs] buf //=.
rewrite inE negb_or => /andP[hq hqs]; rewrite IH // nth_set_nth /=.
by rewrite (negbTE hq).
Qed.

Lemma read_write (buf : seq V) ps xs :
  uniq ps -> size xs = size ps ->
  [seq nth zero (write_cells zero buf ps xs) p | p <- ps] = xs.
Proof.
elim: ps xs buf => [|p ps IH] [|x xs] buf //= /andP[hp hu] [e].
rewrite nth_write_other // nth_set_nth /= eqxx; congr cons; exact: IH.
Qed.

(* ---- frames: what a step may change ---- *)
Record frame (h h' : heap) (l b : nat) : Prop := Frame {
  fr_size : size h <= size h';
  fr_sizes : forall i, i < size h -> size (nth [::] h' i) = size (nth [::] h i);
  fr_same : forall i p, i < size h -> i != l \/ p < b ->
            nth zero (nth [::] h' i) p = nth zero (nth [::] h i) p }.

Lemma frame_refl h l b : frame h h l b.
Proof. by split. Qed.

Definition safe (l b : nat) (v : nd) := (nd_loc v != l) || all (fun p => p < b) (nd_pos v).

Lemma frame_data h h' l b (v : nd) : frame h h' l b -> nd_wf h v -> safe l b v -> ndata h' v = ndata h v.
Proof.
case=> _ _ fs; rewrite nd_wfE => /and3P[hl _ _] sf.
apply/eq_in_map => p hp; apply: fs => //.
case/orP: sf => [->|/allP/(_ _ hp)]; [by left | by right].
Qed.

Lemma frame_wf h h' l b (v : nd) : frame h h' l b -> nd_wf h v -> nd_wf h' v.
Proof.
case=> sz szs _; rewrite !nd_wfE => /and3P[hl -> hp].
rewrite (leq_trans hl sz) szs //.
Qed.

Lemma frame_weaken h h' l b l' b' :
  frame h h' l b -> (l' = l /\ b' <= b) \/ l >= size h -> frame h h' l' b'.
Proof.
case=> f1 f2 f3 hh; split=> // i p hi hc; apply: f3 => //.
case: hh => [[e hb]|hl]; last by left; rewrite neq_ltn (leq_trans hi hl).
by case: hc => [|hp]; [rewrite e; left|right; exact: leq_trans hp hb].
Qed.

(* ---- growth ---- *)
Lemma grow_spec fuel pre need s h (a : nd) m :
  nd_wf h a -> nd_shape a = m :: s -> 0 < pre -> need <= fuel + m ->
  exists h' a' m', [/\ grow zero fuel pre need s h a = Ok (h', a'),
     nd_wf h' a', nd_shape a' = m' :: s /\ nd_dtype a' = nd_dtype a, need <= m' /\ m <= m' &
     frame h h' (size h) 0 /\ ((h' = h /\ a' = a) \/
       [/\ size h <= nd_loc a', nd_pos a' = iota 0 (m' * prodn s),
           size (nth [::] h' (nd_loc a')) = m' * prodn s, m < need &
           take (m * prodn s) (ndata h' a') = ndata h a])].
Proof.
elim: fuel h a m => [|fuel IH] h a m wf sh pp le.
  rewrite /= /ndlen sh /= ifT; last by rewrite add0n in le.
  exists h, a, m; split=> //.
  split; [exact: frame_refl | by left].
rewrite /= /ndlen sh /=; case: ifPn => [hle|]; last rewrite -ltnNge => hlt.
  exists h, a, m; split=> //; split; [exact: frame_refl | by left].
rewrite eqxx /=.
set data := ndata h a ++ _.
set a1 := Nd _ _ _ _.
have sd : size data = (m + pre) * prodn s.
  rewrite size_cat size_nseq size_ndata; move: wf; rewrite nd_wfE => /and3P[_ /eqP-> _].
  by rewrite sh /= mulnDl.
have wf1 : nd_wf (rcons h data) a1.
  rewrite nd_wfE /a1 /= size_rcons leqnn /= size_iota sd eqxx /=.
  apply/allP => p; rewrite mem_iota add0n /= nth_rcons ltnn eqxx sd //.
case: (IH (rcons h data) a1 (m + pre)) => //.
  by apply: leq_trans le _; rewrite addSn -addnS leq_add2l -addn1 leq_add2l.
move=> h' [a' [m' [e wf' [sh' dt'] [n1 n2] [fr hc]]]].
exists h', a', m'; split=> //.
  by split=> //; apply: leq_trans n2; rewrite leq_addr.
have fr0 : frame h (rcons h data) (size h) 0.
  split=> [|i hi|i p hi _]; first by rewrite size_rcons.
    by rewrite nth_rcons hi.
  by rewrite nth_rcons hi.
have fr2 : frame h h' (size h) 0.
  case: fr => f1 f2 f3; rewrite size_rcons in f1 f2 f3; split.
  - exact: ltnW f1.
  - by move=> i hi; rewrite (f2 i (ltnW hi)); case: fr0 => _ -> .
  - move=> i p hi _; rewrite (f3 i p (ltnW hi)); last by left; rewrite neq_ltn ltnS (ltnW hi).
    by case: fr0 => _ _ ->//; left; rewrite neq_ltn hi.
split=> //; right.
have dd : take (m * prodn s) data = ndata h a.
  rewrite /data take_size_cat // size_ndata.
  by move: wf; rewrite nd_wfE => /and3P[_ /eqP-> _]; rewrite sh.
have d1 : ndata (rcons h data) a1 = data.
  rewrite /ndata /a1 /= nth_rcons ltnn eqxx.
  apply: (@eq_from_nth _ zero); rewrite size_map size_iota // => i hi.
  by rewrite (nth_map 0) ?size_iota // nth_iota.
case: hc => [[e1 e2]|[l1 l2 l3 l4 l5]].
  subst h' a'; rewrite /a1 /= leqnn; split=> //.
  - by rewrite sd; case: sh' => <-.
  - by rewrite nth_rcons ltnn eqxx sd; case: sh' => <-.
  - by rewrite d1 dd.
split=> //.
- by rewrite size_rcons in l1; exact: ltnW l1.
- rewrite -dd -d1 -l5 take_take // leq_mul2r leq_addr orbT //.
Qed.

(* the while loop of append exits because its condition is false *)
Lemma grow_exits fuel pre need s h (a : nd) m h' a' :
  nd_wf h a -> nd_shape a = m :: s -> 0 < pre -> need <= fuel + m ->
  grow zero fuel pre need s h a = Ok (h', a') -> need <= ndlen a'.
Proof.
move=> wf sh pp le; case: (grow_spec wf sh pp le) => h1 [a1 [m1 [-> _ [sh1 _] [n1 _] _]]] [_ <-].
by rewrite /ndlen sh1.
Qed.

(* ---- one component ---- *)
(* memory after the items in use is not visible to anyone else *)
Definition owned (h : heap) (a : nd) (sz : nat) :=
  nd_pos a = iota 0 sz /\ size (nth [::] h (nd_loc a)) = sz.

Record comp_ok (h : heap) (len : nat) (s : seq nat) (a : nd) (P : seq nd) (L : seq nat) : Prop := CompOk {
  co_wf : nd_wf h a;
  co_m : exists m, [/\ nd_shape a = m :: s, len <= m &
      m = len \/ [/\ owned h a (m * prodn s), all (safe (nd_loc a) (len * prodn s)) P & nd_loc a \notin L]] }.

Definition first (h : heap) (a : nd) k := take k (ndata h a).


Lemma append_comp_spec pre len s (a d : nd) n h P L :
  0 < pre -> comp_ok h len s a P L -> brings s d n -> nd_wf h d -> nd_dtype d = nd_dtype a ->
  all (nd_wf h) P -> all (fun l => l < size h) L ->
  ndlen a == len \/ safe (nd_loc a) (len * prodn s) d ->
  exists h' a' d', [/\ append_comp zero pre len s (Some a) (ENd d) h = (h', Some a', Ok d'),
     ndlen d' = n, comp_ok h' (len + n) s a' P L /\ nd_dtype a' = nd_dtype a,
     first h' a' ((len + n) * prodn s) = first h a (len * prodn s) ++ ndata h d &
     frame h h' (if ndlen a == len then size h else nd_loc a) (len * prodn s)
     /\ (nd_loc a' = nd_loc a \/ size h <= nd_loc a')].
Proof.
move=> pp [wfa [m [sh lm own]]] br wfd dt wfP ltL sfd.
rewrite /append_comp; cbv zeta; rewrite dt eqxx [~~ true]/=; cbv iota.
set d1 := if size (nd_shape d) == size s then newaxis d else d.
have [sh1 wf1 dd1 ld1]: [/\ nd_shape d1 = n :: s, nd_wf h d1, ndata h d1 = ndata h d &
   nd_loc d1 = nd_loc d /\ nd_pos d1 = nd_pos d].
  rewrite /d1; case: br => [e|[-> e]]; rewrite e.
    by rewrite /= eqn_leq ltnn.
  by rewrite eqxx newaxis_wf /= e.
rewrite {1}sh1 [size (n :: s)]/= eqxx [~~ true]/=; cbv iota.
have lenn : ndlen d1 = n by rewrite /ndlen sh1.
have nda : ndlen a = m by rewrite /ndlen sh.
rewrite lenn.
case: (@grow_spec (len + n) pre (len + n) s h a m wfa sh pp (leq_addr _ _)) =>
  h1 [a1 [m1 [-> wfa1 [sha1 dta1] [need1 mm1] [fr hc]]]].
have [wft szt] := wf_rows wfa1 sha1 need1.
set t := take_rows _ _ in wft szt *.
have tsh : nd_shape t = n :: s by rewrite /t /= size_iota sha1.
have tps : nd_pos t = take (n * prodn s) (drop (len * prodn s) (nd_pos a1)).
  by rewrite /t /take_rows /= flatten_chunks sha1.
have tl : nd_loc t = nd_loc a1 by [].
have tda hh : ndata hh t = take (n * prodn s) (drop (len * prodn s) (ndata hh a1)).
  by rewrite /t ndata_take_rows flatten_chunks sha1.
clearbody t.
rewrite tsh sh1 bcast_ok_refl [~~ true]/=.
have fdd : ndata h1 d1 = ndata h d.
  rewrite (frame_data fr wf1) // /safe; case: ld1 => -> _.
  by move: wfd; rewrite nd_wfE neq_ltn => /andP[-> _].
have szd : size (ndata h d) = n * prodn s.
  by rewrite size_ndata; case: ld1 => _ <-; move: wf1; rewrite nd_wfE sh1 => /and3P[_ /eqP-> _].
rewrite fdd bcast_id; last by rewrite szd.
set h2 := write _ _ _ _ _.
exists h2, a1, d1.
have la1 : nd_loc a1 < size h1 by move: wfa1; rewrite nd_wfE => /andP[].
have pst : all (fun p => p < size (nth [::] h1 (nd_loc a1))) (nd_pos t).
  by move: wft; rewrite nd_wfE tl => /and3P[].
have sza1 : size (nd_pos a1) = m1 * prodn s.
  by move: wfa1; rewrite nd_wfE sha1 => /and3P[_ /eqP->].
have key : [/\ n = 0, m1 = len, h1 = h & a1 = a] \/
  [/\ owned h1 a1 (m1 * prodn s), all (safe (nd_loc a1) (len * prodn s)) P, nd_loc a1 \notin L &
      (ndlen a == len) = false \/ size h <= nd_loc a1].
  case: hc => [[e1 e2]|[g1 g2 g3 g4 g5]].
    subst h1 a1; have em : m1 = m by move: sha1; rewrite sh => -[].
    subst m1; case: own => [e|[o1 o2 o3]].
      by left; split=> //; move: need1; rewrite e -{2}[len]addn0 leq_add2l leqn0 => /eqP.
    case: (posnP n) => [n0|np]; last first.
      right; split=> //; left; apply/negbTE; rewrite nda neq_ltn; apply/orP; right.
      by apply: leq_trans need1; rewrite -addn1 leq_add2l.
    case: (ltngtP m len) lm => // h1 _; last by left; split.
    right; split=> //; left; rewrite nda; apply/negbTE; by rewrite neq_ltn h1 orbT.
  right; split=> //; last by right.
    by apply: sub_all wfP => v; rewrite nd_wfE => /andP[vl _]; rewrite /safe neq_ltn (leq_trans vl).
  by apply/negP => /(allP ltL) hh; move: (leq_trans hh g1); rewrite ltnn.
have kps : (nd_pos t = [::]) \/ (nd_pos t = iota (len * prodn s) (n * prodn s)).
  case: key => [[n0 _ _ _]|[[ps _] _ _ _]]; first by left; rewrite tps n0 mul0n take0.
  right; rewrite tps ps drop_iota take_iota add0n -mulnBl; congr iota; apply/minn_idPl.
  by rewrite leq_mul2r leq_subRL ?need1 ?orbT // (leq_trans (leq_addr n len)).
have fr2 : frame h1 h2 (nd_loc a1) (len * prodn s).
  have szz i : size (nth [::] h2 i) = size (nth [::] h1 i).
    rewrite /h2 /write nth_set_nth /=; case: eqP => [->|//].
    by rewrite size_write_cells.
  split=> [||i p hi hip]; rewrite ?szz //.
    by rewrite /h2 /write size_set_nth; apply: leq_maxr.
  rewrite /h2 /write nth_set_nth /=; case: eqP hip => [->|//] [/eqP//|hp].
  rewrite nth_write_other //; case: kps => [->//|->]; rewrite mem_iota.
  by rewrite leqNgt hp.
have wfa2 : nd_wf h2 a1 by apply: frame_wf fr2 wfa1.
have rd : ndata h2 t = ndata h d.
  rewrite /ndata tl /h2 /write nth_set_nth /= eqxx; apply: read_write.
    by case: kps => ->; rewrite ?iota_uniq.
  by rewrite szt.
split=> //.
- split=> //; split=> //; exists m1; split=> //.
  case: key => [[n0 e1 _ _]|[[o1 o2] o3 o4 _]]; first by left; rewrite n0 addn0.
  right; split=> //.
    by split=> //; rewrite (fr_sizes fr2).
  apply: sub_all o3 => v; rewrite /safe => /orP[->//|hp]; apply/orP; right.
  by apply: sub_all hp => p hp; apply: leq_trans hp _; rewrite leq_mul2r leq_addr orbT.
- rewrite /first mulnDl -take_take_drop -tda rd; congr cat.
  have -> : take (len * prodn s) (ndata h2 a1) = take (len * prodn s) (ndata h1 a1).
    rewrite /ndata -!map_take; apply/eq_in_map => p hp.
    rewrite /h2 /write nth_set_nth /= eqxx nth_write_other //.
    case: key => [[n0 _ _ _]|[[o1 _] _ _ _]].
      by case: kps => ->; rewrite ?n0.
    case: kps => [->//|->]; move: hp; rewrite o1 take_iota !mem_iota add0n => /andP[_ hp].
    by rewrite negb_and -ltnNge (leq_trans hp) // geq_minl.
  case: hc => [[-> ->]//|[_ _ _ _ <-]].
  by rewrite take_take // leq_mul2r lm orbT.
- split; last first.
    by case: hc => [[_ ->]|[g1 _ _ _ _]]; [left|right].
  split.
  - exact: leq_trans (fr_size fr) (fr_size fr2).
  - by move=> i hi; rewrite (fr_sizes fr2) ?(fr_sizes fr) // (leq_trans hi (fr_size fr)).
  - move=> i p hi hip.
    have s1 : nth zero (nth [::] h1 i) p = nth zero (nth [::] h i) p.
      by apply: (fr_same fr) => //; left; rewrite neq_ltn hi.
    rewrite -s1; case: key => [[n0 _ _ _]|[_ _ _ hcase]].
      by rewrite /h2 /write; case: kps => ->; rewrite ?n0 ?mul0n nth_set_nth /=; case: eqP => [->|].
    apply: (fr_same fr2); first exact: leq_trans hi (fr_size fr).
    case: hc => [[e1 e2]|[g1 _ _ _ _]]; last by left; rewrite neq_ltn (leq_trans hi g1).
    subst a1; case: hcase hip => [->//|hl]; by left; rewrite neq_ltn (leq_trans hi hl).
Qed.

(* ---- all components ---- *)
Fixpoint comps_ok (h : heap) (len : nat) (shapes : seq (seq nat)) (arrs P : seq nd) (L : seq nat) : Prop :=
  match shapes, arrs with
  | s :: shapes', a :: arrs' =>
      comp_ok h len s a P (L ++ map (@nd_loc dty) arrs') /\ comps_ok h len shapes' arrs' P (nd_loc a :: L)
  | [::], [::] => True
  | _, _ => False
  end.

Fixpoint prot (len : nat) (shapes : seq (seq nat)) (arrs : seq nd) (v : nd) : Prop :=
  match shapes, arrs with
  | s :: shapes', a :: arrs' =>
      (ndlen a == len \/ safe (nd_loc a) (len * prodn s) v) /\ prot len shapes' arrs' v
  | _, _ => True
  end.

Fixpoint brings_all (shapes : seq (seq nat)) (arrs ds : seq nd) (n : nat) : Prop :=
  match shapes, arrs, ds with
  | s :: shapes', a :: arrs', d :: ds' =>
      [/\ brings s d n, nd_dtype d = nd_dtype a & brings_all shapes' arrs' ds' n]
  | [::], [::], [::] => True
  | _, _, _ => False
  end.

Definition sizes_kept (h h' : heap) :=
  size h <= size h' /\ forall i, i < size h -> size (nth [::] h' i) = size (nth [::] h i).

Lemma sizes_wf (h h' : heap) (v : nd) : sizes_kept h h' -> nd_wf h v -> nd_wf h' v.
Proof.
case=> sz szs; rewrite !nd_wfE => /and3P[hl -> hp].
by rewrite (leq_trans hl sz) szs.
Qed.

Lemma frame_sizes h h' l b : frame h h' l b -> sizes_kept h h'.
Proof. by case. Qed.

Lemma sizes_trans h1 h2 h3 : sizes_kept h1 h2 -> sizes_kept h2 h3 -> sizes_kept h1 h3.
Proof.
move=> [a1 b1] [a2 b2]; split; first exact: leq_trans a1 a2.
by move=> i hi; rewrite b2 ?b1 // (leq_trans hi a1).
Qed.

Lemma comp_ok_kept h h' len s a P L L' :
  sizes_kept h h' -> comp_ok h len s a P L ->
  (nd_loc a \notin L -> nd_loc a \notin L') -> comp_ok h' len s a P L'.
Proof.
move=> sk [wf [m [sh le own]]] hL; split; first exact: sizes_wf sk wf.
exists m; split=> //; case: own => [->|[[o1 o2] o3 o4]]; first by left.
right; split=> //; last exact: hL.
split=> //; case: sk => _ ->//.
by move: wf; rewrite nd_wfE => /andP[].
Qed.

Lemma comps_ok_kept h h' len shapes arrs P L L' :
  sizes_kept h h' -> comps_ok h len shapes arrs P L ->
  all (fun a : nd => (nd_loc a \notin L) ==> (nd_loc a \notin L')) arrs ->
  comps_ok h' len shapes arrs P L'.
Proof.
move=> sk; elim: shapes arrs L L' => [|s shapes IH] [|a arrs] L L' //= [c1 c2] /andP[i1 i2].
split.
  apply: comp_ok_kept sk c1 _; rewrite !mem_cat !negb_or => /andP[x ->].
  by rewrite (implyP i1).
apply: IH c2 _.
apply: sub_all i2 => b /implyP hb; apply/implyP; rewrite !inE !negb_or => /andP[-> ]; exact: hb.
Qed.

Lemma comps_ok_wf h len shapes arrs P L : comps_ok h len shapes arrs P L -> all (nd_wf h) arrs.
Proof. by elim: shapes arrs L => [|s shapes IH] [|a arrs] L //= [[-> _] /IH]. Qed.

Lemma wf_loc (h : heap) (a : nd) : nd_wf h a -> nd_loc a < size h.
Proof. by rewrite nd_wfE => /andP[]. Qed.

(* arrays listed in L or in P are never written *)
Lemma comps_prot h len shapes arrs P L v :
  comps_ok h len shapes arrs P L ->
  (nd_loc v \in L \/ (forall q : pred nd, all q P -> q v)) -> prot len shapes arrs v.
Proof.
elim: shapes arrs L => [|s shapes IH] [|a arrs] L //= [[wf [m [sh le own]]] c2] hv.
split; last first.
  by apply: IH c2 _; case: hv => [h1|h1]; [left; rewrite inE h1 orbT | right].
case: own => [e|[_ o2 o3]]; first by left; rewrite /ndlen sh e.
right; case: hv => [h1|h1]; last exact: h1 o2.
rewrite /safe; apply/orP; left; apply: contra o3 => /eqP <-.
by rewrite mem_cat h1.
Qed.

Fixpoint contents (h : heap) (k : nat) (shapes : seq (seq nat)) (arrs : seq nd) : seq (seq V) :=
  match shapes, arrs with
  | s :: shapes', a :: arrs' => first h a (k * prodn s) :: contents h k shapes' arrs'
  | _, _ => [::]
  end.

Lemma contents_kept h h' k shapes arrs :
  (forall a, List.In a arrs -> ndata h' a = ndata h a) ->
  contents h' k shapes arrs = contents h k shapes arrs.
Proof.
elim: shapes arrs => [|s shapes IH] [|a arrs] //= hh.
rewrite /first hh; last by left.
by rewrite IH // => b hb; apply: hh; right.
Qed.

Lemma all_In (T : Type) (p : pred T) (l : seq T) x : all p l -> List.In x l -> p x.
Proof. by elim: l => //= y l IH /andP[py pl] [<-|/IH]//; apply. Qed.

Lemma all_In_intro (T : Type) (p : pred T) (l : seq T) : (forall x, List.In x l -> p x) -> all p l.
Proof.
elim: l => //= y l IH h; rewrite h /=; last by left.
by apply: IH => x hx; apply: h; right.
Qed.

Lemma comps_ok_addP h len shapes arrs P L v :
  comps_ok h len shapes arrs P L -> prot len shapes arrs v ->
  comps_ok h len shapes arrs (v :: P) L.
Proof.
elim: shapes arrs L => [|s shapes IH] [|a arrs] L //= [[wf [m [sh le own]]] c2] [p1 p2].
split; last exact: IH.
split=> //; exists m; split=> //.
case: own => [e|[o1 o2 o3]]; first by left.
case: p1 => [/eqP e|p1]; first by left; rewrite -e /ndlen sh.
by right; split=> //=; rewrite p1.
Qed.

Lemma In_map_loc (b : nd) (arrs : seq nd) : List.In b arrs -> nd_loc b \in map (@nd_loc dty) arrs.
Proof. by elim: arrs => //= x l IH [->|/IH]; rewrite inE ?eqxx // => ->; rewrite orbT. Qed.

Lemma In_zip_r (A B : Type) (x : A) (y : B) l1 l2 : List.In (x, y) (zip l1 l2) -> List.In y l2.
Proof. by elim: l1 l2 => [|a l1 IH] [|b l2] //= [[_ ->]|/IH]; auto. Qed.

#[local] Arguments append_comp : simpl never.
Lemma append_loop_spec pre len n shapes arrs ds h P L last :
  0 < pre -> comps_ok h len shapes arrs P L -> brings_all shapes arrs ds n ->
  all (nd_wf h) P -> all (fun l => l < size h) L ->
  (forall q : pred nd, all q P -> all q ds) ->
  exists h' arrs' d', [/\
     append_loop zero pre len shapes (map Some arrs) (map (@ENd dty) ds) h last = (h', map Some arrs', Ok d'),
     (if shapes is [::] then d' = last else exists2 d, d' = Some d & ndlen d = n),
     comps_ok h' (len + n) shapes arrs' P L /\ map (@nd_dtype dty) arrs' = map (@nd_dtype dty) arrs,
     contents h' (len + n) shapes arrs' =
       [seq xy.1 ++ xy.2 | xy <- zip (contents h len shapes arrs) (map (ndata h) ds)] &
     [/\ sizes_kept h h', (forall v, nd_wf h v -> prot len shapes arrs v -> ndata h' v = ndata h v) &
         all (fun a : nd => (nd_loc a \in map (@nd_loc dty) arrs) || (size h <= nd_loc a)) arrs']].
Proof.
move=> pp; elim: shapes arrs ds h P L last => [|s shapes IH] [|a arrs] [|d ds] h P L last //=.
  move=> _ _ _ _ _; exists h, [::], last; split=> //.
move=> [c1 c2] [br dt brs] wfP ltL subP.
have wfd : all (nd_wf h) (d :: ds) by exact: subP.
have wfas := comps_ok_wf c2.
have ltL' : all (fun l => l < size h) (L ++ map (@nd_loc dty) arrs).
  rewrite all_cat ltL /= all_map; apply: sub_all wfas => b; exact: wf_loc.
have sfd : ndlen a == len \/ safe (nd_loc a) (len * prodn s) d.
  case: c1 => wf [m [sh le [e|[_ o2 _]]]]; first by left; rewrite /ndlen sh e.
  by right; move: (subP _ o2) => /= /andP[].
have /andP[wfd1 _] := wfd.
have [h1 [a1 [d1 [e1 n1 [co1 dt1] ct1 [fr1 loc1]]]]] :=
  append_comp_spec pp c1 br wfd1 dt wfP ltL' sfd.
rewrite e1.
have sk1 := frame_sizes fr1.
have wfa : nd_wf h a by case: c1.
have wfa1 : nd_wf h1 a1 by case: co1.
have frL : forall b : nd, nd_wf h b -> nd_loc b != nd_loc a -> nd_loc b != nd_loc a1.
  move=> b wb hb; case: loc1 => [->//|hl]; by rewrite neq_ltn (leq_trans (wf_loc wb) hl).
have c2' : comps_ok h1 len shapes arrs P (nd_loc a1 :: L).
  apply: comps_ok_kept sk1 c2 _.
  apply: sub_all wfas => b wb; apply/implyP; rewrite !inE !negb_or => /andP[x ->].
  by rewrite frL.
have wfP1 : all (nd_wf h1) P by apply: sub_all wfP => v; apply: sizes_wf.
have ltL1 : all (fun l => l < size h1) (nd_loc a1 :: L).
  rewrite /= (wf_loc wfa1) /=; apply: sub_all ltL => l hl; apply: leq_trans hl _.
  by case: sk1.
have subP1 : forall q : pred nd, all q P -> all q ds by move=> q /subP /= /andP[].
(* data brought by ds is not affected by the first component *)
have keep1 v : nd_wf h v -> (ndlen a == len \/ safe (nd_loc a) (len * prodn s) v) -> ndata h1 v = ndata h v.
  move=> wv hv; apply: (frame_data fr1 wv).
  case: hv => [->|]; first by rewrite /safe neq_ltn (wf_loc wv).
  by case: eqP => // _ _; rewrite /safe neq_ltn (wf_loc wv).
have [h2 [arrs2 [d2 [e2 n2 [co2 dt2] ct2 [sk2 kp2 loc2]]]]] := IH arrs ds h1 P (nd_loc a1 :: L) (Some d1) c2' brs wfP1 ltL1 subP1.
rewrite e2; exists h2, (a1 :: arrs2), d2; split=> //.
- case: shapes IH c2 brs c2' e2 n2 co2 ct2 kp2 => [|s' shapes'] *; last by [].
  by exists d1.
- split; last by rewrite /= dt1 dt2.
  split; last first.
    by [].
  apply: comp_ok_kept sk2 co1 _; rewrite !mem_cat !negb_or => /andP[-> hx] /=.
  have : all (fun l => l != nd_loc a1) (map (@nd_loc dty) arrs2).
    rewrite all_map; apply: sub_all loc2 => b /= /orP[hb|hb].
      by apply: contra hx => /eqP <-.
    by rewrite neq_ltn (leq_trans (wf_loc wfa1) hb) orbT.
  by move/allP => hh; apply/negP => /hh; rewrite eqxx.
- rewrite /=; congr cons.
    rewrite -ct1 /first kp2 //; apply: (comps_prot c2'); left; by rewrite inE eqxx.
  rewrite ct2; congr (map _ (zip _ _)).
    apply: contents_kept => b hb; apply: keep1; first exact: all_In wfas hb.
    case: c1 => wf [m [sh le [e|[_ _ o3]]]]; first by left; rewrite /ndlen sh e.
    right; rewrite /safe; apply/orP; left.
    apply: contra o3 => /eqP <-; rewrite mem_cat; apply/orP; right.
    exact: In_map_loc.
  have hds : all (fun v => (ndlen a == len) || safe (nd_loc a) (len * prodn s) v) ds.
    apply: subP1; case: c1 => wf [m [sh le [e|[_ o2 _]]]].
      by rewrite /ndlen sh e eqxx /=; apply/all_In_intro.
    by apply: sub_all o2 => v ->; rewrite orbT.
  have wfds : all (nd_wf h) ds by case/andP: wfd.
  elim: (ds) hds wfds => //= v l IHl /andP[v1 v2] /andP[w1 w2]; rewrite IHl // keep1 //.
  by apply/orP.
- split.
  + exact: sizes_trans sk1 sk2.
  + move=> v wv [p1 p2]; rewrite kp2 ?keep1 //.
    exact: sizes_wf sk1 wv.
  + rewrite /= inE; apply/andP; split.
      by case: loc1 => [->|->]; rewrite ?eqxx ?orbT.
    apply: sub_all loc2 => b /orP[hb|hb]; first by rewrite inE hb orbT.
    by rewrite (leq_trans _ hb) ?orbT //; case: sk1.
Qed.

(* ---- export ---- *)
#[local] Arguments take_first : simpl never.
Definition ev (len : nat) (a : nd) : nd :=
  let v := take_first a len in if ndlen v == 1 then row_view v 0 else v.

Lemma mapr_export len (arrs : seq nd) : mapr (export_comp len) (map Some arrs) = Ok (map (ev len) arrs).
Proof. by elim: arrs => //= a arrs ->. Qed.

Lemma take_firstE (a : nd) len m s : nd_shape a = m :: s -> len <= m ->
  nd_shape (take_first a len) = len :: s /\ nd_pos (take_first a len) = take (len * prodn s) (nd_pos a).
Proof.
move=> sh le; rewrite /take_first /take_rows /= /ndlen sh /= (minn_idPl le) size_iota.
by rewrite flatten_chunks mul0n drop0.
Qed.

Lemma row_view_pos (a : nd) j : nd_pos (row_view a j) = chunk (prodn (behead (nd_shape a))) j (nd_pos a).
Proof. by []. Qed.
Lemma row_view_shape (a : nd) j : nd_shape (row_view a j) = behead (nd_shape a).
Proof. by []. Qed.

Lemma evE h len s (a : nd) P L : comp_ok h len s a P L ->
  [/\ nd_shape (ev len a) = expected_shape len s,
     nd_loc (ev len a) = nd_loc a /\ nd_dtype (ev len a) = nd_dtype a,
     ndata h (ev len a) = first h a (len * prodn s), nd_wf h (ev len a) &
     nd_pos (ev len a) = take (len * prodn s) (nd_pos a)].
Proof.
move=> [wf [m [sh le own]]].
have [e1 e2] := take_firstE sh le.
have wft : nd_wf h (take_first a len).
  rewrite /take_first /ndlen sh /= (minn_idPl le).
  by case: (wf_rows wf sh (_ : 0 + len <= m)).
have sz : size (nd_pos (take_first a len)) = len * prodn s.
  by move: wft; rewrite nd_wfE e1 => /and3P[_ /eqP->].
have e3 : ndata h (take_first a len) = first h a (len * prodn s).
  by rewrite /first /ndata -map_take e2.
have pe : nd_pos (ev len a) = take (len * prodn s) (nd_pos a).
  rewrite /ev /ndlen e1 [head _ _]/=; case: eqP => // l1.
  rewrite row_view_pos e1 [behead _]/= /chunk mul0n drop0 e2.
  by rewrite take_take // l1 mul1n.
rewrite /expected_shape; split=> //.
- by rewrite /ev /ndlen e1 [head _ _]/=; case: eqP => // _; rewrite row_view_shape e1.
- by split; rewrite /ev; case: ifP.
- rewrite -e3 /ndata pe -e2; congr map. 
  by rewrite /ev; case: ifP.
- rewrite nd_wfE pe /ev /ndlen e1 [head _ _]/=; case: eqP => l1; last first.
    by move: wft; rewrite nd_wfE e2.
  rewrite row_view_shape e1 [behead _]/=; move: wft; rewrite nd_wfE e1 e2 /= l1 mul1n.
  by [].
Qed.

Lemma comps_view_prot h len shapes arrs P L (v : nd) :
  comps_ok h len shapes arrs P L ->
  (exists a s, [/\ List.In a arrs /\ nd_loc v = nd_loc a, List.In (s, a) (zip shapes arrs) &
       nd_pos v = take (len * prodn s) (nd_pos a)]) ->
  prot len shapes arrs v.
Proof.
elim: shapes arrs L => [|s shapes IH] [|a arrs] L //= [[wf [m [sh le own]]] c2].
move=> [b [s' [[inb lv] inz pv]]].
case: inz => [[es ea]|inz].
  subst s' b; split; last by apply: (comps_prot c2); left; rewrite lv inE eqxx.
  case: own => [e|[[o1 _] o2 o3]]; first by left; rewrite /ndlen sh e.
  right; rewrite /safe; apply/orP; right; rewrite pv o1 take_iota.
  by apply/allP => p; rewrite mem_iota add0n /= => hp; apply: leq_trans hp _; apply: geq_minl.
have inb2 : List.In b arrs by exact: (In_zip_r inz).
split; last by apply: (IH _ _ c2); exists b, s'.
case: own => [e|[[o1 _] o2 o3]]; first by left; rewrite /ndlen sh e.
right; rewrite /safe; apply/orP; left; apply: contra o3 => /eqP <-; rewrite mem_cat lv.
by rewrite In_map_loc ?orbT.
Qed.

(* ---- first append ---- *)
Definition batch (s : seq nat) (d : nd) : nd := if size (nd_shape d) == size s then newaxis d else d.
Fixpoint batches (shapes : seq (seq nat)) (ds : seq nd) : seq nd :=
  match shapes, ds with s :: sh', d :: ds' => batch s d :: batches sh' ds' | _, _ => [::] end.

Lemma batchE h s (d : nd) n : brings s d n ->
  [/\ nd_shape (batch s d) = n :: s, nd_wf h d -> nd_wf h (batch s d),
     ndata h (batch s d) = ndata h d & nd_dtype (batch s d) = nd_dtype d].
Proof.
move=> br; rewrite /batch; case: br => [e|[-> e]]; rewrite e.
  by rewrite /= eqn_leq ltnn.
by rewrite eqxx newaxis_wf /= e.
Qed.

Lemma first_append_loop pre h shapes dts ds n last P L :
  typed shapes dts ds n -> all (nd_wf h) ds ->
  exists d', [/\ append_loop zero pre 0 shapes (nseq (size shapes) None) (map (@ENd dty) ds) h last
     = (h, map Some (batches shapes ds), Ok d'),
     (if shapes is [::] then d' = last else exists2 d, d' = Some d & ndlen d = n),
     comps_ok h n shapes (batches shapes ds) P L,
     map (@nd_dtype dty) (batches shapes ds) = dts &
     contents h n shapes (batches shapes ds) = map (ndata h) ds].
Proof.
elim: shapes dts ds last L => [|s shapes IH] [|t dts] [|d ds] last L //=.
  by move=> _ _; exists last.
move=> [br dt ty] /andP[wd wds].
have [sh1 wf1 dd1 dt1] := batchE h br.
rewrite /append_comp; cbv zeta; rewrite -/(batch s d).
rewrite {1}sh1 [size (n :: s)]/= eqxx [~~ true]/=; cbv iota.
have [d' [e1 e2 e3 e4 e5]] := IH dts ds (Some (batch s d)) (nd_loc (batch s d) :: L) ty wds.
exists d'; rewrite e1 e4 e5 dt1 dt; split=> //.
- case: (shapes) e2 => [->|//]; exists (batch s d) => //; by rewrite /ndlen sh1.
- split=> //; split; first exact: wf1.
  by exists n; split=> //; left.
- congr cons; rewrite /first -dd1 take_oversize // size_ndata.
  by move: (wf1 wd); rewrite nd_wfE sh1 => /and3P[_ /eqP-> _].
Qed.

(* ---- the invariant of a feature array used correctly ---- *)
Definition flat_log (k : nat) (log : seq (nat * seq (seq V))) : seq (seq V) :=
  [seq flatten [seq nth [::] b.2 i | b <- log] | i <- iota 0 k].

Record Inv (dts : seq dty) (w : world V dty) (log : seq (nat * seq (seq V))) : Prop := MkInv {
  inv_pre : 0 < fa_pre (w_fa w);
  inv_pool : all (nd_wf (w_heap w)) (w_pool w);
  inv_shapes : 0 < size (fa_shape (w_fa w));
  inv_len : fa_len (w_fa w) = total log;
  inv_arr :
    (log = [::] /\ (fa_array (w_fa w) = None \/ fa_array (w_fa w) = Some (nseq (size (fa_shape (w_fa w))) None)))
    \/ exists arrs, [/\ fa_array (w_fa w) = Some (map Some arrs),
         comps_ok (w_heap w) (fa_len (w_fa w)) (fa_shape (w_fa w)) arrs (w_pool w) [::],
         map (@nd_dtype dty) arrs = dts &
         contents (w_heap w) (fa_len (w_fa w)) (fa_shape (w_fa w)) arrs =
           flat_log (size (fa_shape (w_fa w))) log] }.

Lemma total_cat l1 l2 : total (V:=V) (l1 ++ l2) = total l1 + total l2.
Proof. by rewrite /total big_cat. Qed.

Lemma typed_brings shapes (arrs ds : seq nd) n :
  typed shapes (map (@nd_dtype dty) arrs) ds n -> size arrs = size shapes -> brings_all shapes arrs ds n.
Proof.
elim: shapes arrs ds => [|s shapes IH] [|a arrs] [|d ds] //= [br dt ty] [sz].
split=> //; exact: IH.
Qed.

Lemma comps_ok_size h len shapes (arrs P : seq nd) L : comps_ok h len shapes arrs P L -> size arrs = size shapes.
Proof. by elim: shapes arrs L => [|s shapes IH] [|a arrs] L //= [_ /IH ->]. Qed.

Lemma typed_size shapes dts (ds : seq nd) n : typed shapes dts ds n -> size ds = size shapes.
Proof. by elim: shapes dts ds => [|s shapes IH] [|t dts] [|d ds] //= [_ _ /IH ->]. Qed.

Lemma flat_log_rcons k log n ds :
  size ds = k ->
  [seq xy.1 ++ xy.2 | xy <- zip (flat_log k log) ds] = flat_log k (log ++ [:: (n, ds)]).
Proof.
move=> sz; rewrite /flat_log.
apply: (@eq_from_nth _ [::]); rewrite ?size_map ?size_zip ?size_map ?size_iota sz ?minnn // => i hi.
rewrite (nth_map ([::], [::])); last by rewrite size_zip size_map size_iota sz minnn.
rewrite nth_zip ?size_map ?size_iota //= !(nth_map 0) ?size_iota // nth_iota //.
by rewrite map_cat flatten_cat /= cats0 add0n.
Qed.


Lemma flat_log1 n (ds : seq (seq V)) : flat_log (size ds) [:: (n, ds)] = ds.
Proof.
rewrite /flat_log.
apply: (@eq_from_nth _ [::]); rewrite ?size_map ?size_iota // => i hi.
by rewrite (nth_map 0) ?size_iota // nth_iota //= cats0 add0n.
Qed.

Lemma append_ok dts h f pool log (ds : seq nd) n :
  Inv dts (W h f pool) log -> (forall d, List.In d ds -> List.In d pool) -> typed (fa_shape f) dts ds n ->
  exists h' f', [/\ append zero h f (DList [seq ENd d | d <- ds]) = (h', f', Ok tt),
    fa_shape f' = fa_shape f, Inv dts (W h' f' pool) (log ++ [:: (n, [seq ndata h d | d <- ds])]),
    sizes_kept h h' & forall v, List.In v pool -> ndata h' v = ndata h v].
Proof.
case=> /= pp wfP hs hl ha sub ty.
have wfds : all (nd_wf h) ds by apply: all_In_intro => d /sub; exact: all_In.
have szds : size [seq ndata h d | d <- ds] = size (fa_shape f) by rewrite size_map (typed_size ty).
case: ha => [[l0 fe]|[arrs [fe co dt ct]]].
  rewrite /append; cbv beta iota zeta; rewrite /nb_manifolds size_map (typed_size ty) eqxx [~~ true]/=; cbv iota.
  have -> : match fa_array f with Some x => x | None => nseq (size (fa_shape f)) None end = nseq (size (fa_shape f)) None.
    by case: fe => ->.
  have len0 : fa_len f = 0 by rewrite hl l0 /total big_nil.
  rewrite len0.
  have [d' [-> e2 e3 e4 e5]] := first_append_loop (fa_pre f) None pool [::] ty wfds.
  have [d -> nd] : exists2 d, d' = Some d & ndlen d = n.
    by move: e2; case: (fa_shape f) hs.
  rewrite nd add0n.
  exists h, (Fa (Some (map Some (batches (fa_shape f) ds))) (fa_shape f) (fa_pre f) n); split=> //.
  split=> //=; first by rewrite l0 /total big_cons big_nil addn0.
  right; exists (batches (fa_shape f) ds); split=> //.
  by rewrite e5 l0 cat0s -szds flat_log1.
have br : brings_all (fa_shape f) arrs ds n.
  by apply: typed_brings; [rewrite dt | exact: comps_ok_size co].
have subq : forall q : pred nd, all q pool -> all q ds.
  by move=> q hq; apply: all_In_intro => d /sub; exact: all_In.
have [h' [arrs' [d' [e1 e2 [e3 e4] e5 [e6 e7 e8]]]]] :=
  append_loop_spec None pp co br wfP (isT : all (fun l => l < size h) [::]) subq.
rewrite /append; cbv beta iota zeta; rewrite /nb_manifolds size_map (typed_size ty) eqxx [~~ true]/=; cbv iota.
rewrite fe e1.
have [d -> nd] : exists2 d, d' = Some d & ndlen d = n.
  by move: e2; case: (fa_shape f) hs.
rewrite nd; do 2 eexists; split; first by [].
- by [].
- split=> //=.
  + by apply: sub_all wfP => v; apply: sizes_wf.
  + by rewrite hl total_cat /total big_cons big_nil addn0.
  right; exists arrs'; split=> //; first by rewrite e4 dt.
  by rewrite e5 ct (flat_log_rcons _ n).
- by [].
- move=> v hv; apply: e7; first exact: all_In hv.
  by apply: (comps_prot co); right => q hq; apply: all_In hv.
Qed.

Lemma export_ok dts h f pool log x :
  Inv dts (W h f pool) log -> export f = Ok x ->
  exists arrs, [/\ fa_array f = Some (map Some arrs), views x = map (ev (fa_len f)) arrs &
    comps_ok h (fa_len f) (fa_shape f) arrs pool [::]].
Proof.
case=> /= pp wfP hs hl [[l0 fe]|[arrs [fe co dt ct]]].
  rewrite /export /nb_manifolds; case: (fa_shape f) hs fe => // s shapes _ fe.
  by case: fe => -> /=.
have sz := comps_ok_size co.
rewrite /export fe /nb_manifolds take_oversize ?size_map ?sz // mapr_export /= => e.
exists arrs; split=> //.
case: (arrs) e => [|a [|b l]] /=; [by case=> <-| |by case=> <-].
by case: ifP => _ [<-].
Qed.

Lemma observe_ok dts h f pool log :
  Inv dts (W h f pool) log -> 0 < size log ->
  observe zero h f = Some (expected (fa_shape f) log).
Proof.
move=> I hlog; case: (I) => /= pp wfP hs hl [[l0 fe]|[arrs [fe co dt ct]]]; first by rewrite l0 in hlog.
have sz := comps_ok_size co.
rewrite /observe /export fe /nb_manifolds take_oversize ?size_map ?sz // mapr_export.
have -> : shown zero h (bindr (Ok (map (ev (fa_len f)) arrs))
    (fun l => match l with [:: a] => if size (fa_shape f) == 1 then Ok (XNd a) else Ok (XList l) | _ => Ok (XList l) end))
   = Some [seq (nd_shape a, ndata h a) | a <- map (ev (fa_len f)) arrs].
  by case: (arrs) => [|a [|b l]] //=; case: ifP.
congr Some; rewrite /expected -hl.
have : [seq (nd_shape a, ndata h a) | a <- map (ev (fa_len f)) arrs] =
   zip (map (expected_shape (fa_len f)) (fa_shape f)) (contents h (fa_len f) (fa_shape f) arrs).
  elim: (fa_shape f) (arrs) ([::] : seq nat) co => [|s shapes IH] [|a l] L //= [c1 c2].
  have [e1 e2 e3 e4 e5] := evE c1.
  by rewrite e1 e3 (IH l _ c2).
move=> ->; rewrite ct /flat_log.
apply: (@eq_from_nth _ ([::], [::])); rewrite ?size_zip !size_map ?size_iota minnn // => i hi.
rewrite nth_zip ?size_map ?size_iota // !(nth_map 0) ?size_iota // (nth_map [::]) //.
by rewrite nth_iota.
Qed.

Lemma comps_ok_alloc h len shapes arrs P L dt sh (data : seq V) :
  comps_ok h len shapes arrs P L ->
  comps_ok (alloc h dt sh data).1 len shapes arrs ((alloc h dt sh data).2 :: P) L.
Proof.
move=> co; rewrite /alloc /=.
have sk : sizes_kept h (rcons h data).
  by split; [rewrite size_rcons | move=> i hi; rewrite nth_rcons hi].
apply: comps_ok_addP.
  by apply: comps_ok_kept sk co _; apply: all_In_intro => b _; rewrite implybb.
elim: shapes arrs L co => [|s shapes IH] [|a arrs] L //= [[wf _] c2]; split; last exact: IH c2.
by right; rewrite /safe /= neq_ltn (wf_loc wf) orbT.
Qed.

Lemma grow_comp_ok pre need len s (a : nd) h P L :
  0 < pre -> comp_ok h len s a P L -> all (nd_wf h) P -> all (fun l => l < size h) L ->
  exists h1 a1, [/\ grow zero need pre need s h a = Ok (h1, a1), comp_ok h1 len s a1 P L /\ nd_dtype a1 = nd_dtype a,
     first h1 a1 (len * prodn s) = first h a (len * prodn s), sizes_kept h h1 &
     forall v, nd_wf h v -> ndata h1 v = ndata h v].
Proof.
move=> pp [wfa [m [sh lm own]]] wfP ltL.
case: (@grow_spec need pre need s h a m wfa sh pp (leq_addr _ _)) =>
  h1 [a1 [m1 [e wfa1 [sha1 dta1] [need1 mm1] [fr hc]]]].
exists h1, a1; split=> //.
- split=> //; split=> //; exists m1; split=> //; first exact: leq_trans lm mm1.
  case: hc => [[e1 e2]|[g1 g2 g3 g4 g5]].
    subst h1 a1; have -> : m1 = m by move: sha1; rewrite sh => -[].
    exact: own.
  right; split=> //.
    by apply: sub_all wfP => v; rewrite nd_wfE => /andP[vl _]; rewrite /safe neq_ltn (leq_trans vl).
  by apply/negP => /(allP ltL) hh; move: (leq_trans hh g1); rewrite ltnn.
- rewrite /first; case: hc => [[-> ->]//|[_ _ _ _ <-]].
  by rewrite take_take // leq_mul2r lm orbT.
- exact: frame_sizes fr.
- move=> v wv; apply: (frame_data fr wv); rewrite /safe neq_ltn.
  by rewrite (wf_loc wv).
Qed.

Lemma reject_ok dts h f pool log (ds : seq (elt dty)) h' f' e :
  Inv dts (W h f pool) log -> size (fa_shape f) = 1 ->
  append zero h f (DList ds) = (h', f', Err e) ->
  [/\ fa_shape f' = fa_shape f, Inv dts (W h' f' pool) log,
    sizes_kept h h' & forall v, nd_wf h v -> ndata h' v = ndata h v].
Proof.
case: f => arr sh pre len I /= s1; case: (I) => /= pp wfP hs hl ha.
case: sh s1 I hs hl ha => [|s [|//]] // _ I _ hl ha.
rewrite /append; cbv beta iota zeta; rewrite /nb_manifolds /=.
have sk0 : sizes_kept h h by split.
set arrs := match arr with Some x => x | None => _ end.
have I1 : Inv dts (W h (Fa (Some arrs) [:: s] pre len) pool) log.
  split=> //=; case: ha => [[l0 fe]|[ar [fe co dt ct]]].
    by left; split=> //; right; rewrite /arrs; case: fe => ->.
  by right; exists ar; split=> //; rewrite /arrs fe.
case: ds => [|d [|d2 ds]] //=; [by case=> <- <- _ | | by case=> <- <- _].
have ar1 : (log = [::] /\ arrs = [:: None]) \/ exists a, [/\ arrs = [:: Some a],
   comp_ok h len s a pool [::], [:: nd_dtype a] = dts & [:: first h a (len * prodn s)] = flat_log 1 log].
  case: ha => [[l0 fe]|[ar [fe co dt ct]]].
    by left; split=> //; rewrite /arrs; case: fe => ->.
  right; case: ar fe co dt ct => [|a [|b l]] //= fe [c1 c2] dt ct; last by [].
  by exists a; split=> //; rewrite /arrs fe.
case: ar1 => [[l0 ea]|[a [ea co dt ct]]]; rewrite ea in I1 *.
  rewrite /append_comp; case: d => [d|]; last by case=> <- <- _.
  cbv zeta iota; case: ifP => _; first by case=> <- <- _.
  by [].
rewrite /append_comp; case: d => [d|]; last by case=> <- <- _.
cbv zeta iota; case: ifP => _; first by case=> <- <- _.
set d1 := (if size (nd_shape d) == size s then newaxis d else d).
case: ifP => _; first by case=> <- <- _.
have [h1 [a1 [-> [co1 dt1] ct1 sk1 kp1]]] := grow_comp_ok (len + ndlen d1) pp co wfP (isT : all (fun l => l < size h) [::]).
case: ifP => _ // [<- <- _]; split=> //; split=> //=.
  by apply: sub_all wfP => v; apply: sizes_wf.
right; exists [:: a1]; split=> //=; first by rewrite dt1.
by rewrite ct1.
Qed.

(* ---- histories ---- *)
Lemma step_ok dts w w' l log : step zero dts w w' l -> Inv dts w log ->
  [/\ Inv dts w' (log ++ l), fa_shape (w_fa w') = fa_shape (w_fa w),
      (forall v, List.In v (w_pool w) -> List.In v (w_pool w')) &
      forall v, List.In v (w_pool w) -> ndata (w_heap w') v = ndata (w_heap w) v].
Proof.
case=> {w w' l}.
- move=> h f pool dt sh data sz I; rewrite cats0.
  have sk : sizes_kept h (rcons h data).
    by split; [rewrite size_rcons | move=> i hi; rewrite nth_rcons hi].
  have kp : forall v : nd, nd_wf h v -> ndata (rcons h data) v = ndata h v.
    by move=> v wv; rewrite /ndata nth_rcons (wf_loc wv).
  case: (I) => /= pp wfP hs hl ha; split; [|by []|by move=> v hv; right|
    by move=> v hv; apply: kp; apply: all_In hv].
  split=> //=.
    apply/andP; split; last by apply: sub_all wfP => v; apply: sizes_wf.
    rewrite nd_wfE /= size_rcons leqnn size_iota sz prodnE eqxx /= nth_rcons ltnn eqxx.
    by apply/allP => p; rewrite mem_iota add0n sz.
  case: ha => [x|[arrs [fe co dt' ct]]]; [by left | right; exists arrs; split=> //].
    exact: (comps_ok_alloc dt sh data co).
  rewrite -ct; apply: contents_kept => a ha; apply: kp.
  by apply: all_In (comps_ok_wf co) ha.
- move=> h f pool ds n h' f' sub ty e I.
  have [h1 [f1 [e1 e2 e3 e4 e5]]] := append_ok I sub ty.
  by move: e1; rewrite e => -[e6 e7]; subst h1 f1; split.
- move=> h f pool ds h' f' e s1 sub ee I; rewrite cats0.
  have [e1 e2 e3 e4] := reject_ok I s1 ee; split=> //= v hv.
  by apply: e4; apply: all_In hv; case: I.
- move=> h f pool x ex I; rewrite cats0.
  have [arrs [fe vx co]] := export_ok I ex.
  split=> //=; last by move=> v hv; apply/List.in_or_app; right.
  case: (I) => /= pp wfP hs hl ha.
  have wfv : all (nd_wf h) (views x).
    rewrite vx; elim: (fa_shape f) (arrs) ([::] : seq nat) co => [|s shapes IH] [|a l] L //= [c1 c2].
    by have [e1 e2 e3 -> e5] := evE c1; apply: IH c2.
  split=> //=; first by rewrite all_cat wfv.
  case: ha => [[l0 fn]|[arrs' [fe' co' dt' ct]]]; first by rewrite fe in fn; left; split=> //; rewrite fe; case: fn => //; right.
  right; exists arrs'; split=> //.
  have ea : arrs' = arrs.
    by move: fe'; rewrite fe => -[]; elim: (arrs) (arrs') => [|a l IH] [|b l'] //= [-> /IH ->].
  subst arrs'.
  have pv : forall v, List.In v (views x) -> prot (fa_len f) (fa_shape f) arrs v.
    move=> v hv; apply: (comps_view_prot co).
    move: hv; rewrite vx; elim: (fa_shape f) (arrs) ([::] : seq nat) co => [|s shapes IH] [|a l] L //= [c1 c2].
    have [e1 [e2 _] e3 e4 e5] := evE c1.
    case=> [<-|hv]; first by exists a, s; split=> //; [split=> //; left | left].
    have [b [s' [[i1 i2] i3 i4]]] := IH l _ c2 hv.
    by exists b, s'; split=> //; [split=> //; right | right].
  elim: (views x) pv => //= v l IH pv; apply: comps_ok_addP.
    by apply: IH => u hu; apply: pv; right.
  by apply: pv; left.
Qed.

Lemma steps_ok dts w w' l log : steps zero dts w w' l -> Inv dts w log ->
  [/\ Inv dts w' (log ++ l), fa_shape (w_fa w') = fa_shape (w_fa w),
      (forall v, List.In v (w_pool w) -> List.In v (w_pool w')) &
      forall v, List.In v (w_pool w) -> ndata (w_heap w') v = ndata (w_heap w) v].
Proof.
move=> st; elim: st log => {w w' l} [w log I|w1 w2 w3 l1 l2 _ IH st log I].
  by rewrite cats0.
have [I2 sh2 p2 k2] := IH log I.
have [I3 sh3 p3 k3] := step_ok st I2.
rewrite catA; split=> //.
- by rewrite sh3.
- by move=> v /p2 /p3.
- by move=> v hv; rewrite k3 ?k2 //; exact: p2.
Qed.

Lemma Inv_init dts h shapes (pool : seq nd) :
  0 < size shapes -> all (nd_wf h) pool -> Inv dts (W h (fa_init dty shapes) pool) [::].
Proof.
move=> hs wfP; split=> //=; first by rewrite /total big_nil.
by left; split=> //; left.
Qed.
End P.
