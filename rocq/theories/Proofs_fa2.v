From mathcomp Require Import all_ssreflect.
From Coq Require Import ZArith Lia.
From Verif Require Import Model_featurearray Spec_featurearray Proofs_featurearray.
Set Implicit Arguments.
Unset Strict Implicit.
Unset Printing Implicit Defensive.

Lemma zrange_pos fuel a b st : (0 < st)%Z -> (0 <= a)%Z -> (b - a <= Z.of_nat fuel)%Z ->
  forall t, (t < size (zrange fuel a b st)) = (a + Z.of_nat t * st <? b)%Z
   /\ (t < size (zrange fuel a b st) -> Z.of_nat (nth 0 (zrange fuel a b st) t) = (a + Z.of_nat t * st)%Z).
Proof.
move=> sp; elim: fuel a => [|k IH] a ha hb t.
  rewrite /=; split=> //; symmetry; apply/Z.ltb_nlt; nia.
rewrite /= (proj2 (Z.ltb_lt 0 st) sp); case: (Z.ltb_spec a b) => hab; last first.
  rewrite /=; split=> //; symmetry; apply/Z.ltb_nlt; nia.
have := IH (a + st)%Z ltac:(lia) ltac:(lia).
case: t => [|t] IHt.
  split=> /=; last by move=> _; rewrite Z2Nat.id //; lia.
  symmetry; apply/Z.ltb_lt; lia.
have [e1 e2] := IHt t; split.
  by rewrite ltnS e1 (_ : (a + st + Z.of_nat t * st)%Z = (a + Z.of_nat t.+1 * st)%Z) //; lia.
rewrite ltnS => /e2 h2; rewrite [nth _ _ _]/= h2; lia.
Qed.

Lemma zrange_neg fuel a b st : (st < 0)%Z -> (-1 <= b)%Z -> (a - b <= Z.of_nat fuel)%Z ->
  forall t, (t < size (zrange fuel a b st)) = (b <? a + Z.of_nat t * st)%Z
   /\ (t < size (zrange fuel a b st) -> Z.of_nat (nth 0 (zrange fuel a b st) t) = (a + Z.of_nat t * st)%Z).
Proof.
move=> sp bb; elim: fuel a => [|k IH] a hb t.
  rewrite /=; split=> //; symmetry; apply/Z.ltb_nlt; nia.
have nb : (0 <? st)%Z = false by apply/Z.ltb_nlt; lia.
rewrite /= nb; case: (Z.ltb_spec b a) => hab; last first.
  rewrite /=; split=> //; symmetry; apply/Z.ltb_nlt; nia.
have := IH (a + st)%Z ltac:(lia).
case: t => [|t] IHt.
  split=> /=; last by move=> _; rewrite Z2Nat.id //; lia.
  symmetry; apply/Z.ltb_lt; lia.
have [e1 e2] := IHt t; split.
  by rewrite ltnS e1 (_ : (a + st + Z.of_nat t * st)%Z = (a + Z.of_nat t.+1 * st)%Z) //; lia.
rewrite ltnS => /e2 h2; rewrite [nth _ _ _]/= h2; lia.
Qed.

Lemma slice_bounds_spec n b e st :
  slice_bounds n b e st = (slice_first n b st, slice_bound n e st).
Proof.
rewrite /slice_bounds /slice_first /slice_bound /adjust /from_end /clamp.
case: (Z.ltb_spec 0 st) => h0; congr pair.
all: try (case: b => // v).
all: try (case: e => // v).
all: case: (Z.ltb_spec v 0) => h1; do !case: Z.ltb_spec => ?; lia.
Qed.

Lemma slice_rows_spec n b e st : st <> 0%Z -> is_slice n b e st (slice_rows n b e st).
Proof.
move=> st0 t; rewrite /slice_rows slice_bounds_spec.
case: (Z.ltb_spec 0 st) => h0.
  have hf : (0 <= slice_first n b st)%Z.
    rewrite /slice_first (proj2 (Z.ltb_lt 0 st) h0) /clamp; case: b => [v|]; lia.
  have hb : (slice_bound n e st <= Z.of_nat n)%Z.
    rewrite /slice_bound (proj2 (Z.ltb_lt 0 st) h0) /clamp; case: e => [v|]; lia.
  have [e1 e2] := @zrange_pos n (slice_first n b st) (slice_bound n e st) st h0 hf ltac:(lia) t.
  split=> // ht; split; first exact: e2.
  apply/ltP; have := e2 ht; move: ht; rewrite e1 => /Z.ltb_lt; lia.
have nb : (0 <? st)%Z = false by apply/Z.ltb_nlt; lia.
have hf : (slice_first n b st <= Z.of_nat n - 1)%Z.
  rewrite /slice_first nb /clamp; case: b => [v|]; lia.
have hb : (-1 <= slice_bound n e st)%Z.
  rewrite /slice_bound nb /clamp; case: e => [v|]; lia.
have [e1 e2] := @zrange_neg n (slice_first n b st) (slice_bound n e st) st ltac:(lia) hb ltac:(lia) t.
split=> // ht; split; first exact: e2.
apply/ltP; have := e2 ht; nia.
Qed.

Section P.
Variable V : Type.
Variable zero : V.
Variable dty : eqType.
Notation heap := (heap V).
Notation nd := (nd dty).
Notation fa := (fa dty).
Notation ndata := (@ndata V zero dty).

Lemma append_fresh dts (h : heap) shapes (ds : seq nd) n :
  0 < size shapes -> typed shapes dts ds n -> all (nd_wf h) ds ->
  exists f', [/\ append zero h (fa_init dty shapes) (DList [seq ENd d | d <- ds]) = (h, f', Ok tt),
    fa_shape f' = shapes, fa_len f' = n &
    Inv zero dts (W h f' ds) [:: (n, [seq ndata h d | d <- ds])]].
Proof.
move=> hs ty wfds.
rewrite /append; cbv beta iota zeta.
rewrite /nb_manifolds [fa_shape _]/= [fa_pre _]/= [fa_len _]/= [fa_array _]/= size_map (typed_size ty) eqxx [~~ true]/=; cbv iota.
have [d' [-> e2 e3 e4 e5]] := first_append_loop zero 1000 None ds [::] ty wfds.
have [d -> nd] : exists2 d, d' = Some d & ndlen d = n.
  by move: e2; case: (shapes) hs.
rewrite nd add0n; eexists; split; [by []|by []|by []|].
split=> //=; first by rewrite /total big_cons big_nil addn0.
right; exists (batches shapes ds); split=> //.
by rewrite e5 -(typed_size ty) -(size_map (ndata h)) flat_log1.
Qed.

(* selecting the items numbered js of every component *)
Definition selects (h h' : heap) (a v : nd) (s : seq nat) (js : seq nat) (lead : bool) :=
  [/\ nd_wf h' v, nd_shape v = (if lead then size js :: s else s), nd_dtype v = nd_dtype a &
    ndata h' v = flatten [seq chunk (prodn s) j (ndata h a) | j <- js]].

Lemma norm_index_ok n z : (- Z.of_nat n <= z < Z.of_nat n)%Z ->
  exists j, [/\ norm_index n z = Ok j, j < n & Z.of_nat j = z \/ Z.of_nat j = (z + Z.of_nat n)%Z].
Proof.
move=> hz; rewrite /norm_index.
case: (Z.ltb_spec z 0) => h0.
  exists (Z.to_nat (z + Z.of_nat n)); split; first last.
  - by right; rewrite Z2Nat.id //; lia.
  - by apply/ltP; lia.
  - rewrite (proj2 (Z.leb_le _ _)) ?(proj2 (Z.ltb_lt _ _)) //; lia.
exists (Z.to_nat z); split; first last.
- by left; rewrite Z2Nat.id //; lia.
- by apply/ltP; lia.
- rewrite (proj2 (Z.leb_le _ _)) ?(proj2 (Z.ltb_lt _ _)) //; lia.
Qed.

Lemma norm_index_err n z : ~ (- Z.of_nat n <= z < Z.of_nat n)%Z -> norm_index n z = Err IndexErr.
Proof.
move=> hz; rewrite /norm_index; case: ifP => // /andP[/Z.leb_le h1 /Z.ltb_lt h2].
by exfalso; apply: hz; move: h1 h2; case: (Z.ltb_spec z 0) => h0; lia.
Qed.

Lemma row_view_wf (h : heap) (a : nd) n s j : nd_wf h a -> nd_shape a = n :: s -> j < n ->
  nd_wf h (row_view a j) /\ nd_shape (row_view a j) = s.
Proof.
move=> wf sh hj; have hj1 : j + 1 <= n by rewrite addn1.
have [w1 _] := wf_rows wf sh hj1.
split; last by rewrite row_view_shape sh.
rewrite -(newaxis_wf h (row_view a j)).
by move: w1; rewrite /newaxis /take_rows /row_view /= cats0.
Qed.

Lemma take_rows_wf (h : heap) (a : nd) n s js : nd_wf h a -> nd_shape a = n :: s -> all (fun j => j < n) js ->
  nd_wf h (take_rows a js).
Proof.
move=> wf sh; rewrite nd_wfE /take_rows /= sh /= => hj.
have wl := wf_loc wf; rewrite wl /=.
elim: js hj => //= j js IH /andP[hj /IH/andP[/eqP h1 h2]].
have [w1 sh1] := row_view_wf wf sh hj.
move: w1; rewrite nd_wfE sh1 row_view_pos sh /= => /and3P[_ /eqP s1 p1].
by rewrite size_cat s1 h1 mulSn eqxx all_cat p1.
Qed.

Lemma mapr_take len (arrs : seq nd) :
  mapr (fun a => match a with None => Err TypeErr | Some a => Ok (take_first a len) end) (map Some arrs)
  = Ok (map (fun a => take_first a len) arrs).
Proof. by elim: arrs => //= a arrs ->. Qed.

Lemma take_first_ok h len s (a : nd) P L : comp_ok h len s a P L ->
  [/\ nd_wf h (take_first a len), nd_shape (take_first a len) = len :: s,
     nd_dtype (take_first a len) = nd_dtype a &
     ndata h (take_first a len) = first zero h a (len * prodn s)].
Proof.
move=> [wf [m [sh le own]]]; have [e1 e2] := take_firstE sh le.
split=> //; last by rewrite /first /Model_featurearray.ndata -map_take e2.
rewrite /take_first /ndlen sh /= (minn_idPl le).
by case: (wf_rows wf sh (_ : 0 + len <= m)).
Qed.

Lemma index_int h len shapes (arrs P : seq nd) L z j :
  comps_ok h len shapes arrs P L -> norm_index len z = Ok j ->
  index_all zero h (map (fun a => take_first a len) arrs) (KInt z)
  = Ok (h, map (fun a => row_view (take_first a len) j) arrs).
Proof.
move=> co e; elim: shapes arrs L co => [|s shapes IH] [|a arrs] L //= [c1 c2].
have [_ sh _ _] := take_first_ok c1.
by rewrite /ndlen sh /= e /= (IH _ _ c2).
Qed.

Lemma index_int_err h len shapes (arrs P : seq nd) L z :
  comps_ok h len shapes arrs P L -> 0 < size shapes -> norm_index len z = Err IndexErr ->
  index_all zero h (map (fun a => take_first a len) arrs) (KInt z) = Err IndexErr.
Proof.
move=> co hs e; case: shapes arrs co hs => [|s shapes] [|a arrs] //= [c1 c2] _.
have [_ sh _ _] := take_first_ok c1.
by rewrite /ndlen sh /= e.
Qed.

Lemma index_slice h len shapes (arrs P : seq nd) L b e st :
  comps_ok h len shapes arrs P L -> st <> 0%Z ->
  index_all zero h (map (fun a => take_first a len) arrs) (KSlice b e st)
  = Ok (h, map (fun a => take_rows (take_first a len) (slice_rows len b e st)) arrs).
Proof.
move=> co /Z.eqb_neq ee; elim: shapes arrs L co => [|s shapes IH] [|a arrs] L //= [c1 c2].
have [_ sh _ _] := take_first_ok c1.
by rewrite ee /= (IH _ _ c2) /ndlen sh.
Qed.

(* the arrays obtained by selecting items, and what they show *)
Lemma typed_select h len shapes dts (arrs P : seq nd) L js (sel : nd -> nd) :
  comps_ok h len shapes arrs P L -> map (@nd_dtype dty) arrs = dts -> all (fun j => j < len) js ->
  (forall a n s, nd_wf h a -> nd_shape a = n :: s -> len = n ->
     [/\ nd_wf h (sel a), nd_shape (sel a) = size js :: s, nd_dtype (sel a) = nd_dtype a &
      ndata h (sel a) = flatten [seq chunk (prodn s) j (ndata h a) | j <- js]]) ->
  let temp := map (fun a => sel (take_first a len)) arrs in
  [/\ typed shapes dts temp (size js), all (nd_wf h) temp,
    [seq behead (nd_shape t) | t <- temp] = shapes &
    [seq ndata h t | t <- temp] =
    [seq flatten [seq chunk (prodn sD.1) j sD.2 | j <- js] | sD <- zip shapes (contents zero h len shapes arrs)]].
Proof.
move=> co <- hj hsel /=; elim: shapes arrs L co => [|s shapes IH] [|a arrs] L //= [c1 c2].
have [w1 sh1 dt1 da1] := take_first_ok c1.
have [w2 sh2 dt2 da2] := hsel _ _ _ w1 sh1 erefl.
have [i1 i2 i3 i4] := IH _ _ c2.
split; rewrite /= ?sh2 ?dt2 ?da2 ?i4 ?i3 ?w2 ?i2 ?da1 //=.
by split=> //; left.
Qed.

Lemma contents_expected h len shapes (arrs : seq nd) log js :
  contents zero h len shapes arrs = flat_log (size shapes) log ->
  size arrs = size shapes ->
  [seq flatten [seq chunk (prodn sD.1) j sD.2 | j <- js] | sD <- zip shapes (contents zero h len shapes arrs)]
  = map snd (expected_items shapes log js).
Proof.
move=> -> sz; rewrite /expected_items /flat_log -map_comp.
apply: (@eq_from_nth _ [::]); rewrite !size_map size_zip ?size_map ?size_iota ?minnn // => i hi.
rewrite (nth_map ([::], [::])) ?size_zip ?size_map ?size_iota ?minnn // nth_zip ?size_map ?size_iota //=.
rewrite !(nth_map 0) ?size_iota // nth_iota //=.
by congr flatten; apply: eq_map => j; rewrite /item -prodnE.
Qed.

Lemma expected_one shapes (log : seq (nat * seq (seq V))) js :
  expected shapes [:: (size js, map snd (expected_items shapes log js))] = expected_items shapes log js.
Proof.
rewrite /expected /expected_items -map_comp; apply/eq_in_map => i; rewrite mem_iota add0n /= => hi.
rewrite /total big_cons big_nil addn0 cats0 (nth_map 0) ?size_iota //= nth_iota //.
Qed.

Lemma getitem_sel dts h (f : fa) pool log k js (sel : nd -> nd) :
  Inv zero dts (W h f pool) log -> 0 < fa_len f -> all (fun j => j < fa_len f) js ->
  (forall a n s, nd_wf h a -> nd_shape a = n :: s -> fa_len f = n ->
     [/\ nd_wf h (sel a), nd_shape (sel a) = size js :: s, nd_dtype (sel a) = nd_dtype a &
      ndata h (sel a) = flatten [seq chunk (prodn s) j (ndata h a) | j <- js]]) ->
  (forall arrs, comps_ok h (fa_len f) (fa_shape f) arrs pool [::] ->
     exists sel0, index_all zero h (map (fun a => take_first a (fa_len f)) arrs) k = Ok (h, map sel0 arrs) /\
     (match k with KInt _ => map (@newaxis dty) (map sel0 arrs) | _ => map sel0 arrs end)
       = map (fun a => sel (take_first a (fa_len f))) arrs) ->
  (if k is KNpInt _ then false else true) ->
  exists g, [/\ getitem zero h f k = (h, Ok g), fa_len g = size js, fa_shape g = fa_shape f &
     observe zero h g = Some (expected_items (fa_shape f) log js)].
Proof.
move=> I hl hj hsel hidx hk; case: (I) => /= pp wfP hs ht ha.
case: ha => [[l0 _]|[arrs [fe co dt ct]]].
  by move: hl; rewrite ht l0 /total big_nil.
have [sel0 [e1 e2]] := hidx _ co.
rewrite /getitem /check_positive (proj2 (Z.ltb_lt 0 _)) /=; last by apply/Z2Nat.inj_lt => //; [lia|rewrite Nat2Z.id; apply/ltP].
rewrite fe mapr_take e1.
set temp := match k with KInt _ => _ | _ => _ end.
have et : temp = map (fun a => sel (take_first a (fa_len f))) arrs by rewrite -e2 /temp; case: (k).
have [t1 t2 t3 t4] := typed_select co dt hj hsel.
rewrite et t3.
have -> : [seq (if if k is KNpInt _ then nd_shape t == [::] else false then @EOther dty else ENd t)
      | t <- [seq sel (take_first a (fa_len f)) | a <- arrs]] = [seq ENd t | t <- [seq sel (take_first a (fa_len f)) | a <- arrs]].
  by apply: eq_map => t; case: (k) hk.
have [g [-> g1 g2 g3]] := append_fresh hs t1 t2.
exists g; split=> //.
rewrite (observe_ok g3) // g1 t4 (contents_expected _ ct (comps_ok_size co)).
by rewrite expected_one.
Qed.

Lemma getitem_int dts h (f : fa) pool log z :
  Inv zero dts (W h f pool) log -> 0 < fa_len f -> (- Z.of_nat (fa_len f) <= z < Z.of_nat (fa_len f))%Z ->
  exists j g, [/\ Z.of_nat j = z \/ Z.of_nat j = (z + Z.of_nat (fa_len f))%Z, j < fa_len f,
     getitem zero h f (KInt z) = (h, Ok g), fa_len g = 1 &
     observe zero h g = Some (expected_items (fa_shape f) log [:: j])].
Proof.
move=> I hl hz; have [j [e1 e2 e3]] := norm_index_ok hz.
exists j; have := @getitem_sel dts h f pool log (KInt z) [:: j] (fun a => newaxis (row_view a j)) I hl.
case=> //=; first by rewrite e2.
- move=> a n s wf sh en; have jn : j < n by rewrite -en.
  have [w1 sh1] := row_view_wf wf sh jn.
  rewrite newaxis_wf w1; split=> //; first by rewrite /= sh.
  by rewrite ndata_newaxis ndata_row sh cats0.
- move=> arrs co; exists (fun a => row_view (take_first a (fa_len f)) j).
  by rewrite (index_int co e1) -map_comp.
- by move=> g [g1 g2 g3 g4]; exists g.
Qed.

Lemma getitem_int_err dts h (f : fa) pool log z :
  Inv zero dts (W h f pool) log -> 0 < fa_len f -> ~ (- Z.of_nat (fa_len f) <= z < Z.of_nat (fa_len f))%Z ->
  getitem zero h f (KInt z) = (h, Err IndexErr).
Proof.
move=> I hl hz; case: (I) => /= pp wfP hs ht ha.
case: ha => [[l0 _]|[arrs [fe co dt ct]]].
  by move: hl; rewrite ht l0 /total big_nil.
rewrite /getitem /check_positive (proj2 (Z.ltb_lt 0 _)) /=; last by apply/Z2Nat.inj_lt => //; [lia|rewrite Nat2Z.id; apply/ltP].
by rewrite fe mapr_take (index_int_err co hs (norm_index_err hz)).
Qed.

Lemma getitem_empty dts h (f : fa) pool log k :
  Inv zero dts (W h f pool) log -> fa_len f = 0 -> getitem zero h f k = (h, Err ValueErr).
Proof. by move=> I l0; rewrite /getitem l0. Qed.

Lemma getitem_slice dts h (f : fa) pool log b e st :
  Inv zero dts (W h f pool) log -> 0 < fa_len f -> st <> 0%Z ->
  exists js g, [/\ is_slice (fa_len f) b e st js,
     getitem zero h f (KSlice b e st) = (h, Ok g), fa_len g = size js &
     observe zero h g = Some (expected_items (fa_shape f) log js)].
Proof.
move=> I hl hz; have sl := slice_rows_spec (fa_len f) b e hz.
set js := slice_rows _ _ _ _ in sl.
have hj : all (fun j => j < fa_len f) js.
  by apply/(all_nthP 0) => t ht; have [_ /(_ ht)[]] := sl t.
exists js; have := @getitem_sel dts h f pool log (KSlice b e st) js (fun a => take_rows a js) I hl hj.
case=> //=.
- move=> a n s wf sh en; rewrite (take_rows_wf wf sh) -?en //; split=> //; first by rewrite /= sh.
  by rewrite ndata_take_rows sh.
- move=> arrs co; exists (fun a => take_rows (take_first a (fa_len f)) js).
  by rewrite (index_slice _ _ co hz).
- by move=> g [g1 g2 g3 g4]; exists g.
Qed.

(* ---- vectorize ---- *)
Variable near anti : V -> V -> bool.

Lemma mat_allE rel p m : mat_all zero rel p m =
  [forall i : 'I_p, forall j : 'I_p, rel (entry zero p m i j) (entry zero p m j i)].
Proof.
apply/idP/idP.
  move=> /allP h; apply/forallP => i; apply/forallP => j.
  have hi : val i \in iota 0 p by rewrite mem_iota add0n /=.
  have /allP h2 := h _ hi.
  by apply: h2; rewrite mem_iota /= add0n.
move=> /forallP h; apply/allP => i; rewrite mem_iota add0n => /= hi.
apply/allP => j; rewrite mem_iota add0n => /= hj.
by have /forallP/(_ (Ordinal hj)) := h (Ordinal hi).
Qed.

Lemma triu_upper p m : [seq nth zero m (ij.1 * p + ij.2) | ij <- triu p] = upper zero p m.
Proof.
rewrite /triu /upper /entry.
have gen (l1 l2 : seq nat) : [seq ij <- [seq (i, j) | i <- l1, j <- l2] | ij.1 <= ij.2]
  = flatten [seq [seq (i, j) | j <- l2 & i <= j] | i <- l1].
  elim: l1 => //= i l IH.
  rewrite filter_cat IH; congr cat.
  by rewrite filter_map; congr map; apply: eq_filter.
rewrite gen.
congr (map _ (flatten _)); apply/eq_in_map => i; rewrite mem_iota add0n => /= hi.
congr map.
have -> : iota 0 p = iota 0 i ++ iota i (p - i).
  by rewrite -{1}(subnKC (ltnW hi)) iotaD.
rewrite filter_cat (_ : filter _ (iota 0 i) = [::]) /=.
  by symmetry; apply/all_filterP/allP => j; rewrite mem_iota => /andP[].
by apply/eqP; rewrite -[_ == _]negbK -has_filter; apply/hasPn => j; rewrite mem_iota add0n -ltnNge.
Qed.

Lemma vec_comp_ok h (a : nd) n s :
  nd_wf h a -> nd_shape a = n :: s -> 0 < n ->
  vec_comp zero near anti h a = Ok [seq vec_row zero near anti s n (ndata h a) k | k <- iota 0 n].
Proof.
move=> wf sh hn; rewrite /vec_comp /ndlen sh /= ifF; last by apply/negbTE; rewrite -lt0n.
congr Ok.
have it k : chunk (prodn s) k (ndata h a) = item s k (ndata h a) by rewrite /chunk /item -prodnE.
have -> : [seq chunk (prodn s) j (ndata h a) | j <- iota 0 n] = [seq item s j (ndata h a) | j <- iota 0 n].
  exact: eq_map.
case: s sh it => [|p [|q [|r s]]] sh it //.
rewrite /vec_row; case: (p =P q) => //= e; subst q.
have al rel : all (mat_all zero rel p) [seq item [:: p; p] j (ndata h a) | j <- iota 0 n]
   = all_items zero rel p n (ndata h a).
  rewrite all_map; apply/idP/idP.
    move=> /allP hh; apply/forallP => k.
    by move: (hh k); rewrite mem_iota add0n /= mat_allE; apply.
  move=> /forallP hh; apply/allP => k; rewrite mem_iota add0n => /= hk.
  by rewrite mat_allE; exact: (hh (Ordinal hk)).
rewrite !al; case: ifP => // _.
by rewrite -map_comp; apply: eq_map => k /=; rewrite triu_upper.
Qed.

Lemma mapr_vec h n shapes (arrs P : seq nd) L :
  comps_ok h n shapes arrs P L -> all (fun a => ndlen a == n) arrs -> 0 < n ->
  mapr (fun a => match a with None => Err TypeErr | Some a => vec_comp zero near anti h a end) (map Some arrs)
  = Ok [seq [seq vec_row zero near anti sD.1 n sD.2 k | k <- iota 0 n]
       | sD <- zip shapes (contents zero h n shapes arrs)].
Proof.
move=> co hl hn; elim: shapes arrs L co hl => [|s shapes IH] [|a arrs] L //= [[wf [m [sh le own]]] c2] /andP[/eqP hm hl].
have en : m = n by rewrite -hm /ndlen sh.
subst m; rewrite (vec_comp_ok wf sh hn) (IH _ _ c2 hl) /=; congr (Ok (_ :: _)).
have -> // : first zero h a (n * prodn s) = ndata h a.
rewrite /first take_oversize // size_ndata.
by move: wf; rewrite nd_wfE sh => /and3P[_ /eqP-> _].
Qed.

Lemma zip_rows n (rows : nat -> seq V) (l : seq (nat -> seq V)) :
  foldl (fun acc c' => [seq xy.1 ++ xy.2 | xy <- zip acc c']) [seq rows k | k <- iota 0 n]
    [seq [seq r k | k <- iota 0 n] | r <- l]
  = [seq rows k ++ flatten [seq r k | r <- l] | k <- iota 0 n].
Proof.
elim: l rows => [|r l IH] rows /=; first by apply: eq_map => k; rewrite cats0.
rewrite (_ : [seq xy.1 ++ xy.2 | xy <- zip _ _] = [seq rows k ++ r k | k <- iota 0 n]); last first.
  by elim: (iota 0 n) => //= k ks ->.
by rewrite IH; apply: eq_map => k; rewrite catA.
Qed.

Lemma vectorize_fresh dts (h : heap) shapes (ds : seq nd) n :
  0 < size shapes -> typed shapes dts ds n -> all (nd_wf h) ds -> 0 < n ->
  exists f', [/\ append zero h (fa_init dty shapes) (DList [seq ENd d | d <- ds]) = (h, f', Ok tt),
    fa_len f' = n &
    vectorize zero near anti h f' = Ok [seq flatten [seq vec_row zero near anti sd.1 n (ndata h sd.2) k | sd <- zip shapes ds] | k <- iota 0 n]].
Proof.
move=> hs ty wfds hn.
rewrite /append; cbv beta iota zeta.
rewrite /nb_manifolds [fa_shape _]/= [fa_pre _]/= [fa_len _]/= [fa_array _]/= size_map (typed_size ty) eqxx [~~ true]/=; cbv iota.
have [d' [-> e2 e3 e4 e5]] := first_append_loop zero 1000 None ds [::] ty wfds.
have [d -> nd] : exists2 d, d' = Some d & ndlen d = n.
  by move: e2; case: (shapes) hs.
rewrite nd add0n; eexists; split; [by []|by []|].
rewrite /vectorize /check_positive [fa_len _]/= (proj2 (Z.ltb_lt 0 _)) /=; last by apply/Z2Nat.inj_lt => //; [lia|rewrite Nat2Z.id; apply/ltP].
have hl : all (fun a => ndlen a == n) (batches shapes ds).
  elim: (shapes) (dts) (ds) ty => [|s sh IH] [|t dt] [|x l] //= [br _ /IH ->].
  by have [e _ _ _] := batchE zero h br; rewrite /ndlen e eqxx.
rewrite (mapr_vec e3 hl hn) e5 /=.
case: (shapes) (ds) hs (typed_size ty) => [|s sh] [|x l] //= _ [sz].
rewrite /hcat size_map size_iota ifT; last first.
  by rewrite all_map; apply: all_In_intro => y _; rewrite /= size_map size_iota.
congr Ok.
have := zip_rows n (fun k => vec_row zero near anti s n (ndata h x) k)
   [seq (fun k => vec_row zero near anti sd.1 n (ndata h sd.2) k) | sd <- zip sh l].
rewrite -map_comp => e; etransitivity; [etransitivity; [|exact: e]|].
  congr foldl; elim: (sh) (l) => [|s' sh' IH] [|y l'] //=; by rewrite IH.
by apply: eq_map => k; rewrite -map_comp.
Qed.
End P.
