(* Lemmas about vec, vech and their inverses. *)
From Coq Require Import Reals ZArith.
From mathcomp Require Import all_ssreflect all_algebra.
From mathcomp Require Import complex zify mxtens.
From Verif Require Import RealsMC RealTac Star StarInst Model_featurearray NpArray Proofs_numpy Model_vecnum Model_vec VecNum.
Set Implicit Arguments.
Unset Strict Implicit.
Unset Printing Implicit Defensive.
Local Open Scope ring_scope.
Import GRing.Theory Num.Theory Order.TTheory.
Local Notation Re := (@complex.Re R).
Local Notation Im := (@complex.Im R).

(* the upper triangle *)
Lemma mem_triu n r c : ((r, c) \in triu_pairs n) = (r <= c)%N && (c < n)%N.
Proof.
apply/flatten_mapP/idP => [[r']|/andP [rc cn]].
  by rewrite mem_iota => /andP [_ rn] /mapP [c' + [-> ->]]; rewrite mem_iota; lia.
by exists r; rewrite ?mem_iota; [lia | apply/mapP; exists c => //; rewrite mem_iota; lia].
Qed.
Lemma uniq_triu n : uniq (triu_pairs n).
Proof.
rewrite /triu_pairs; elim: {2}n 0%N => //= k IH s; rewrite cat_uniq IH andbT; apply/andP; split.
  by rewrite map_inj_uniq ?iota_uniq // => a b [].
apply/hasPn => x /flatten_mapP [r]; rewrite mem_iota => hr /mapP [c _ ->].
by apply/negP => /mapP [c' _ [e _]]; move: hr; lia.
Qed.
Lemma size_triu n : (2 * size (triu_pairs n) = n * (n + 1))%N.
Proof.
rewrite size_flatten /shape -map_comp /=.
under eq_map do rewrite /= size_map size_iota.
have h k s : (s + k = n)%N -> (2 * sumn [seq (n - x)%N | x <- iota s k] = k * (k + 1))%N.
  by elim: k s => //= k IH s e; have := IH s.+1; move: (sumn _) => S H; have := H ltac:(lia); lia.
by have := h n 0%N; apply.
Qed.
Lemma mem_diag n r c : ((r, c) \in diag_pairs n) = (r == c) && (c < n)%N.
Proof.
apply/mapP/andP => [[x]|[/eqP -> cn]]; first by rewrite mem_iota => h [-> ->]; rewrite eqxx.
by exists c; rewrite // mem_iota.
Qed.
Lemma uniq_diag n : uniq (diag_pairs n).
Proof. by rewrite map_inj_uniq ?iota_uniq // => a b []. Qed.

(* arrays *)
Lemma cast_same a idx : wf a -> inb (sh a) idx -> kd a <> KInt \/ True -> cast (kd a) (kd a) (at_ a idx) = at_ a idx.
Proof.
move=> w h _; have := w; rewrite /wf; case: (kd a) => //= w'; have := w' ltac:(by []) idx h.
by case: (at_ a idx) => x y /= ->.
Qed.
Lemma set_pairs_ok a l v : sh v = [:: size l] ->
  set_pairs a l v = Ok (Arr (kd a) (sh a) (fun i => let p := (nth 0%N i 0, nth 0%N i 1) in
          if p \in l then cast (kd a) (kd v) (at_ v [:: index p l]) else at_ a i)).
Proof.
move=> e; rewrite /set_pairs e bshapexx eqxx; congr (Ok (Arr _ _ _)).
apply: FunctionalExtensionality.functional_extensionality => i /=; case: ifP => // h.
by rewrite /bidx /=; case: eqP => // e1; move: h; rewrite -index_mem e1; case: index.
Qed.

Lemma unravC2 m n k : (k < m * n)%N -> unravC [:: m; n] k = [:: (k %/ n)%N; (k %% n)%N].
Proof. by move=> h; rewrite /unravC /= /rev /= (@modn_small (k %/ n)) // ltn_divLR //; case: n h; rewrite ?muln0. Qed.
Lemma unrav2 m n k : (k < m * n)%N -> unrav [:: m; n] k = [:: (k %% m)%N; (k %/ m)%N].
Proof. by move=> h; rewrite /= (@modn_small (k %/ m)) // ltn_divLR; [lia | case: m h]. Qed.
Lemma prodn2 m n : prodn [:: m; n] = (m * n)%N. Proof. by rewrite /= muln1. Qed.
Lemma prodn1 n : prodn [:: n] = n. Proof. by rewrite /= muln1. Qed.

Lemma at_vec M m n i j : sh M = [:: m; n] -> (i < m)%N -> (j < n)%N -> at_ (vec M) [:: (i + m * j)%N] = at_ M [:: i; j].
Proof.
move=> s im jn; rewrite /vec /ravelF [at_ _ _]/= s unrav2; last by nia.
by rewrite addnC mulnC modnMDl divnMDl ?(modn_small im) ?(divn_small im) ?addn0 //; case: m im {s}.
Qed.

Lemma vech_ok M n : sh M = [:: n; n] -> exists v, [/\ vech M = Ok v, kd v = kd M, sh v = [:: size (triu_pairs n)] &
  forall k, (k < size (triu_pairs n))%N -> at_ v [:: k] = at_ M [:: (nth (0, 0)%N (triu_pairs n) k).2; (nth (0, 0)%N (triu_pairs n) k).1]].
Proof.
move=> s; rewrite /vech /np_len s [bindr _ _]/= /take_flat [sh _]/= s prodn2.
have h k : (k < size (triu_pairs n))%N -> let p := nth (0, 0)%N (triu_pairs n) k in (p.1 < n)%N /\ (p.2 < n)%N.
  by move=> kn; have := mem_nth (0, 0)%N kn; case: (nth _ _ _) => r c; rewrite mem_triu /=; lia.
rewrite ifT; last first.
  apply/allP => x /mapP [p /(nthP (0, 0)%N) [k kn <-] ->]; have [] := h k kn; case: (nth _ _ _) => r c /=; nia.
eexists; split; first reflexivity; [by []|by rewrite /= size_map|].
move=> k kn; rewrite [at_ _ _]/= (nth_map (0, 0)%N) //.
have [] := h k kn; case: (nth _ _ _) => r c /= rn cn.
rewrite /unravC /rev /=.
by rewrite modnMDl divnMDl ?(modn_small cn) ?(divn_small cn) ?addn0 ?(modn_small rn) //; case: n rn cn {s h kn}.
Qed.

Definition tri_at (v : arr) (n i j : nat) : C :=
  if (i < j)%N then at_ v [:: index (i, j) (triu_pairs n)]
  else if (j < i)%N then conjc (at_ v [:: index (j, i) (triu_pairs n)])
  else R2C (Re (at_ v [:: index (i, i) (triu_pairs n)])).
Lemma index_triu n i j : (i <= j)%N -> (j < n)%N -> (index (i, j) (triu_pairs n) < size (triu_pairs n))%N.
Proof. by move=> ij jn; rewrite index_mem mem_triu ij jn. Qed.
Lemma cj_sum (z : C) : (z + conjc z) / 2%:R = R2C (Re z).
Proof.
have n2 : (2%:R : C) != 0 by rewrite pnatr_eq0.
apply: (mulIf n2); rewrite divfK // -[2%:R]/(1 + 1) mulrDr mulr1; case: z => x y; apply/eqP; rewrite eq_complex /=.
by rewrite subrr addr0 !eqxx.
Qed.
Lemma unvech_ok v n l : sh v = [:: l] -> (2 * l = n * (n + 1))%N -> kd v <> KInt -> wf v ->
  exists M, [/\ unvech v = Ok M, kd M = kd v, sh M = [:: n; n] &
    forall i j, (i < n)%N -> (j < n)%N -> at_ M [:: i; j] = tri_at v n i j].
Proof.
move=> s e ki w; rewrite /unvech /np_len s [bindr (Ok l) _]/= (@rows_ok n l e).
have sl : l = size (triu_pairs n) by have := size_triu n; lia.
rewrite set_pairs_ok ?s ?sl // [bindr (Ok _) _]/=.
set R0 := Arr _ _ _.
have cs z : kd v <> KInt -> wf v -> (exists2 idx, inb (sh v) idx & z = at_ v idx) -> cast (kd v) (kd v) z = z.
  by move=> _ _ [idx h ->]; apply: cast_same => //; right.
have cv i j : (i <= j)%N -> (j < n)%N ->
    cast (kd v) (kd v) (at_ v [:: index (i, j) (triu_pairs n)]) = at_ v [:: index (i, j) (triu_pairs n)].
  by move=> ij jn; apply: cs => //; exists [:: index (i, j) (triu_pairs n)] => //; rewrite s sl inb_cons inb_nil eqxx index_triu.
have r0 i j : (i < n)%N -> (j < n)%N -> at_ R0 [:: i; j] = if (i <= j)%N then at_ v [:: index (i, j) (triu_pairs n)] else 0.
  by move=> im jn; rewrite /R0 /= mem_triu jn andbT; case: ifP => // ij; rewrite cv.
have [|R1 [-> [k1 s1 a1]]] := @add_same R0 (npT (np_cj R0)); first by [].
rewrite [bindr (Ok _) _]/=.
have k1' : kd R1 = kd v by rewrite k1 /= kmaxxx.
have s1' : sh R1 = [:: n; n] by rewrite s1.
have r1 i j : (i < n)%N -> (j < n)%N -> at_ R1 [:: i; j] = at_ R0 [:: i; j] + conjc (at_ R0 [:: j; i]).
  by move=> im jn; rewrite a1 // !inb_cons im jn.
have -> : idiv2 (get_pairs R1 (diag_pairs n)) = Ok (Arr (kd v) [:: size (diag_pairs n)]
    (fun i => at_ (get_pairs R1 (diag_pairs n)) i / 2%:R)).
  by rewrite /idiv2 /= k1'; case: (kd v) ki.
rewrite [bindr (Ok _) _]/= set_pairs_ok //; eexists; split; first reflexivity; [exact: k1'|exact: s1'|].
move=> i j im jn; rewrite [at_ _ _]/= mem_diag jn andbT /tri_at.
case: (ltngtP i j) => [ij|ij|<-].
- have z : at_ R0 [:: j; i] = 0 by rewrite r0 // leqNgt ij.
  by rewrite r1 // z conjc0 addr0 r0 // (ltnW ij).
- have z : at_ R0 [:: i; j] = 0 by rewrite r0 // leqNgt ij.
  by rewrite r1 // z add0r r0 // (ltnW ij).
- have mi : (i, i) \in diag_pairs n by rewrite mem_diag eqxx.
  rewrite (nth_index _ mi) /= r1 // !r0 // leqnn cj_sum k1'.
  by case: (kd v) ki.
Qed.
