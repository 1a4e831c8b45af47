(* Theorems about vec, unvec, vech, unvech: C59, C60. *)
From Coq Require Import Reals.
From mathcomp Require Import all_ssreflect all_algebra.
From mathcomp Require Import complex zify mxtens.
From Verif Require Import RealsMC RealTac Star StarInst Model_featurearray NpArray Proofs_numpy Model_vecnum Model_vec VecNum Proofs_vec.
Set Implicit Arguments.
Unset Strict Implicit.
Unset Printing Implicit Defensive.
Local Open Scope ring_scope.
Import GRing.Theory Num.Theory Order.TTheory.

(* ------------------------------------------------------------------ C59 *)
Theorem C59_vec_stacks_columns M m n : sh M = [:: m; n] ->
  [/\ kd (vec M) = kd M, sh (vec M) = [:: (m * n)%N] &
      forall i j, (i < m)%N -> (j < n)%N -> at_ (vec M) [:: (i + m * j)%N] = at_ M [:: i; j]].
Proof. by move=> s; split=> //; [rewrite /= s prodn2 | move=> i j im jn; rewrite (at_vec s)]. Qed.

Lemma unvec_sq v k : sh v = [:: (k * k)%N] -> exists M, [/\ unvec v = Ok M, kd M = kd v, sh M = [:: k; k] &
  forall i j, (i < k)%N -> (j < k)%N -> at_ M [:: i; j] = at_ v [:: (i + k * j)%N]].
Proof.
move=> s; rewrite /unvec /np_len s [bindr _ _]/= unvec_k_square eqxx /reshapeF s prodn1 prodn2 eqxx.
eexists; split; first reflexivity; [by []|by []|] => i j ik jk.
by rewrite /= muln0 addn0 modn_small //; nia.
Qed.
Theorem C59_unvec_vec M n : sh M = [:: n; n] -> same_res (unvec (vec M)) (Ok M).
Proof.
move=> s; have [_ sv h] := C59_vec_stacks_columns s.
have [N [-> kN sN hN]] := unvec_sq sv; split=> //; first by rewrite sN s.
by rewrite sN => idx /inb2 [i [j [-> im jn]]]; rewrite hN // h.
Qed.
Theorem C59_vec_unvec v k : sh v = [:: (k * k)%N] ->
  exists M, [/\ unvec v = Ok M, sh M = [:: k; k] & same (vec M) v].
Proof.
move=> s; have [M [-> kM sM hM]] := unvec_sq s; exists M; split=> //.
have [kv sv h] := C59_vec_stacks_columns sM; split; rewrite ?kv ?sv ?s // => idx /inb1 [l -> lk].
have k0 : (0 < k)%N by move: lk; case: k {s sM hM h sv}.
have l1 : (l %% k < k)%N by rewrite ltn_mod.
have l2 : (l %/ k < k)%N by rewrite ltn_divLR.
have e : l = (l %% k + k * (l %/ k))%N by rewrite mulnC addnC -divn_eq.
by rewrite [in LHS]e h // hM // -e.
Qed.
Theorem C59_not_square_rejected v l : sh v = [:: l] -> (forall k, (k * k)%N <> l) -> unvec v = Err AssertionErr.
Proof. by move=> s h; rewrite /unvec /np_len s [bindr _ _]/=; case: eqP => // e; case: (h _ e). Qed.
Lemma mul_rot (a b c : C) : a * b * c = b * c * a. Proof. by rewrite -mulrA mulrC. Qed.
(* a matrix product in vectorised form *)
Theorem C59_kronecker k p m n q (A : 'M[C]_(p, m)) (X : 'M[C]_(m, n)) (B : 'M[C]_(n, q)) :
  to_cv (q * p) (vec (of_mx k (A *m X *m B))) = (B^T *t A) *m to_cv (n * m) (vec (of_mx k X)).
Proof.
apply/matrixP => x y; rewrite !mxE.
case: (mxtens_indexP x) => a b.
have -> : nat_of_ord (mxtens_index (a, b)) = (b + p * a)%N by rewrite /= mulnC addnC.
rewrite (@at_vec _ p q) // at_of_mx mxE.
rewrite (reindex (@mxtens_index n m)) /=; last first.
  by exists (@mxtens_unindex n m) => z _; rewrite ?mxtens_indexK ?mxtens_unindexK.
rewrite (eq_bigr (fun z : 'I_n * 'I_m => A b z.2 * X z.2 z.1 * B z.1 a)); last first.
  move=> [c d] _; rewrite tensmxE !mxE.
  have -> : nat_of_ord (mxtens_index (c, d)) = (d + m * c)%N by rewrite /= mulnC addnC.
  rewrite (@at_vec _ m n) //.
  rewrite at_of_mx /=.
  exact: mul_rot.
rewrite -(pair_bigA _ (fun c d => A b d * X d c * B c a)) /=; apply: eq_bigr => c _.
by rewrite mxE big_distrl.
Qed.
(* a vector of length six is rejected, one of length four is not *)
Definition ex_vec n : arr := Arr KReal [:: n] (fun i => R2C (head 0%N i)%:R).
Example C59_ex : unvec (ex_vec 6) = Err AssertionErr /\ exists M, unvec (ex_vec 4) = Ok M.
Proof.
split; first by apply: (@C59_not_square_rejected _ 6) => // k; case: k => [|[|[|k]]] //; nia.
by have [|M [h _ _ _]] := @unvec_sq (ex_vec 4) 2 _; [|exists M].
Qed.

(* ------------------------------------------------------------------ C60 *)
(* M is symmetric, M is Hermitian (arrays) *)
Definition symmetric_arr (n : nat) (M : arr) := forall i j, (i < n)%N -> (j < n)%N -> at_ M [:: i; j] = at_ M [:: j; i].
Definition hermitian_arr (n : nat) (M : arr) := forall i j, (i < n)%N -> (j < n)%N -> at_ M [:: i; j] = conjc (at_ M [:: j; i]).

Lemma wf_vech M v n : sh M = [:: n; n] -> wf M -> vech M = Ok v -> wf v.
Proof.
move=> s w; have [v' [-> k' s' h]] := vech_ok s => -[<-]; rewrite /wf k' => k idx; rewrite s' => /inb1 [i -> ik].
rewrite h //; apply: w => //; rewrite s !inb_cons inb_nil eqxx andbT.
by have := mem_nth (0, 0)%N ik; case: (nth _ _ _) => r c; rewrite mem_triu /=; lia.
Qed.
(* what the composition computes: the transpose of the lower triangle, completed by conjugation *)
Lemma round_trip M n : sh M = [:: n; n] -> kd M <> KInt -> wf M -> exists N,
  [/\ bindr (vech M) unvech = Ok N, kd N = kd M, sh N = [:: n; n] & forall i j, (i < n)%N -> (j < n)%N ->
    at_ N [:: i; j] = if (i < j)%N then at_ M [:: j; i] else if (j < i)%N then conjc (at_ M [:: i; j])
                      else R2C (complex.Re (at_ M [:: i; i]))].
Proof.
move=> s k w; have [v [e kv sv hv]] := vech_ok s; have wv := wf_vech s w e; rewrite e [bindr _ _]/=.
have [|N [-> kN sN hN]] := @unvech_ok v n (size (triu_pairs n)) sv (size_triu n) _ wv; first by rewrite kv.
exists N; split; rewrite ?kN // => i j im jn; rewrite hN // /tri_at.
have g i' j' : (i' <= j')%N -> (j' < n)%N -> at_ v [:: index (i', j') (triu_pairs n)] = at_ M [:: j'; i'].
  by move=> ij jn'; rewrite hv ?index_triu // nth_index // mem_triu ij.
case: (ltngtP i j) => [ij|ij|_].
- by rewrite g // ltnW.
- by rewrite g // ltnW.
- by rewrite g.
Qed.
Lemma re_real M i j n : sh M = [:: n; n] -> wf M -> kd M = KReal -> (i < n)%N -> (j < n)%N ->
  R2C (complex.Re (at_ M [:: i; j])) = at_ M [:: i; j] /\ conjc (at_ M [:: i; j]) = at_ M [:: i; j].
Proof.
move=> s w k im jn; have := w; rewrite /wf k => /(_ ltac:(by []) [:: i; j]); rewrite s !inb_cons im jn => /(_ isT).
by case: (at_ M _) => x y /= ->; rewrite oppr0.
Qed.
Theorem C60_real_matrix_partial M n : sh M = [:: n; n] -> kd M = KReal -> wf M -> symmetric_arr n M ->
  same_res (bindr (vech M) unvech) (Ok M).
Proof.
move=> s k w sy; have [|N [-> kN sN hN]] := round_trip s _ w; first by rewrite k.
split; rewrite ?sN ?s // => idx /inb2 [i [j [-> im jn]]]; rewrite hN //.
case: (ltngtP i j) => [ij|ij|<-] /=.
- by rewrite sy.
- by have [_] := re_real s w k im jn.
- by have [] := re_real s w k im im.
Qed.
Lemma eqN0 (y : R) : y = - y -> 0 = y. Proof. by move=> h; have := mulrn_eq0 y 2; rewrite mulr2n {1}h addNr eqxx /= => /esym/eqP. Qed.
Theorem C60_hermitian_gives_transpose M n : sh M = [:: n; n] -> kd M = KCplx -> hermitian_arr n M ->
  same_res (bindr (vech M) unvech) (Ok (npT M)).
Proof.
move=> s k he; have [| |N [-> kN sN hN]] := round_trip s _ _; [by rewrite k|by rewrite /wf k|].
split; rewrite ?sN /= ?s // => idx /inb2 [i [j [-> im jn]]]; rewrite hN // -[rev _]/[:: j; i].
case: (ltngtP i j) => [ij|ij|<-]; [by []|by rewrite -he|].
by have := he i i im im; case: (at_ M _) => x y [h]; congr (_ +i* _)%C; exact: eqN0.
Qed.
Lemma unvech_vector v n l : sh v = [:: l] -> (2 * l = n * (n + 1))%N -> kd v <> KInt -> wf v ->
  exists M w, [/\ unvech v = Ok M, vech M = Ok w, kd w = kd v, sh w = [:: l] &
    forall i j, (i <= j)%N -> (j < n)%N -> let k := index (i, j) (triu_pairs n) in
      at_ w [:: k] = if i == j then R2C (complex.Re (at_ v [:: k])) else conjc (at_ v [:: k])].
Proof.
move=> s e k w; have [M [-> kM sM hM]] := unvech_ok s e k w.
have [u [eu ku su hu]] := vech_ok sM; exists M, u; split=> //; first by rewrite ku.
  by rewrite su; congr [:: _]; have := size_triu n; lia.
move=> i j ij jn q; have im := leq_ltn_trans ij jn.
rewrite hu ?index_triu // nth_index ?mem_triu ?ij // hM // /tri_at /q.
rewrite -[(i, j).1]/i -[(i, j).2]/j; case: (ltngtP i j) ij => [// _|//|<- //].
Qed.
Theorem C60_real_vector_partial v l n : sh v = [:: l] -> (2 * l = n * (n + 1))%N -> kd v = KReal -> wf v ->
  same_res (bindr (unvech v) vech) (Ok v).
Proof.
move=> s e k w; have [|M [u [-> hu ku su hh]]] := unvech_vector s e _ w; first by rewrite k.
rewrite [bindr _ _]/= hu; split; rewrite ?su ?s // => idx /inb1 [q -> ql].
have ql' : (q < size (triu_pairs n))%N by have := size_triu n; lia.
have := mem_nth (0, 0)%N ql'; have := index_uniq (0, 0)%N ql' (uniq_triu n).
case: (nth _ _ _) => i j; rewrite mem_triu => eq /andP [ij jn]; have := hh i j ij jn; rewrite /= eq => ->.
have := w; rewrite /wf k => /(_ ltac:(by []) [:: q]); rewrite s inb_cons ql => /(_ isT).
by case: (at_ v _) => x y /= ->; rewrite oppr0; case: eqP.
Qed.
Theorem C60_complex_vector_conjugated v l n : sh v = [:: l] -> (2 * l = n * (n + 1))%N -> kd v = KCplx ->
  (forall i, (i < n)%N -> complex.Im (at_ v [:: index (i, i) (triu_pairs n)]) = 0) ->
  same_res (bindr (unvech v) vech) (Ok (np_cj v)).
Proof.
move=> s e k d; have [| |M [u [-> hu ku su hh]]] := unvech_vector s e _ _; [by rewrite k|by rewrite /wf k|].
rewrite [bindr _ _]/= hu; split; rewrite ?su ?[sh _]/= ?s // => idx /inb1 [q -> ql].
have ql' : (q < size (triu_pairs n))%N by have := size_triu n; lia.
have := mem_nth (0, 0)%N ql'; have := index_uniq (0, 0)%N ql' (uniq_triu n).
case: (nth _ _ _) => i j; rewrite mem_triu => eq /andP [ij jn]; have := hh i j ij jn; rewrite /= eq => ->.
case: eqP => // ij'; have := d i (leq_ltn_trans ij jn); move: eq; rewrite -ij' => ->.
by case: (at_ v _) => x y /= ->; rewrite oppr0.
Qed.
(* lengths that are not n(n+1)/2 are rejected, and so are integer arrays *)
Theorem C60_bad_length v l : sh v = [:: l] -> (forall n, (n * (n + 1))%N <> (2 * l)%N) -> unvech v = Err ValueErr.
Proof.
move=> s h; rewrite /unvech /np_len s [bindr (Ok l) _]/=.
have l1 : l != 1%N by apply/eqP => e; case: (h 1%N); rewrite e.
set r := unvech_rows l; have hr : size (triu_pairs r) <> l by move=> e; case: (h r); rewrite -e -size_triu.
rewrite /set_pairs s /bshape /pad /= /bdim (negbTE l1); move/eqP/negbTE: hr => ->.
case: (size _ =P 1%N) => [->|_ //]; rewrite /=.
by case: eqP => // -[e]; rewrite e in l1.
Qed.
Theorem C60_integers_rejected v l n : sh v = [:: l] -> (2 * l = n * (n + 1))%N -> kd v = KInt -> unvech v = Err TypeErr.
Proof.
move=> s e k; rewrite /unvech /np_len s [bindr (Ok l) _]/= (@rows_ok n l e).
rewrite set_pairs_ok ?s; last by congr [:: _]; have := size_triu n; lia.
rewrite [bindr (Ok _) _]/=; set R0 := Arr _ _ _.
have [|R1 [-> [k1 s1 a1]]] := @add_same R0 (npT (np_cj R0)); first by [].
by rewrite [bindr (Ok _) _]/= /idiv2 /= k1 /= k.
Qed.
(* the Hermitian matrix [[0, i], [-i, 0]] is not recovered *)
Definition herm_wit : arr := of_mx KCplx (\matrix_(i < 2, j < 2) (if i == j then 0 else if (i < j)%N then ii else - ii) : 'M[C]_2).
Theorem C60_refuted : ~ forall M n, sh M = [:: n; n] -> kd M = KCplx -> hermitian_arr n M ->
  same_res (bindr (vech M) unvech) (Ok M).
Proof.
move=> h; have e i j (hi : (i < 2)%N) (hj : (j < 2)%N) : at_ herm_wit [:: i; j] = if i == j then 0 else if (i < j)%N then ii else - ii.
  by have := at_of_mx KCplx (\matrix_(i < 2, j < 2) (if i == j then 0 else if (i < j)%N then ii else - ii) : 'M[C]_2) (Ordinal hi) (Ordinal hj); rewrite mxE.
have he : hermitian_arr 2 herm_wit.
  move=> i j hi hj; rewrite !e // [j == i]eq_sym; case: eqP => [_|n]; first by rewrite conjc0.
  by case: (ltngtP i j) => // _; rewrite /ii /=; congr (_ +i* _)%C; rewrite ?oppr0 ?opprK.
have := h herm_wit 2%N erefl erefl he; have [||N [-> _ sN hN]] := @round_trip herm_wit 2 erefl; [by []|by []|].
case=> _ _; rewrite sN => /(_ [:: 0; 1]%N isT); rewrite hN // => eq.
have : - ii = ii := etrans (esym (e 1%N 0%N isT isT)) (etrans eq (e 0%N 1%N isT isT)).
by case=> _ /esym/eqN0/esym/eqP; rewrite oner_eq0.
Qed.
(* the hypotheses are met by the real matrix [[0, 1], [1, 0]] and by vectors of length 3 *)
Definition sym_wit : arr := Arr KReal [:: 2; 2]%N (fun i => if nth 0%N i 0 == nth 0%N i 1 then 0 else 1).
Example C60_ex : [/\ wf sym_wit, symmetric_arr 2 sym_wit, wf (ex_vec 3) & (2 * 3 = 2 * (2 + 1))%N].
Proof.
split=> //.
- by move=> _ idx _; rewrite /=; case: eqP.
- by move=> i j _ _; rewrite /= eq_sym.
Qed.

Print Assumptions C59_vec_stacks_columns.
Print Assumptions C59_unvec_vec.
Print Assumptions C59_vec_unvec.
Print Assumptions C59_not_square_rejected.
Print Assumptions C59_kronecker.
Print Assumptions C60_real_matrix_partial.
Print Assumptions C60_hermitian_gives_transpose.
Print Assumptions C60_real_vector_partial.
Print Assumptions C60_complex_vector_conjugated.
Print Assumptions C60_bad_length.
Print Assumptions C60_integers_rejected.
Print Assumptions C60_refuted.
