(* Lemmas on the NumPy layer. *)
From Coq Require Import Reals.
From mathcomp Require Import all_ssreflect all_algebra.
From mathcomp Require Import complex zify.
From Verif Require Import RealsMC RealTac Star StarInst Model_featurearray NpArray.
Set Implicit Arguments.
Unset Strict Implicit.
Unset Printing Implicit Defensive.
Local Open Scope ring_scope.
Import GRing.Theory Num.Theory Order.TTheory.

Lemma inbP s idx : reflect (size idx = size s /\ forall k, (k < size s)%N -> (nth 0 idx k < nth 0 s k)%N) (inb s idx).
Proof.
rewrite /inb; apply: (iffP andP) => [[/eqP e /allP h]|[e h]]; split=> //.
- move=> k ks; have := h (nth (0, 0)%N (zip idx s) k).
  rewrite nth_zip //=; apply; rewrite -[X in (X, _)]/((nth 0 idx k, nth 0 s k).1)%N.
  by rewrite -nth_zip // mem_nth // size_zip e minnn.
- exact/eqP.
- apply/allP => -[i j] /(nthP (0, 0)%N) [k]; rewrite size_zip e minnn => ks; rewrite nth_zip // => -[<- <-]; exact: h.
Qed.
Lemma inb_cons n s i idx : inb (n :: s) (i :: idx) = (i < n)%N && inb s idx.
Proof. by rewrite /inb /= eqSS andbCA. Qed.
Lemma inb_nil idx : inb [::] idx = (idx == [::]).
Proof. by case: idx. Qed.
Lemma inb1 n idx : inb [:: n] idx -> exists2 i, idx = [:: i] & (i < n)%N.
Proof. by case: idx => [|i [|j l]] //; rewrite inb_cons => /andP [h _]; exists i. Qed.
Lemma inb2 m n idx : inb [:: m; n] idx -> exists i j, [/\ idx = [:: i; j], (i < m)%N & (j < n)%N].
Proof. by case: idx => [|i l] //; rewrite inb_cons => /andP [h /inb1 [j -> hj]]; exists i, j. Qed.
Lemma inb3 l m n idx : inb [:: l; m; n] idx -> exists k i j, [/\ idx = [:: k; i; j], (k < l)%N, (i < m)%N & (j < n)%N].
Proof. by case: idx => [|k t] //; rewrite inb_cons => /andP [h /inb2 [i [j [-> hi hj]]]]; exists k, i, j. Qed.
Lemma sh1 (a : arr) : ndim a = 1%N -> exists n, sh a = [:: n].
Proof. by rewrite /ndim; case: (sh a) => [|n []] // _; exists n. Qed.
Lemma sh2 (a : arr) : ndim a = 2%N -> exists m n, sh a = [:: m; n].
Proof. by rewrite /ndim; case: (sh a) => [|m [|n []]] // _; exists m, n. Qed.
Lemma sh3 (a : arr) : ndim a = 3%N -> exists l m n, sh a = [:: l; m; n].
Proof. by rewrite /ndim; case: (sh a) => [|l [|m [|n []]]] // _; exists l, m, n. Qed.

Lemma same_refl a : same a a. Proof. by []. Qed.
Lemma same_sym a b : same a b -> same b a.
Proof. by case=> [k s h]; split=> // idx; rewrite -s => /h ->. Qed.
Lemma same_trans a b c : same a b -> same b c -> same a c.
Proof. case=> [k s h] [k' s' h']; split; rewrite ?k ?s // => idx i; rewrite h ?h' // -?s //; by rewrite s. Qed.
Lemma iscomplexP a : reflect (kd a = KCplx) (iscomplexobj a).
Proof. by rewrite /iscomplexobj; case: (kd a); constructor. Qed.
Lemma kmaxxx k : kmax k k = k. Proof. by case: k. Qed.

Lemma bdimxx n : bdim n n = Some n. Proof. by rewrite /bdim eqxx. Qed.
Lemma bzipxx s : bzip s s = Some s. Proof. by elim: s => //= n s ->; rewrite bdimxx. Qed.
Lemma bshapexx s : bshape s s = Some s.
Proof. by rewrite /bshape maxnn /pad subnn bzipxx. Qed.
Lemma bidx_id s idx : inb s idx -> bidx s idx = idx.
Proof.
move=> h; have e : size idx = size s by case/inbP: h.
rewrite /bidx e subnn drop0; elim: s idx e h => [|n s IH] [|i idx] //= [e]; rewrite inb_cons => /andP [h1 h2].
by rewrite IH //; case: eqP => // n1; congr (_ :: _); move: h1; rewrite n1; case: i.
Qed.
Lemma add_same a b : sh a = sh b -> exists c, add a b = Ok c /\
  [/\ kd c = kmax (kd a) (kd b), sh c = sh a & forall idx, inb (sh a) idx -> at_ c idx = at_ a idx + at_ b idx].
Proof.
move=> e; rewrite /add /broadcast2 e bshapexx; eexists; split; first reflexivity; split=> // idx i /=.
by rewrite !bidx_id.
Qed.

Lemma all_idxP s (P : seq nat -> bool) : reflect (forall idx, inb s idx -> P idx) (all_idx s P).
Proof.
elim: s P => [|n s IH] P /=.
  by apply: (iffP idP) => [h idx|]; [rewrite inb_nil => /eqP -> | exact].
apply: (iffP allP) => [h [|i idx] //|h i].
  by rewrite inb_cons => /andP [ni hi]; apply: (IH (fun j => P (i :: j)) (h i _)) => //; rewrite mem_iota.
by rewrite mem_iota /= => ni; apply/IH => idx hi; apply: h; rewrite inb_cons ni.
Qed.

(* concatenation of two arrays *)
Lemma concat2_1 a b m n : sh a = [:: m] -> sh b = [:: n] -> concat2 0 a b =
  Ok (Arr (kmax (kd a) (kd b)) [:: (m + n)%N]
       (fun i => let j := nth 0%N i 0 in if (j < m)%N then at_ a i else at_ b (set_nth 0%N i 0 (j - m)%N))).
Proof. by move=> ea eb; rewrite /concat2 ea eb /=. Qed.
Lemma concat2_h a b m n n' : sh a = [:: m; n] -> sh b = [:: m; n'] -> concat2 1 a b =
  Ok (Arr (kmax (kd a) (kd b)) [:: m; (n + n')%N]
       (fun i => let j := nth 0%N i 1 in if (j < n)%N then at_ a i else at_ b (set_nth 0%N i 1 (j - n)%N))).
Proof. by move=> ea eb; rewrite /concat2 ea eb /= eqxx. Qed.
Lemma concat2_v a b m m' n : sh a = [:: m; n] -> sh b = [:: m'; n] -> concat2 0 a b =
  Ok (Arr (kmax (kd a) (kd b)) [:: (m + m')%N; n]
       (fun i => let j := nth 0%N i 0 in if (j < m)%N then at_ a i else at_ b (set_nth 0%N i 0 (j - m)%N))).
Proof. by move=> ea eb; rewrite /concat2 ea eb /= eqxx. Qed.

Lemma concat_rows a c m n k j : sh a = [:: m; n] -> (k + j <= m)%N -> kd c = kd a -> sh c = [:: k; n] ->
  (forall i l, (i < k)%N -> (l < n)%N -> at_ c [:: i; l] = at_ a [:: i; l]) ->
  exists b, concat 0 c [seq atleast_2d (sub a i) | i <- iota k j] = Ok b /\
  [/\ kd b = kd a, sh b = [:: (k + j)%N; n] & forall i l, (i < k + j)%N -> (l < n)%N -> at_ b [:: i; l] = at_ a [:: i; l]].
Proof.
move=> ea; elim: j k c => [|j IH] k c; first by move=> _ kc sc h; rewrite /= addn0; exists c.
move=> kj kc sc h; have s1 : sh (atleast_2d (sub a k)) = [:: 1%N; n].
  by rewrite /atleast_2d /ndim /sub /= ea.
rewrite [iota _ _]/= map_cons /= (concat2_v sc s1) /=.
set d := Arr _ _ _.
have [] := IH k.+1 d; first by lia.
- by rewrite /d /= kc /atleast_2d /=; case: ifP; rewrite /= kmaxxx.
- by rewrite /d /= addn1.
- move=> i l ik ln; rewrite /d /=; case: ifP => ik'; first exact: h.
  have -> : i = k by lia.
  by rewrite subnn /atleast_2d /ndim /sub /= ea /=.
- by move=> b [eb [kb sb hb]]; exists b; rewrite eb addnS -addSn.
Qed.
Lemma vstackS a m n : sh a = [:: m.+1; n] -> exists b, vstack a = Ok b /\ same b a.
Proof.
move=> ea; rewrite /vstack /len ea /=.
have s1 : sh (atleast_2d (sub a 0)) = [:: 1%N; n] by rewrite /atleast_2d /ndim /sub /= ea.
have [] := @concat_rows a (atleast_2d (sub a 0)) m.+1 n 1 m ea.
- by lia.
- by rewrite /atleast_2d; case: ifP.
- by [].
- by move=> [|i] l // _ ln; rewrite /atleast_2d /ndim /sub /= ea.
- move=> b [eb [kb sb hb]]; exists b; split=> //; split; rewrite ?sb ?ea ?add1n // => idx /inb2 [i [j [-> im jn]]].
  by apply: hb; rewrite ?add1n.
Qed.
Lemma vstack0 a n : sh a = [:: 0%N; n] -> vstack a = Err ValueErr.
Proof. by move=> e; rewrite /vstack /len e. Qed.

(* arrays and matrices *)
Lemma at_of_mx k m n (A : 'M[C]_(m, n)) (i : 'I_m) (j : 'I_n) : at_ (of_mx k A) [:: nat_of_ord i; nat_of_ord j] = A i j.
Proof. by rewrite /= !valK. Qed.
Lemma to_of_mx k m n (A : 'M[C]_(m, n)) : to_mx m n (of_mx k A) = A.
Proof. by apply/matrixP => i j; rewrite mxE at_of_mx. Qed.
Lemma of_to_mx a m n : sh a = [:: m; n] -> same (of_mx (kd a) (to_mx m n a)) a.
Proof.
move=> e; split=> // idx /inb2 [i [j [-> im jn]]].
by have := at_of_mx (kd a) (to_mx m n a) (Ordinal im) (Ordinal jn); rewrite mxE.
Qed.
Lemma at_of_cv k n (x : 'cV[C]_n) (i : 'I_n) : at_ (of_cv k x) [:: nat_of_ord i] = x i 0.
Proof. by rewrite /= valK. Qed.
Lemma to_of_cv k n (x : 'cV[C]_n) : to_cv n (of_cv k x) = x.
Proof. by apply/matrixP => i j; rewrite mxE at_of_cv (ord1 j). Qed.
Lemma same_to_mx a b m n : same a b -> sh a = [:: m; n] -> to_mx m n a = to_mx m n b.
Proof. by case=> _ _ h e; apply/matrixP => i j; rewrite !mxE h // e !inb_cons inb_nil eqxx !ltn_ord. Qed.
