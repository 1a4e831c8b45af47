(* Theorems about robuststats/utils/verbose.py: C93, C94. *)
From Coq Require Import Ascii String.
From mathcomp Require Import all_ssreflect.
From mathcomp Require Import zify.
From Verif Require Import Model_featurearray Model_verbose.
Set Implicit Arguments.
Unset Strict Implicit.
Unset Printing Implicit Defensive.

(* ------------------------------------------------------------------ C93 *)
(* the formats [,|_][.digits][letter or %] *)
Definition letter (c : nat) : bool := [|| (65 <= c <= 90), (97 <= c <= 122) | c == ch "%"].
Definition plain (fmt : str) : Prop := exists g p t, [/\ fmt = g ++ p ++ t, g \in [:: [::]; chars ","; chars "_"],
  p = [::] \/ (exists d, [/\ p = ch "." :: d, d != [::] & all is_digit d]) & t = [::] \/ exists2 c, t = [:: c] & letter c].
(* the text of each cell is padded with blanks on the left to the length of the longest text of the column and followed by
   two blanks *)
Definition cell (w : nat) (text : str) : str := nseq (w - size text) (ch " ") ++ text ++ chars "  ".
Definition col_width (r : nat) (text : nat -> nat -> str) (j : nat) : nat := \max_(i < r) size (text i j).
Definition table (r c : nat) (text : nat -> nat -> str) : seq str :=
  [seq flatten [seq cell (col_width r text j) (text i j) | j <- iota 0 c] | i <- iota 0 r].

Lemma chE : (ch "0" = 48) * (ch "#" = 35) * (ch "%" = 37) * (ch "," = 44) * (ch "_" = 95) * (ch "." = 46) *
  (chars "<>=^" = [:: 60; 62; 61; 94]) * (chars " +-" = [:: 32; 43; 45]). Proof. by []. Qed.
(* decimal numbers *)
Lemma decimal_recE f w acc : w < f -> decimal_rec f w acc = decimal_rec f w [::] ++ acc.
Proof.
elim: f w acc => // f IH w acc wf /=; case: ltnP => // w10.
have lt : w %/ 10 < f by apply: leq_trans (ltn_Pdiv _ _) _ => //; lia.
by rewrite IH // [in RHS]IH // -catA.
Qed.
Lemma decimal_rec_fuel f f' w acc : w < f -> w < f' -> decimal_rec f w acc = decimal_rec f' w acc.
Proof.
elim: f f' w acc => // f IH [|f'] // w acc wf wf' /=; case: ltnP => // w10.
have lt : w %/ 10 < w by apply: ltn_Pdiv => //; lia.
by apply: IH; lia.
Qed.
Lemma decimalE w : decimal w = if w < 10 then [:: 48 + w] else decimal (w %/ 10) ++ [:: 48 + w %% 10].
Proof.
rewrite {1}/decimal /=; case: ltnP => // w10.
have lt : w %/ 10 < w by apply: ltn_Pdiv => //; lia.
by rewrite decimal_recE // (decimal_rec_fuel _ lt (ltnSn _)).
Qed.
Lemma decimal_ind (P : nat -> Prop) : (forall w, w < 10 -> P w) -> (forall w, 10 <= w -> P (w %/ 10) -> P w) -> forall w, P w.
Proof.
move=> h1 h2; elim/ltn_ind => w IH; case: (ltnP w 10) => [/h1 //|w10]; apply: h2 => //; apply: IH; apply: ltn_Pdiv => //; lia.
Qed.
Lemma decimal_digits w : all is_digit (decimal w).
Proof.
elim/decimal_ind: w => w hw; first by rewrite decimalE hw /= /is_digit; lia.
move=> IH; rewrite decimalE ltnNge hw /= all_cat IH /= /is_digit; have := ltn_pmod w (isT : 0 < 10); lia.
Qed.
Lemma value_decimal w : value (decimal w) = w.
Proof.
elim/decimal_ind: w => w hw; first by rewrite decimalE hw /value /=; lia.
move=> IH; rewrite decimalE ltnNge hw /= /value foldl_cat -/(value _) IH /=; have := divn_eq w 10; lia.
Qed.
Lemma decimal_head w : 0 < w -> exists d s, decimal w = d :: s /\ [&& is_digit d & d != ch "0"].
Proof.
elim/decimal_ind: w => w hw.
  move=> w0; exists (48 + w), [::]; rewrite decimalE hw; split=> //; rewrite /is_digit chE.
  lia.
move=> IH _; have [|d [s [e h]]] := IH; first by rewrite divn_gt0.
by exists d, (s ++ [:: 48 + w %% 10]); rewrite decimalE ltnNge hw e.
Qed.
Lemma digits_cat d s : all is_digit d -> digits s = [::] -> digits (d ++ s) = d /\ rest (d ++ s) = s.
Proof.
move=> ad ds; have e : digits (d ++ s) = d by elim: d ad => //= c d IH /andP[-> /IH ->].
by split=> //; rewrite /rest e drop_size_cat.
Qed.
Lemma parse_align_no s : ~~ has is_align s -> parse_align s = (None, None, s).
Proof.
case: s => [|f [|a s]] //=; first by rewrite orbF => /negbTE ->.
by case: (is_align f); case: (is_align a).
Qed.
Lemma digit_align c : is_digit c -> is_align c = false.
Proof. rewrite /is_digit /is_align chE !inE; lia. Qed.
Lemma letter_char c : letter c -> [/\ is_align c = false, is_digit c = false, is_sign c = false, (c == ch "#") = false &
  [/\ (c == ch ",") = false, (c == ch "_") = false & (c == ch ".") = false]].
Proof. rewrite /letter /is_align /is_digit /is_sign !chE !inE => h; do ?split; lia. Qed.

(* the specification of a plain format, with or without a width in front *)
Lemma parse_plain fmt : plain fmt -> exists g p t,
  parse fmt = Ok (Spec (ch " ") None None false 0 g p t) /\
  forall w, 0 < w -> parse (decimal w ++ fmt) = Ok (Spec (ch " ") None None false w g p t).
Proof.
move=> [g [p [t [-> hg hp ht]]]].
exists (if g is c :: _ then Some c else None), (if p is _ :: d then Some (value d) else None), (if t is c :: _ then Some c else None).
have A : ~~ has is_align (g ++ p ++ t).
  rewrite !has_cat !negb_or; apply/and3P; split.
  - by move: hg; rewrite !inE => /or3P[] /eqP ->.
  - case: hp => [->|[d [-> _ ad]]] //=; rewrite -all_predC; apply: sub_all ad => c /digit_align /= -> //.
  - by case: ht => [->|[c -> /letter_char [h _ _ _ _]]] //=; rewrite h.
have D : digits (g ++ p ++ t) = [::].
  move: hg; rewrite !inE => /or3P[] /eqP -> //=; case: hp => [->|[d [-> _ ad]]] //=.
  by case: ht => [->|[c -> /letter_char [_ h _ _ _]]] //=; rewrite h.
have T : digits t = [::] by case: ht => [->|[c -> /letter_char [_ h _ _ _]]] //=; rewrite h.
have tl : forall s' wd, digits s' = [::] -> s' = g ++ p ++ t -> 
  (let: (comma, s) := opt_char (pred1 (ch ",")) s' in
  let: (under, s) := opt_char (pred1 (ch "_")) s in
  if comma && under then Err ValueErr else
  let: (dot, s) := opt_char (pred1 (ch ".")) s in
  if dot && (digits s == [::]) then Err ValueErr else
  let prec := if dot then Some (value (digits s)) else None in
  let s := if dot then rest s else s in
  if 1 < size s then Err ValueErr else
  Ok (Spec (ch " ") None None false wd (if comma is Some c then Some c else under) prec (if s is c :: _ then Some c else None))) =
  Ok (Spec (ch " ") None None false wd (if g is c :: _ then Some c else None) (if p is _ :: d then Some (value d) else None) (if t is c :: _ then Some c else None)).
  move=> s' wd _ ->.
  have tt : opt_char (pred1 (ch ".")) t = (None, t).
    by case: ht => [->|[c -> /letter_char [_ _ _ _ [_ _ h]]]] //=; rewrite h.
  have tu : opt_char (pred1 (ch "_")) t = (None, t).
    by case: ht => [->|[c -> /letter_char [_ _ _ _ [_ h _]]]] //=; rewrite h.
  have tc : opt_char (pred1 (ch ",")) t = (None, t).
    by case: ht => [->|[c -> /letter_char [_ _ _ _ [h _ _]]]] //=; rewrite h.
  have st : (1 < size t) = false by case: ht => [->|[c -> _]].
  case: hp => [->|[d [-> d0 ad]]].
    move: hg; rewrite !inE => /or3P[] /eqP -> /=; rewrite ?tc ?tu ?tt /= ?st //.
  have [e1 e2] := digits_cat ad T.
  by move: hg; rewrite !inE => /or3P[] /eqP -> /=; rewrite e1 e2 (negbTE d0) st.
have hd : forall c s, g ++ p ++ t = c :: s -> is_sign c = false /\ c == ch "#" = false /\ c == ch "0" = false.
  move=> c s; move: hg; rewrite !inE => /or3P[] /eqP -> //=; try by case=> <- _.
  case: hp => [->|[d [-> _ ad]]] //=; last by case=> <- _.
  by case: ht => [->|[c' -> /letter_char [_ h1 h2 h3 _]]] //= [<- _]; split=> //; split=> //; apply/eqP => e; move: h1; rewrite e.
split.
  rewrite /parse parse_align_no //.
  have -> : opt_char is_sign (g ++ p ++ t) = (None, g ++ p ++ t) by case E: (g ++ p ++ t) => [|c s] //=; have [-> _] := hd _ _ E.
  have -> : opt_char (pred1 (ch "#")) (g ++ p ++ t) = (None, g ++ p ++ t) by case E: (g ++ p ++ t) => [|c s] //=; have [_ [-> _]] := hd _ _ E.
  have -> : opt_char (pred1 (ch "0")) (g ++ p ++ t) = (None, g ++ p ++ t) by case E: (g ++ p ++ t) => [|c s] //=; have [_ [_ ->]] := hd _ _ E.
  by rewrite /rest D drop0 [value _]/=; exact: tl.
move=> w w0; have dw := decimal_digits w; have [e1 e2] := digits_cat dw D.
have A' : ~~ has is_align (decimal w ++ g ++ p ++ t).
  by rewrite has_cat negb_or A andbT -all_predC; apply: sub_all dw => c /digit_align /= -> //.
rewrite /parse parse_align_no //; have [d [s [ed /andP[dd d0]]]] := decimal_head w0.
have -> : opt_char is_sign (decimal w ++ g ++ p ++ t) = (None, decimal w ++ g ++ p ++ t).
  by rewrite ed /=; have -> : is_sign d = false by move: dd; rewrite /is_digit /is_sign chE !inE; lia.
have -> : opt_char (pred1 (ch "#")) (decimal w ++ g ++ p ++ t) = (None, decimal w ++ g ++ p ++ t).
  by rewrite ed /=; have -> : d == ch "#" = false by move: dd; rewrite /is_digit chE; lia.
have -> : opt_char (pred1 (ch "0")) (decimal w ++ g ++ p ++ t) = (None, decimal w ++ g ++ p ++ t) by rewrite ed /= (negbTE d0).
by rewrite e1 e2 value_decimal; exact: tl.
Qed.
Lemma traverse_ok A B (f : A -> res B) (g : A -> B) (s : seq nat) (h : nat -> A) :
  (forall i, i \in s -> f (h i) = Ok (g (h i))) -> traverse f [seq h i | i <- s] = Ok [seq g (h i) | i <- s].
Proof.
elim: s => //= i s IH hs; rewrite hs ?mem_head //= IH // => j js; apply: hs; by rewrite inE js orbT.
Qed.
Lemma traverse_iota B (f : nat -> res B) (g : nat -> B) n : (forall i, i < n -> f i = Ok (g i)) -> traverse f (iota 0 n) = Ok [seq g i | i <- iota 0 n].
Proof. by move=> h; rewrite -[iota 0 n]map_id (@traverse_ok _ _ f g) ?map_id // => i; rewrite mem_iota => /andP[_ /h]. Qed.
Section Print.
Variables (num : Type) (render : option nat -> bool -> option nat -> option nat -> option nat -> num -> option (str * str)).
Local Notation fmtx := (format render).
Local Notation print := (matprint render).
Lemma pymaxE r (g : nat -> nat) : 0 < r -> pymax [seq g i | i <- iota 0 r] = Ok (\max_(i < r) g i).
Proof.
case: r => // r _; rewrite /pymax [iota _ _]/= [map _ _]/= -[in LHS]/(map g (iota 0 r.+1)).
by congr Ok; rewrite -(big_mkord xpredT g) /index_iota subn0 -[RHS](big_map g xpredT id) foldrE.
Qed.
(* The columns are aligned, for plain formats; the matrix has at least a row. *)
Theorem C93_aligned_partial (fmt : str) (r c : nat) (mat : nat -> nat -> num) (text : nat -> nat -> str) : plain fmt -> 0 < r ->
  (forall i j, i < r -> j < c -> fmtx fmt (mat i j) = Ok (text i j) /\ text i j <> [::]) ->
  print mat r c fmt = Ok (table r c text).
Proof.
move=> pf r0 ok; have [g [p [t [e0 ew]]]] := parse_plain pf.
rewrite /matprint /col_maxes (@traverse_iota _ _ (col_width r text)); last first.
  move=> j jc; rewrite (@traverse_iota _ _ (fun i => size (text i j))) => [|i ir]; first by rewrite [bindr _ _]/= pymaxE.
  by have [-> _] := ok i j ir jc.
rewrite [bindr _ _]/=; apply: traverse_iota => i ir.
rewrite (@traverse_iota _ _ (fun j => cell (col_width r text j) (text i j))) // => j jc.
rewrite (nth_map 0) ?size_iota // nth_iota // add0n.
have [ef ne] := ok i j ir jc; have w0 : 0 < col_width r text j.
  by apply: leq_trans (leq_bigmax (Ordinal ir)) => /=; case: (text i j) ne.
move: ef; rewrite /format e0 ew //= ; case: render => // -[sg bd] /= [<-].
by rewrite /cell /pad /= -!catA.
Qed.
(* so that all lines have the same length *)
Theorem C93_same_length_partial (fmt : str) (r c : nat) (mat : nat -> nat -> num) (text : nat -> nat -> str) : plain fmt -> 0 < r ->
  (forall i j, i < r -> j < c -> fmtx fmt (mat i j) = Ok (text i j) /\ text i j <> [::]) ->
  exists lines, print mat r c fmt = Ok lines /\ size lines = r /\ forall l, l \in lines -> size l = \sum_(j < c) (col_width r text j + 2).
Proof.
move=> pf r0 ok; exists (table r c text); split; first exact: C93_aligned_partial.
split; first by rewrite size_map size_iota.
move=> l /mapP[i]; rewrite mem_iota add0n => /andP[_ ir] ->; rewrite size_flatten /shape -map_comp sumnE big_map -(big_mkord xpredT (fun j => col_width r text j + 2)) /index_iota subn0.
rewrite !big_seq; apply: eq_bigr => j; rewrite mem_iota add0n => /andP[_ jc] /=.
rewrite /cell !size_cat size_nseq addnA subnK //; exact: (leq_bigmax (Ordinal ir)).
Qed.
(* a matrix without rows is a ValueError, without columns blank lines *)
Theorem C93_empty (fmt : str) (r c : nat) (mat : nat -> nat -> num) :
  print mat 0 c.+1 fmt = Err ValueErr /\ print mat r 0 fmt = Ok (nseq r [::]).
Proof. by split=> //; rewrite /matprint /= (@traverse_iota _ _ (fun=> [::])) //; congr Ok; elim: r 0 => //= r IH k; rewrite IH. Qed.
(* Formats that start with an alignment, a sign or a width are legal, and are misread with the width in front: *)
(* ">8g" and texts of one character: seven digits 8 are printed before the number *)
Theorem C93_alignment_refuted (x : num) d : render None false None None (Some (ch "g")) x = Some ([::], [:: d]) ->
  fmtx (chars ">8g") x = Ok (chars "       " ++ [:: d]) /\
  print (fun _ _ => x) 1 1 (chars ">8g") = Ok [:: chars "8888888" ++ [:: d] ++ chars "  "].
Proof. by move=> h; rewrite /matprint /col_maxes /format /= /format /= h /= /format /= h. Qed.
(* "<g" and texts of lengths 1 and 2 in a column: not aligned *)
Theorem C93_left_refuted (x y : num) d e f : render None false None None (Some (ch "g")) x = Some ([::], [:: d]) ->
  render None false None None (Some (ch "g")) y = Some ([::], [:: e; f]) ->
  print (fun i _ => if i == 0 then x else y) 2 1 (chars "<g") = Ok [:: [:: d] ++ chars "  "; [:: e; f] ++ chars "  "].
Proof. by move=> hx hy; rewrite /matprint /col_maxes /format /= /format /= hx hy /= /format /= hx hy. Qed.
(* "8g": 88 characters *)
Theorem C93_width_refuted (x : num) d : render None false None None (Some (ch "g")) x = Some ([::], [:: d]) ->
  size (seq.head [::] (if print (fun _ _ => x) 1 1 (chars "8g") is Ok l then l else [::])) = 90.
Proof. by move=> h; rewrite /matprint /col_maxes /format /= /format /= h /= /format /= h. Qed.
(* "+g": an exception *)
Theorem C93_sign_refuted (x : num) s d : render (Some (ch "+")) false None None (Some (ch "g")) x = Some ([:: s], [:: d]) ->
  fmtx (chars "+g") x = Ok [:: s; d] /\ print (fun _ _ => x) 1 1 (chars "+g") = Err ValueErr.
Proof. by move=> h; rewrite /matprint /col_maxes /format /= /format /= h. Qed.
End Print.

(* a renderer of natural numbers, and the default format *)
Definition nat_render (sg : option nat) (alt : bool) (g p t : option nat) (x : nat) : option (str * str) :=
  Some (if sg is Some c then [:: c] else [::], decimal x).
Example C93_hypotheses : [/\ plain (chars "g"), plain (chars ".3f") & plain (chars ",.2e")] /\
  (matprint nat_render (fun i j => 9 * i + 95 * j) 2 2 (chars "g") = Ok [:: chars "0   95  "; chars "9  104  "]) /\
  forall i j, i < 2 -> j < 2 -> format nat_render (chars "g") (9 * i + 95 * j) = Ok (decimal (9 * i + 95 * j)) /\ decimal (9 * i + 95 * j) <> [::].
Proof.
split; last split=> //; last by move=> [|[|//]] [|[|//]].
split; [exists [::], [::], (chars "g") | exists [::], (chars ".3"), (chars "f") | exists (chars ","), (chars ".2"), (chars "e")]; split=> //.
- by left.
- by right; exists (ch "g").
- by right; exists (chars "3").
- by right; exists (ch "f").
- by right; exists (chars "2").
- by right; exists (ch "e").
Qed.

(* ------------------------------------------------------------------ C94 *)
(* The log of any number of calls: one record for each call made after progress, in order, all in the same logger; the message is
   the one given, or the progress bar. *)
Theorem C94_display (logger msg : Type) (module_logger : logger) (given : option logger) (calls : seq (call msg)) :
  flatten [seq display module_logger given k | k <- calls] =
  [seq (odflt module_logger given, odflt (k_str k) (k_msg k)) | k <- calls & 0 < k_n k].
Proof.
elim: calls => //= k s ->; rewrite /display /the_logger lt0n; by case: (k_n k == 0) => //=; case: given => [l|]; case: (k_msg k).
Qed.
Example C94_example : flatten [seq display 0 (Some 7) k | k <- [:: Call 0 None 1; Call 2 None 3; Call 5 (Some 4) 6]] = [:: (7, 3); (7, 4)].
Proof. by []. Qed.
Print Assumptions C93_aligned_partial.
Print Assumptions C93_same_length_partial.
Print Assumptions C93_empty.
Print Assumptions C93_alignment_refuted.
Print Assumptions C93_left_refuted.
Print Assumptions C93_width_refuted.
Print Assumptions C93_sign_refuted.
Print Assumptions C94_display.
