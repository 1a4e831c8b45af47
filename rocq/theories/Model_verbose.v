(* Model of robuststats/utils/verbose.py and of the part of Python's format specification mini-language that it uses.
   Definitions only.  Characters are their codes. *)
From Coq Require Import Ascii String.
From mathcomp Require Import all_ssreflect.
From Verif Require Import Model_featurearray.
Set Implicit Arguments.
Unset Strict Implicit.
Unset Printing Implicit Defensive.

Definition str := seq nat.
Fixpoint chars (s : string) : str := if s is String c s' then nat_of_ascii c :: chars s' else [::].
Definition ch (s : string) : nat := head 0 (chars s).
Definition is_digit (c : nat) : bool := (48 <= c) && (c <= 57).
(* str(w) *)
Fixpoint decimal_rec (fuel w : nat) (acc : str) : str :=
  if fuel is f.+1 then (if w < 10 then (48 + w) :: acc else decimal_rec f (w %/ 10) ((48 + w %% 10) :: acc)) else acc.
Definition decimal (w : nat) : str := decimal_rec w.+1 w [::].
(* the value of a string of digits *)
Definition value (s : str) : nat := foldl (fun v c => v * 10 + (c - 48)) 0 s.

(* A format specification (CPython, Python/formatter_unicode.c, parse_internal_render_format_spec) *)
Record spec := Spec { sp_fill : nat; sp_align : option nat; sp_sign : option nat; sp_alt : bool; sp_width : nat;
  sp_group : option nat; sp_prec : option nat; sp_type : option nat }.
Definition is_align (c : nat) : bool := c \in chars "<>=^".
Definition is_sign (c : nat) : bool := c \in chars " +-".
(* one optional character *)
Definition opt_char (ok : nat -> bool) (s : str) : option nat * str :=
  if s is c :: s' then (if ok c then (Some c, s') else (None, s)) else (None, s).
(* digits at the head *)
Fixpoint digits (s : str) : str := if s is c :: s' then (if is_digit c then c :: digits s' else [::]) else [::].
Definition rest (s : str) : str := drop (size (digits s)) s.
(* [[fill]align] *)
Definition parse_align (s : str) : option nat * option nat * str := match s with
  | f :: a :: s' => if is_align a then (Some f, Some a, s') else if is_align f then (None, Some f, a :: s') else (None, None, s)
  | [:: f] => if is_align f then (None, Some f, [::]) else (None, None, s)
  | [::] => (None, None, s) end.
Definition parse (s : str) : res spec :=
  let: (fill, align, s) := parse_align s in
  let: (sign, s) := opt_char is_sign s in
  let: (alt, s) := opt_char (pred1 (ch "#")) s in
  let: (zero, s) := if fill is None then opt_char (pred1 (ch "0")) s else (None, s) in
  let align := if zero is Some _ then (if align is None then Some (ch "=") else align) else align in
  let fill := if zero is Some z then z else if fill is Some f then f else ch " " in
  let width := value (digits s) in
  let s := rest s in
  let: (comma, s) := opt_char (pred1 (ch ",")) s in
  let: (under, s) := opt_char (pred1 (ch "_")) s in
  if comma && under then Err ValueErr else
  let: (dot, s) := opt_char (pred1 (ch ".")) s in
  if dot && (digits s == [::]) then Err ValueErr else
  let prec := if dot then Some (value (digits s)) else None in
  let s := if dot then rest s else s in
  if 1 < size s then Err ValueErr else
  Ok (Spec fill align sign alt width (if comma is Some c then Some c else under) prec (if s is t :: _ then Some t else None)).

Section Number.
Variable num : Type.
(* Oracle: the sign (or nothing) and the digits of a number, for the options other than padding; None when the type is not
   allowed for the number *)
Variable render : option nat -> bool -> option nat -> option nat -> option nat -> num -> option (str * str).
(* padding to the width, numbers are aligned on the right unless said otherwise (zero padding of numbers written with
   thousands separators, which inserts separators, is not modelled) *)
Definition pad (sp : spec) (sgn body : str) : str :=
  let n := sp_width sp - size (sgn ++ body) in
  let blank := nseq n (sp_fill sp) in
  match sp_align sp with
  | None => blank ++ sgn ++ body
  | Some a => if a == ch "<" then sgn ++ body ++ blank
              else if a == ch "=" then sgn ++ blank ++ body
              else if a == ch "^" then nseq n./2 (sp_fill sp) ++ sgn ++ body ++ nseq (n - n./2) (sp_fill sp)
              else blank ++ sgn ++ body end.
(* ("{:" + s + "}").format(x), s without braces *)
Definition format (s : str) (x : num) : res str :=
  bindr (parse s) (fun sp =>
  if render (sp_sign sp) (sp_alt sp) (sp_group sp) (sp_prec sp) (sp_type sp) x is Some t then Ok (pad sp t.1 t.2) else Err ValueErr).
Fixpoint traverse A B (f : A -> res B) (s : seq A) : res (seq B) :=
  if s is a :: s' then bindr (f a) (fun b => bindr (traverse f s') (fun l => Ok (b :: l))) else Ok [::].
(* max of a list; ValueError when it is empty *)
Definition pymax (s : seq nat) : res nat := if s is _ :: _ then Ok (foldr maxn 0 s) else Err ValueErr.
(* verbose.py:58-59, the columns of an r x c matrix; lines 60-63: the lines printed.  The cells of a row are printed one by
   one: what is printed before an exception is not modelled *)
Definition col_maxes (fmt : str) (r c : nat) (mat : nat -> nat -> num) : res (seq nat) :=
  traverse (fun j => bindr (traverse (fun i => bindr (format fmt (mat i j)) (fun t => Ok (size t))) (iota 0 r)) pymax) (iota 0 c).
Definition matprint (mat : nat -> nat -> num) (r c : nat) (fmt : str) : res (seq str) :=
  bindr (col_maxes fmt r c mat) (fun w =>
  traverse (fun i => bindr (traverse (fun j => bindr (format (decimal (nth 0 w j) ++ fmt) (mat i j)) (fun t => Ok (t ++ chars "  "))) (iota 0 c))
                     (fun l => Ok (flatten l))) (iota 0 r)).
End Number.

(* verbose.py:20-50: the calls of display on a progress bar.  A record of the log is the logger and the message. *)
Section Progress.
Variables (logger msg : Type) (module_logger : logger).
(* a call: the count n of iterations done, the message (None when missing or empty) and what str(self) would give *)
Record call := Call { k_n : nat; k_msg : option msg; k_str : msg }.
(* verbose.py:38-42 *)
Definition the_logger (given : option logger) : logger := if given is Some l then l else module_logger.
(* verbose.py:44-50 *)
Definition display (given : option logger) (k : call) : seq (logger * msg) :=
  if k_n k == 0 then [::] else [:: (the_logger given, if k_msg k is Some m then m else k_str k)].
End Progress.
