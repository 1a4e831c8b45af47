(* Model of the real number computations of robuststats/utils/linalg.py:170-179 (unvec, unvech). *)
From Coq Require Import Reals ZArith.
Local Open Scope R_scope.
(* int(x) for x >= 0 *)
Definition to_int (x : R) : nat := Z.to_nat (Int_part x).
(* np.round, halves to even *)
Definition np_round (x : R) : Z :=
  let f := Int_part x in
  if Rlt_dec (x - IZR f) (1 / 2) then f
  else if Rlt_dec (1 / 2) (x - IZR f) then Z.succ f
  else if Z.even f then f else Z.succ f.
(* linalg.py:171 int(np.sqrt(len(v))) *)
Definition unvec_k (l : nat) : nat := to_int (sqrt (INR l)).
(* linalg.py:178-179 .5 * (-1 + np.sqrt(1 + 8 * len(v))), rounded *)
Definition unvech_rows (l : nat) : nat := Z.to_nat (np_round (1 / 2 * (- (1) + sqrt (1 + 8 * INR l)))).
