(* More arithmetic on R written with mathcomp notations: inverses, numerals, powers.  No definitions. *)
From Coq Require Import Reals Lra ZArith.
From mathcomp Require Import all_ssreflect all_algebra.
From Verif Require Import RealsMC RealTac.
Local Open Scope ring_scope.
Import GRing.Theory Num.Theory Order.TTheory.
Lemma Rinv_E (x : R) : Rinv x = x^-1.
Proof.
case: (eqVneq x 0) => [->|/eqP x0]; last exact: RinvE.
by rewrite invr0; exact: Rinv_0.
Qed.
Lemma natIZR n : n%:R = IZR (Z.of_nat n) :> R.
Proof.
elim: n => [|n IH]; first by [].
by rewrite -addn1 natrD IH -RplusE -R1E addn1 Nat2Z.inj_succ succ_IZR.
Qed.
Lemma RpowE (x : R) n : pow x n = x ^+ n.
Proof. by elim: n => [|n IH]; rewrite ?expr0 ?exprS //= IH. Qed.
Ltac r2R := rewrite -?RpowE ?natIZR -?Rinv_E -?RplusE -?RoppE -?RmultE -?R0E -?R1E;
  cbn [Z.of_nat Pos.of_succ_nat Pos.succ].
Ltac rh2R := repeat match goal with
  | H : is_true (@Order.le _ _ _ _) |- _ => move/RleP in H; move: H
  | H : is_true (@Order.lt _ _ _ _) |- _ => move/RltP in H; move: H
  | H : @eq _ ?a ?b |- _ => move: H; change (@eq R a b -> _)
  | H : @eq _ ?a ?b -> False |- _ => move: H; change ((@eq R a b -> False) -> _)
  | H : Rle _ _ |- _ => move: H
  | H : Rlt _ _ |- _ => move: H end.
Ltac rfield := r2R; lazymatch goal with |- @eq _ ?a ?b => change (@eq R a b); field end.
Ltac rlra2 := rgoal; rh2R; r2R; intros; lra.
Ltac rnra2 := rgoal; rh2R; r2R; intros; nra.
