(* Arithmetic on R written with mathcomp notations: ring, lra, nra.  No definitions. *)
From Coq Require Import Reals Lra.
From mathcomp Require Import all_ssreflect all_algebra.
From Verif Require Import RealsMC.
Local Open Scope ring_scope.
Import GRing.Theory Num.Theory Order.TTheory.
Ltac toReals := rewrite -?RplusE -?RoppE -?RmultE -?R0E -?R1E.
Ltac rring := toReals; lazymatch goal with |- @eq _ ?a ?b => change (@eq R a b); ring end.
Ltac rhyps := repeat match goal with
  | H : is_true (@Order.le _ _ _ _) |- _ => move/RleP in H
  | H : is_true (@Order.lt _ _ _ _) |- _ => move/RltP in H
  end.
Ltac rgoal := lazymatch goal with
  | |- is_true (@Order.le _ _ _ _) => apply/RleP
  | |- is_true (@Order.lt _ _ _ _) => apply/RltP
  | |- @eq _ ?a ?b => change (@eq R a b) end.
Ltac rrev := repeat match goal with
  | H : Rle _ _ |- _ => revert H
  | H : Rlt _ _ |- _ => revert H
  | H : @eq _ ?a ?b |- _ => revert H; change (@eq R a b -> _) end.
Ltac rlra := rhyps; rgoal; rrev; toReals; intros; lra.
Ltac rnra := rhyps; rgoal; rrev; toReals; intros; nra.
