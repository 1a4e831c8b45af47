(** Infrastructure: the Coq standard library's real numbers [R] equipped with
    the mathcomp algebraic structures up to [rcfType].  Nothing in this file
    models code of the repository. *)
From Coq Require Import Reals Lra Epsilon FunctionalExtensionality.
From mathcomp Require Import all_ssreflect all_algebra.

Set Implicit Arguments.
Unset Strict Implicit.
Unset Printing Implicit Defensive.

Local Open Scope R_scope.

Definition eqr (x y : R) : bool := if Req_EM_T x y then true else false.

Lemma eqrP : Equality.axiom eqr.
Proof. by move=> x y; rewrite /eqr; case: Req_EM_T => H; constructor. Qed.

Canonical R_eqMixin := EqMixin eqrP.
Canonical R_eqType := Eval hnf in EqType R R_eqMixin.

Definition pickR (P : pred R) (n : nat) : option R :=
  let x := epsilon (inhabits R0) (fun x => P x) in if P x then Some x else None.

Fact pickR_some P n x : pickR P n = Some x -> P x.
Proof. by rewrite /pickR; case E: (P _) => // -[<-]. Qed.

Fact pickR_ex (P : pred R) : (exists x : R, P x) -> exists n, pickR P n.
Proof.
move=> exP; exists 0%N; rewrite /pickR.
by rewrite (epsilon_spec (inhabits R0) (fun x => P x) exP).
Qed.

Fact pickR_ext (P Q : pred R) : P =1 Q -> pickR P =1 pickR Q.
Proof. by move=> PQ n; have -> : P = Q by apply: functional_extensionality. Qed.

Definition R_choiceMixin : choiceMixin R :=
  Choice.Mixin pickR_some pickR_ex pickR_ext.
Canonical R_choiceType := Eval hnf in ChoiceType R R_choiceMixin.

Fact RplusA : associative Rplus.
Proof. by move=> x y z; rewrite Rplus_assoc. Qed.
Definition R_zmodMixin := ZmodMixin RplusA Rplus_comm Rplus_0_l Rplus_opp_l.
Canonical R_zmodType := Eval hnf in ZmodType R R_zmodMixin.

Fact RmultA : associative Rmult.
Proof. by move=> x y z; rewrite Rmult_assoc. Qed.
Fact R1_neq_0 : R1 != R0.
Proof. by apply/eqP; exact: R1_neq_R0. Qed.
Definition R_ringMixin :=
  RingMixin RmultA Rmult_1_l Rmult_1_r Rmult_plus_distr_r Rmult_plus_distr_l
            R1_neq_0.
Canonical R_ringType := Eval hnf in RingType R R_ringMixin.
Canonical R_comRingType := Eval hnf in ComRingType R Rmult_comm.

(* mathcomp wants 0^-1 = 0; the standard library leaves / 0 unspecified. *)
Definition Rinvx (r : R) : R := if r != 0 then / r else r.
Definition unit_R (r : R) : bool := r != 0.

Fact RmultRinvx : {in unit_R, left_inverse 1 Rinvx Rmult}.
Proof.
move=> r; rewrite -topredE /unit_R /Rinvx => /= rNZ.
by rewrite rNZ Rinv_l //; apply/eqP.
Qed.
Fact RinvxRmult : {in unit_R, right_inverse 1 Rinvx Rmult}.
Proof. by move=> r rNZ; rewrite Rmult_comm RmultRinvx. Qed.
Fact intro_unit_R x y : y * x = 1 /\ x * y = 1 -> unit_R x.
Proof.
case=> yx1 _; apply/eqP => x0; move: yx1; rewrite x0 Rmult_0_r => H.
by apply: R1_neq_R0; rewrite -H.
Qed.
Fact Rinvx_out : {in predC unit_R, Rinvx =1 id}.
Proof. by move=> x; rewrite inE /= /unit_R /Rinvx -if_neg => ->. Qed.
Definition R_unitRingMixin :=
  UnitRingMixin RmultRinvx RinvxRmult intro_unit_R Rinvx_out.
Canonical R_unitRingType := Eval hnf in UnitRingType R R_unitRingMixin.
Canonical R_comUnitRingType := Eval hnf in [comUnitRingType of R].

Fact R_idomainMixin x y : x * y = 0 -> (x == 0) || (y == 0).
Proof. by move=> /Rmult_integral [] ->; rewrite eqxx ?orbT. Qed.
Canonical R_idomainType := Eval hnf in IdomainType R R_idomainMixin.
Lemma R_fieldMixin : GRing.Field.mixin_of [unitRingType of R].
Proof. by []. Qed.
Canonical R_fieldType := Eval hnf in FieldType R R_fieldMixin.

Definition Rleb (x y : R) : bool := if Rle_dec x y then true else false.
Definition Rltb (x y : R) : bool := if Rlt_dec x y then true else false.
Lemma RlebP x y : reflect (x <= y) (Rleb x y).
Proof. by rewrite /Rleb; case: Rle_dec => H; constructor. Qed.
Lemma RltbP x y : reflect (x < y) (Rltb x y).
Proof. by rewrite /Rltb; case: Rlt_dec => H; constructor. Qed.

Section Mixin.
Fact Rle0_add x y : Rleb 0 x -> Rleb 0 y -> Rleb 0 (x + y).
Proof. by move=> /RlebP ? /RlebP ?; apply/RlebP; lra. Qed.
Fact Rle0_mul x y : Rleb 0 x -> Rleb 0 y -> Rleb 0 (x * y).
Proof. by move=> /RlebP ? /RlebP ?; apply/RlebP; nra. Qed.
Fact Rle0_anti x : Rleb 0 x -> Rleb x 0 -> x = 0.
Proof. by move=> /RlebP ? /RlebP ?; lra. Qed.
Fact Rsub_ge0 x y : Rleb 0 (y - x) = Rleb x y.
Proof. by apply/RlebP/RlebP => ?; lra. Qed.
Fact Rle0_total x : Rleb 0 x || Rleb x 0.
Proof. by case: (Rle_dec 0 x) => H; apply/orP; [left|right]; apply/RlebP; lra. Qed.
Fact RnormN x : Rabs (- x) = Rabs x. Proof. exact: Rabs_Ropp. Qed.
Fact Rge0_norm x : Rleb 0 x -> Rabs x = x.
Proof. by move=> /RlebP ?; apply: Rabs_pos_eq. Qed.
Fact Rlt_def x y : Rltb x y = (y != x) && Rleb x y.
Proof.
apply/RltbP/andP => [H|[/eqP H /RlebP]]; last by lra.
by split; [apply/eqP; lra | apply/RlebP; lra].
Qed.
End Mixin.

Definition R_leMixin : realLeMixin R_idomainType :=
  RealLeMixin Rle0_add Rle0_mul Rle0_anti Rsub_ge0 Rle0_total RnormN Rge0_norm
              Rlt_def.
Canonical R_porderType := POrderType ring_display R R_leMixin.
Canonical R_latticeType := LatticeType R R_leMixin.
Canonical R_distrLatticeType := DistrLatticeType R R_leMixin.
Lemma Rle_total : total Rleb.
Proof. by move=> x y; case: (Rle_dec x y) => H; apply/orP; [left|right]; apply/RlebP; lra. Qed.
Canonical R_orderType := OrderType R Rle_total.
Canonical R_numDomainType := NumDomainType R R_leMixin.
Canonical R_normedZmodType := NormedZmodType R R R_leMixin.
Canonical R_numFieldType := Eval hnf in [numFieldType of R].
Canonical R_realDomainType := Eval hnf in [realDomainType of R].
Canonical R_realFieldType := Eval hnf in [realFieldType of R].

Local Close Scope R_scope.
Local Open Scope ring_scope.
Import GRing.Theory Num.Theory Order.TTheory.

Lemma RleP (x y : R) : reflect (Rle x y) (x <= y).
Proof. exact: RlebP. Qed.
Lemma RltP (x y : R) : reflect (Rlt x y) (x < y).
Proof. exact: RltbP. Qed.
Lemma RplusE : Rplus = +%R. Proof. by []. Qed.
Lemma RoppE : Ropp = -%R. Proof. by []. Qed.
Lemma RminusE x y : Rminus x y = x - y. Proof. by []. Qed.
Lemma RmultE : Rmult = *%R. Proof. by []. Qed.
Lemma R0E : R0 = 0 :> R. Proof. by []. Qed.
Lemma R1E : R1 = 1 :> R. Proof. by []. Qed.
Lemma RinvE (x : R) : x <> 0 -> Rinv x = x^-1.
Proof. by move=> /eqP H; rewrite [RHS]/GRing.inv /= /Rinvx H. Qed.
Lemma RabsE (x : R) : Rabs x = `|x|. Proof. by []. Qed.
Lemma INRE n : INR n = n%:R :> R.
Proof. by elim: n => // n IH; rewrite S_INR IH mulrSr. Qed.
Lemma RpowE x n : pow x n = x ^+ n :> R.
Proof. by elim: n => // n IH; rewrite /= IH exprS. Qed.

(* Polynomials are continuous, hence R is real closed. *)
Lemma continuity_poly (p : {poly R}) : continuity (fun x => p.[x]).
Proof.
elim/poly_ind: p => [|p c IH].
  have -> : (fun x : R => (0 : {poly R}).[x]) = fct_cte 0.
    by apply: functional_extensionality => x; rewrite horner0.
  exact: continuity_const.
have -> : (fun x => (p * 'X + c%:P).[x]) =
    plus_fct (mult_fct (fun x => p.[x]) id) (fct_cte c).
  by apply: functional_extensionality => x; rewrite hornerMXaddC.
apply: continuity_plus; last exact: continuity_const.
by apply: continuity_mult => //; apply: derivable_continuous; exact: derivable_id.
Qed.

Lemma R_real_closed : Num.real_closed_axiom R_realFieldType.
Proof.
move=> p a b; rewrite le_eqVlt => /orP [/eqP <-|ab].
  move=> pa; exists a; first by rewrite lexx.
  by rewrite rootE; apply/eqP/le_anti.
move=> /andP [pa pb].
move: pa; rewrite le_eqVlt => /orP [/eqP pa|pa].
  by exists a; [rewrite lexx ltW | rewrite rootE pa].
move: pb; rewrite le_eqVlt => /orP [/eqP pb|pb].
  by exists b; [rewrite lexx ltW | rewrite rootE -pb].
have [x [[ax xb] px]] := IVT (fun x => p.[x]) a b (continuity_poly p)
  (RltP _ _ ab) (RltP _ _ pa) (RltP _ _ pb).
by exists x; [apply/andP; split; apply/RleP | rewrite rootE; apply/eqP].
Qed.
Canonical R_rcfType := RcfType R R_real_closed.

(* Bridges to the standard library's functions and decision procedures. *)
Lemma RsqrtE (x : R) : 0 <= x -> R_sqrt.sqrt x = Num.sqrt x.
Proof.
move=> x0; apply/eqP; rewrite -(@eqr_expn2 _ 2) ?sqrtr_ge0 //.
  by rewrite sqr_sqrtr // expr2 -RmultE; apply/eqP/R_sqrt.sqrt_sqrt/RleP.
by apply/RleP/R_sqrt.sqrt_pos.
Qed.

(* Terms of type R are read in mathcomp's ring_scope from here on. *)
Bind Scope ring_scope with R.
Arguments Rpower.Rpower _ _ : clear scopes.
Arguments Rpower.ln _ : clear scopes.
Arguments Rtrigo_def.exp _ : clear scopes.
Arguments R_sqrt.sqrt _ : clear scopes.
