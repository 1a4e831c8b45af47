(* The stopping rule of the fixed-point functions: facts about [loop]. *)
From mathcomp Require Import all_ssreflect.
From Verif Require Import Model_featurearray Model_covariance Spec_covariance.
Set Implicit Arguments.
Unset Strict Implicit.
Unset Printing Implicit Defensive.

Section Loop.
Variables (St D : Type) (gt : D -> D -> bool) (np_inf : D).
Variable step : St -> res St.
Variable change : St -> St -> D.

Local Notation updates := (updates step).
Local Notation reported := (reported np_inf step change).
Local Notation stops_with := (stops_with gt np_inf step change).
Lemma updatesS k s s' : step s = Ok s' -> updates k.+1 s = updates k s'.
Proof. by move=> e; elim: k => [|k /= ->] //=; rewrite ?e. Qed.

Lemma reported_inj s0 k d d' : reported s0 k d -> reported s0 k d' -> d = d'.
Proof.
case: k => [-> -> //|k [s' [s [e1 e2 ->]]] [t' [t [e3 e4 ->]]]].
by move: e3 e4; rewrite e1 e2 => -[->] [->].
Qed.

Lemma while_spec fuel tol m s0 k s d :
  updates k s0 = Ok s -> reported s0 k d -> (k <= m)%N -> (m < fuel + k)%N ->
  (forall j dj, (j < k)%N -> reported s0 j dj -> gt dj tol) ->
  (exists s' d' k', while fuel (loop_cond gt tol m) (loop_body step change) (s, d, k) = Some (Ok (s', d', k'))
      /\ stops_with tol m s0 s' d' k') \/
  (exists e j, while fuel (loop_cond gt tol m) (loop_body step change) (s, d, k) = Some (Err e)
      /\ [/\ updates j s0 = Err e, (0 < j <= m)%N & forall j' d', (j' < j)%N -> reported s0 j' d' -> gt d' tol]).
Proof.
elim: fuel k s d => [|fuel IH] k s d e rep km fk prev.
  by have := leq_trans fk km; rewrite ltnn.
rewrite [while _ _ _ _]/=; case C: (gt d tol && (k < m)%N).
  case/andP: C => C1 C2; rewrite /=; case E: (step s) => [s'|x] /=.
    apply: IH => //.
    - by rewrite /= e.
    - by exists s, s'; split; rewrite //= e.
    - by rewrite -addSnnS.
    - move=> j dj; rewrite ltnS leq_eqVlt => /orP [/eqP -> r|h]; last exact: prev.
      by rewrite (reported_inj r rep).
  right; exists x, k.+1; split=> //; split; rewrite /= ?e ?E //.
  move=> j d'; rewrite ltnS leq_eqVlt => /orP [/eqP -> r|h]; last exact: prev.
  by rewrite (reported_inj r rep).
left; exists s, d, k; split=> //; split=> // g; move: C; rewrite g /= => /negbT.
by rewrite -leqNgt => mk; apply/eqP; rewrite eqn_leq km mk.
Qed.

Theorem loop_spec tol m s0 :
  (exists s d k, loop gt np_inf step change tol m s0 = Some (Ok (s, d, k)) /\ stops_with tol m s0 s d k) \/
  (exists e j, loop gt np_inf step change tol m s0 = Some (Err e)
      /\ [/\ updates j s0 = Err e, (0 < j <= m)%N & forall j' d', (j' < j)%N -> reported s0 j' d' -> gt d' tol]).
Proof. by apply: while_spec; rewrite // addn0. Qed.

(* the outcome is determined by its specification *)
Lemma stops_with_unique tol m s0 s d k s' d' k' :
  stops_with tol m s0 s d k -> stops_with tol m s0 s' d' k' -> [/\ s = s', d = d' & k = k'].
Proof.
move=> [e r km st pr] [e' r' km' st' pr'].
have kk : k = k'.
  case: (ltngtP k k') => // h.
  - by have := st (pr' _ _ h r) => km0; rewrite km0 ltnNge km' in h.
  - by have := st' (pr _ _ h r') => km0; rewrite km0 ltnNge km in h.
by subst k'; move: e'; rewrite e => -[<-]; rewrite (reported_inj r r').
Qed.

Lemma loop_stops tol m s0 s d k : loop gt np_inf step change tol m s0 = Some (Ok (s, d, k)) ->
  stops_with tol m s0 s d k.
Proof.
move=> h; case: (loop_spec tol m s0) => [[s' [d' [k' [e r]]]]|[x [j [e _]]]]; last by rewrite h in e.
by move: e r; rewrite h => -[<- <- <-].
Qed.

(* invariants *)
Lemma updates_inv (I : St -> Prop) k s0 s : I s0 -> (forall s s', I s -> step s = Ok s' -> I s') ->
  updates k s0 = Ok s -> I s.
Proof.
move=> i0 ist; elim: k s => [|k IH] s /=; first by case=> <-.
by case E: (updates k s0) => [s'|] //= /ist; apply; apply: IH.
Qed.
End Loop.

(* two loops whose states stay related *)
Section Sim.
Variables (S1 S2 D : Type) (gt : D -> D -> bool) (inf : D).
Variables (step1 : S1 -> res S1) (step2 : S2 -> res S2).
Variables (ch1 : S1 -> S1 -> D) (ch2 : S2 -> S2 -> D).
Variable Rel : S1 -> S2 -> Prop.
Definition rres (r1 : res S1) (r2 : res S2) := match r1, r2 with
  | Ok a, Ok b => Rel a b | Err e, Err e' => e = e' | _, _ => False end.
Hypothesis Hstep : forall a b, Rel a b -> rres (step1 a) (step2 b).
Hypothesis Hch : forall a b a' b', Rel a b -> step1 a = Ok a' -> step2 b = Ok b' -> Rel a' b' -> ch1 a' a = ch2 b' b.
Definition rout (r1 : option (res (S1 * D * nat))) (r2 : option (res (S2 * D * nat))) := match r1, r2 with
  | Some (Ok (a, d, k)), Some (Ok (b, d', k')) => [/\ Rel a b, d = d' & k = k']
  | Some (Err e), Some (Err e') => e = e'
  | None, None => True
  | _, _ => False end.
Lemma while_sim fuel tol m a b d k : Rel a b ->
  rout (while fuel (loop_cond gt tol m) (loop_body step1 ch1) (a, d, k))
       (while fuel (loop_cond gt tol m) (loop_body step2 ch2) (b, d, k)).
Proof.
elim: fuel a b d k => [|f IH] a b d k r /=; case: (gt d tol && (k < m)%N) => //=.
have := Hstep r; case E1: (step1 a) => [a'|e]; case E2: (step2 b) => [b'|e'] //= h.
by rewrite (Hch r E1 E2 h); apply: IH.
Qed.
Lemma loop_sim tol m a b : Rel a b -> rout (loop gt inf step1 ch1 tol m a) (loop gt inf step2 ch2 tol m b).
Proof. exact: while_sim. Qed.
Lemma updates_sim k a b : Rel a b -> rres (updates step1 k a) (updates step2 k b).
Proof.
move=> r; elim: k => [//|k] /=.
by case: (updates step1 k a) => [a'|e]; case: (updates step2 k b) => [b'|e'] //= /Hstep.
Qed.
End Sim.
