(* Bounded sequences of real or complex matrices have cluster points.  Nothing here models code. *)
From Coq Require Import Reals Rtopology Epsilon Lra.
From mathcomp Require Import all_ssreflect all_algebra.
From mathcomp Require Import complex.
From Verif Require Import RealsMC RealTac RealTac2 Star StarInst FunCalc.
Set Implicit Arguments.
Unset Strict Implicit.
Unset Printing Implicit Defensive.
Local Open Scope ring_scope.
Import GRing.Theory Num.Theory Order.TTheory.

Definition tends (u : nat -> R) (l : R) := forall e : R, 0 < e -> exists k0, forall k, (k0 <= k)%N -> `|u k - l| <= e.
Definition later (phi : nat -> nat) := forall k, (k <= phi k)%N.
Lemma tends_sub u l phi : later phi -> tends u l -> tends (u \o phi) l.
Proof. by move=> s h e /h [k0 hk]; exists k0 => k kk; apply: hk; exact: leq_trans kk (s k). Qed.
Lemma bw1 (u : nat -> R) (M : R) : (forall k, `|u k| <= M) -> exists phi l, later phi /\ tends (u \o phi) l.
Proof.
move=> h.
have [l hl] : exists l, ValAdh u l.
  apply: (Bolzano_Weierstrass u (fun c => Rle (- M) c /\ Rle c M)); first exact: compact_P3.
  by move=> k; have := h k; rewrite ler_norml => /andP [/RleP a /RleP b].
have ex (k : nat) : exists n, (k <= n)%N /\ `|u n - l| <= (k.+1%:R : R)^-1.
  have k0 : (0 < (k.+1%:R : R)^-1)%R by rewrite invr_gt0 ltr0n.
  have [|n [kn dn]] := hl (disc l (mkposreal _ (elimT (RltP _ _) k0))) k.
    by exists (mkposreal _ (elimT (RltP _ _) k0)).
  exists n; split; first by apply/ssrnat.leP.
  by move: dn; rewrite /disc /= => /RltP /ltW.
pose phi k := epsilon (inhabits 0%N) (fun n => (k <= n)%N /\ `|u n - l| <= (k.+1%:R : R)^-1).
have pk k : (k <= phi k)%N /\ `|u (phi k) - l| <= (k.+1%:R : R)^-1 by exact: (epsilon_spec (inhabits 0%N) _ (ex k)).
exists phi, l; split=> [k|e e0]; first by case: (pk k).
have [n hn] : exists n : nat, e^-1 < n%:R.
  have [a _] := archimed e^-1; exists (Z.to_nat (up e^-1)); rewrite natIZR; apply/RltP; apply: Rlt_le_trans a _; apply: IZR_le.
  by move: (up _) => z; case: z => //= *; rewrite ?positive_nat_Z; try exact: Z.le_refl.
exists n => k nk; case: (pk k) => _ /le_trans; apply.
rewrite -[X in _ <= X]invrK lef_pinv ?posrE ?invr_gt0 ?ltr0n //; apply: le_trans (ltW hn) _; by rewrite ler_nat (leq_trans nk).
Qed.
Lemma bw_fin (T : finType) (s : nat -> T -> R) (M : R) : (forall k t, `|s k t| <= M) ->
  exists phi l, later phi /\ forall t, tends (fun k => s (phi k) t) (l t).
Proof.
move=> h; suff : forall r : seq T, exists phi l, later phi /\ forall t, t \in r -> tends (fun k => s (phi k) t) (l t).
  by move=> /(_ (enum T)) [phi [l [a b]]]; exists phi, l; split=> // t; apply: b; rewrite mem_enum inE.
elim=> [|t r [phi [l [a b]]]]; first by exists id, (fun _ => 0); split=> [k|t]; [exact: leqnn | by rewrite in_nil].
have [psi [v [c d]]] := @bw1 (fun k => s (phi k) t) M (fun k => h (phi k) t).
exists (phi \o psi), (fun x => if x == t then v else l x); split.
  by move=> k /=; apply: leq_trans (c k) (a (psi k)).
move=> x; rewrite in_cons; case: eqP => [-> _|_ /= xr]; first exact: d.
exact: (tends_sub c (b x xr)).
Qed.
(* finitely many limits at once *)
Lemma tends_all (T : finType) (s : nat -> T -> R) (l : T -> R) : (forall t, tends (fun k => s k t) (l t)) ->
  forall e : R, 0 < e -> exists k0, forall k, (k0 <= k)%N -> forall t, `|s k t - l t| <= e.
Proof.
move=> h e e0; suff : forall r : seq T, exists k0, forall k, (k0 <= k)%N -> forall t, t \in r -> `|s k t - l t| <= e.
  by move=> /(_ (enum T)) [k0 H]; exists k0 => k kk t; apply: H => //; rewrite mem_enum inE.
elim=> [|t r [k0 H]]; first by exists 0%N.
have [k1 H1] := h t e e0; exists (maxn k0 k1) => k; rewrite geq_max => /andP [a b] x; rewrite in_cons => /orP [/eqP ->|]; [exact: H1 | exact: H].
Qed.

(* cluster points of bounded sequences of matrices *)
Definition compactK (K : starField) := forall m n (s : nat -> 'M[K]_(m, n)) (M : R), (forall k, fro2 (s k) <= M) ->
  exists L, forall (e : R) (k0 : nat), 0 < e -> exists2 k, (k0 <= k)%N & fro2 (s k - L) <= e.
Lemma norm_le_sq (a M : R) : a ^+ 2 <= M -> `|a| <= 1 + M.
Proof.
move=> h; have M0 := le_trans (sqr_ge0 a) h; rewrite ler_norml; apply/andP; move: h; rewrite expr2 => h.
by split; rnra2.
Qed.
Lemma sq_le_norm (a e : R) : `|a| <= e -> a ^+ 2 <= e ^+ 2.
Proof. by move=> h; rewrite -[a ^+ 2]ger0_norm ?sqr_ge0 // normrX; apply: ler_expn2r => //; rewrite nnegrE ?normr_ge0 // (le_trans _ h). Qed.
Lemma small_sq (n : nat) (e : R) : 0 < e -> exists2 d : R, 0 < d & n%:R * d ^+ 2 <= e.
Proof.
move=> e0; exists (R_sqrt.sqrt (e / n.+1%:R)); first by rewrite sqrtR_gt0 // divr_gt0 ?ltr0n.
rewrite expr2 sqrtR_sqr; last by rewrite divr_ge0 ?ler0n // ltW.
rewrite mulrCA; apply: ler_pimulr; first exact: ltW.
by rewrite ler_pdivr_mulr ?ltr0n // mul1r ler_nat.
Qed.
Lemma real_compact : compactK real_sf.
Proof.
move=> m n s M h.
have fE (A : 'M[real_sf]_(m, n)) : fro2 A = \sum_(t : 'I_m * 'I_n) A t.1 t.2 ^+ 2.
  by rewrite /fro2 pair_big /=; apply: eq_bigr => t _; rewrite expr2.
have [k t|phi [l [sp hl]]] := @bw_fin [finType of 'I_m * 'I_n] (fun k t => s k t.1 t.2) (1 + M).
  apply: norm_le_sq; apply: le_trans (h k); rewrite fE (bigD1 t) //= ler_addl.
  by apply: sumr_ge0 => x _; exact: sqr_ge0.
exists (\matrix_(i, j) l (i, j)) => e k0 e0.
have [d d0 hd] := small_sq #|[finType of 'I_m * 'I_n]| e0.
have [k1 H] := tends_all hl d0; pose k := maxn k0 k1.
exists (phi k); first by apply: leq_trans (sp _); exact: leq_maxl.
apply: le_trans hd; rewrite fE -sum1_card natr_sum mulr_suml; apply: ler_sum => t _; rewrite mul1r !mxE; apply: sq_le_norm.
by rewrite -surjective_pairing; apply: H; exact: leq_maxr.
Qed.
Lemma complex_compact : compactK complex_sf.
Proof.
move=> m n s M h; pose T := [finType of 'I_m * 'I_n * bool].
pose co (A : 'M[complex_sf]_(m, n)) (t : T) : R := if t.2 then complex.Re (A t.1.1 t.1.2) else complex.Im (A t.1.1 t.1.2).
have fE (A : 'M[complex_sf]_(m, n)) : fro2 A = \sum_(t : T) co A t ^+ 2.
  rewrite /fro2 pair_big /= -(pair_big xpredT xpredT (fun x b => co A (x, b) ^+ 2)) /=; apply: eq_bigr => t _.
  by rewrite big_bool /co /=; case: (A _ _) => a b /=; rewrite mulrN opprK !expr2.
have [k t|phi [l [sp hl]]] := @bw_fin T (fun k t => co (s k) t) (1 + M).
  apply: norm_le_sq; apply: le_trans (h k); rewrite fE (bigD1 t) //= ler_addl.
  by apply: sumr_ge0 => x _; exact: sqr_ge0.
exists (\matrix_(i, j) Complex (l (i, j, true)) (l (i, j, false))) => e k0 e0.
have [d d0 hd] := small_sq #|T| e0.
have [k1 H] := tends_all hl d0; pose k := maxn k0 k1.
exists (phi k); first by apply: leq_trans (sp _); exact: leq_maxl.
apply: le_trans hd; rewrite fE -sum1_card natr_sum mulr_suml; apply: ler_sum => t _; rewrite mul1r; apply: sq_le_norm.
suff -> : co (s (phi k) - (\matrix_(i, j) Complex (l (i, j, true)) (l (i, j, false)))) t = co (s (phi k)) t - l t by apply: H; exact: leq_maxr.
by case: t => -[i j] [] /=; rewrite /co /= !mxE; case: (s _ _ _).
Qed.
