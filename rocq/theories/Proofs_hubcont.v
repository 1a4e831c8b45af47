(* The equation iterated by the Huber functions when the samples move a little.  Nothing here models code. *)
From Coq Require Import Reals Epsilon Lra Classical_Prop.
From mathcomp Require Import all_ssreflect all_algebra.
From mathcomp Require Import complex zify.
From Verif Require Import RealsMC RealTac RealTac2 Star FunCalc Compact Spec_covariance Spec_fixedpoint Spec_hubiter Spec_exist Spec_breakdown Proofs_mest Proofs_cost Proofs_unique Proofs_unique2
  Proofs_estimators Proofs_converge Props_cost Props_robust Props_robust2 Props_unique Props_converge Proofs_hubiter Proofs_hubiter2 Props_hubiter Proofs_exist Proofs_exist2 Props_exist
  Proofs_breakdown Proofs_stable Proofs_stable2 Proofs_tycont Props_natgrad.
Set Implicit Arguments.
Unset Strict Implicit.
Unset Printing Implicit Defensive.
Local Open Scope ring_scope.
Import GRing.Theory Num.Theory Order.TTheory.

Lemma near_sq_arith (f : R) : 0 <= f -> f <= 1 -> (1 + f) ^+ 2 <= 1 + 3%:R * f.
Proof. by move=> f0 f1; have ff : f * f <= f by [rewrite ler_pimulr]; move: ff; rewrite expr2 => ff; clear -ff; rlra2. Qed.
Lemma near_lin (f r s : R) : 0 <= f -> f <= 1 -> 0 <= s -> r <= (1 + 3%:R * f) * s -> r <= s + f * (12%:R * s) /\ r <= 4%:R * s.
Proof.
move=> f0 f1 s0 h; have fs : f * s <= s by rewrite ler_pimull.
have fs0 : 0 <= f * s by rewrite mulr_ge0.
have e : (1 + 3%:R * f) * s = s + 3%:R * (f * s) by rring.
by rewrite e in h; split; [have -> : f * (12%:R * s) = 12%:R * (f * s) by rring |]; move: (f * s) fs fs0 h => x fs fs0 h; rlra2.
Qed.
Lemma near_lin2 (f r s : R) : 0 <= f -> f <= 1 -> 0 <= s -> 0 <= r -> r <= (1 + 3%:R * f) * s -> s <= 4%:R * r -> r <= s + f * (12%:R * r).
Proof.
move=> f0 f1 s0 r0 h sr; have e : (1 + 3%:R * f) * s = s + 3%:R * (f * s) by rring.
have fs : f * s <= f * (4%:R * r) by exact: ler_wpmul2l.
rewrite e in h; have e2 : f * (4%:R * r) = 4%:R * (f * r) by rring.
rewrite e2 in fs; have -> : f * (12%:R * r) = 12%:R * (f * r) by rring.
by move: (f * s) (f * r) fs h => x y fs h; rlra2.
Qed.

Section Hub.
Variable K : starField.
Local Notation ofR := (@ofR K).
Local Notation toR := (@toR K).
Local Notation cj := (@cj K).
Local Notation "A ^H" := (adj A) (at level 8, format "A ^H").
Hypothesis cK : compactK K.
Variables (lb b : R).
Hypotheses (l0 : 0 < lb) (b0 : 0 < b).
Local Notation u := (code_weight lb b).
Local Notation rho := (hrho lb b).
Section Any.
Variables (N p : nat) (Y : 'M[K]_(N, p)).
Hypothesis N0 : (0 < N)%N.
Local Notation F := (mstep (hub_w lb b N) Y).
Lemma hub_opp S T l : pd S -> pd T -> 1 <= l -> loewner S (ofR l *: T) -> loewner (F T) (ofR l *: F S).
Proof.
move=> pS pT l1 le; apply: wsum_loewner => i; rewrite /hub_w [l * _]mulrCA ler_pmul2l ?invr_gt0 ?ltr0n //.
have h := maha_loewner (samp Y i) pS pT le; apply: le_trans (u_mono l0 b0 h) _; apply: u_scale => //; exact: maha_ge0.
Qed.
Lemma hub_close e S T : pd S -> pd T -> 0 <= e -> close e S T -> close e (F S) (F T).
Proof. by move=> pS pT e0 [h1 h2]; split; apply: hub_opp => //; rewrite ler_addl. Qed.
Lemma hub_stays L S e j : spanning Y -> pd L -> F L = L -> 0 <= e -> pd S -> close e S L -> close e (iter j F S) L.
Proof.
move=> sp pL fL e0 pS h; have pk k : pd (iter k F S) by elim: k => //= k; exact: hub_pd.
by elim: j => //= j IH; rewrite -fL; exact: hub_close.
Qed.
End Any.
Variables (N p : nat) (X : 'M[K]_(N, p.+1)).
Hypotheses (N0 : (0 < N)%N) (X0 : forall i, row i X != 0) (sp : spanning X).
Local Notation F := (mstep (hub_w lb b N) X).
Variable S : 'M[K]_p.+1.
Hypotheses (pS : pd S) (fS : F S = S).
(* matrices of almost minimal cost are near the solution *)
Lemma hub_excess_close (t : R) : 0 < t -> exists2 eta : R, 0 < eta & forall s, pd s -> mcost rho X s <= mcost rho X S + eta -> close t s S.
Proof.
move=> t0; apply: NNPP => no.
pose P k s := [/\ pd s, mcost rho X s <= mcost rho X S + k.+1%:R^-1 & ~ close t s S].
have ex k : exists s, P k s.
  apply: NNPP => nk; apply: no; exists k.+1%:R^-1; first by rewrite invr_gt0 ltr0n.
  by move=> s ps es; apply: NNPP => nc; apply: nk; exists s.
pose s k := epsilon (inhabits (1%:M : 'M[K]_p.+1)) (P k).
have hs k : P k (s k) by exact: (epsilon_spec (inhabits (1%:M : 'M[K]_p.+1)) (P k) (ex k)).
have ps k : pd (s k) by case: (hs k).
have [l l_0 hb] := band l0 b0 N0 sp (mcost rho X S + 1).
have i1 k : k.+1%:R^-1 <= 1 :> R by rewrite invf_le1 ?ltr0n // ler1n.
have bs k : loewner 1%:M (ofR l *: s k) /\ loewner (s k) (ofR l *: 1%:M).
  by have [p_ le _] := hs k; apply: hb => //; apply: le_trans le _; rewrite ler_add2l.
have [L pL hL] := cluster cK l_0 (fun k => pd_herm (ps k)) (fun k => (bs k).1) (fun k => (bs k).2).
have le : mcost rho X L <= mcost rho X S.
  rewrite -subr_le0; pose C : R := 12%:R * (\sum_i rho (maha L (samp X i))) + N%:R * p.+1%:R + 1.
  have C0 : 0 <= C.
    by rewrite addr_ge0 ?ler01 // addr_ge0 ?mulr_ge0 ?ler0n // sumr_ge0 // => i _; apply: hrho_ge0 => //; exact: maha_ge0.
  apply: (small_coef C0 ltr01) => e e0 e1; have [k0 hk] := arch 1 e0; have [k kk cl] := hL e k0 e0.
  have := cost_close l0 b0 X N0 pL (ps k) e0 e1 cl; have [_ le _] := hs k.
  have ke : k.+1%:R^-1 <= e.
    rewrite -div1r ler_pdivr_mulr ?ltr0n // mulrC; apply: le_trans (ltW hk) _; rewrite ler_pmul2r // ler_nat; exact: leqW.
  by rewrite /C; exact: lin5 le ke.
have fL : F L = L.
  apply: hub_stationary => // T pT; apply: le_trans le _; exact: hub_min.
have eL : L = S by apply: (hub_unique l0 b0 N0 X0).
by have [k _ h] := hL t 0%N t0; have [_ _ nc] := hs k; apply: nc; rewrite -eL.
Qed.
(* the cost is continuous in the samples, uniformly on the matrices between two bounds *)
Lemma hub_cost_near (l e : R) : 0 < l -> 0 < e -> near_data X (fun Y => forall T, pd T -> loewner 1%:M (ofR l *: T) -> loewner T (ofR l *: 1%:M) ->
  mcost rho Y T <= mcost rho X T + e /\ mcost rho X T <= mcost rho Y T + e).
Proof.
move=> lp e0; have [n n0 hn] := nrm2_bound X0; pose B := \sum_i rho (l * nrm2 (samp X i)).
have nn i : 0 <= l * nrm2 (samp X i) by rewrite mulr_ge0 ?(ltW lp) // (le_trans (ltW n0)).
have B0 : 0 <= B by apply: sumr_ge0 => i _; exact: hrho_ge0.
pose f := Num.min 1 (e / (12%:R * B + 1)); have d0 : 0 < 12%:R * B + 1 by apply: ltr_paddl; rewrite ?ltr01 // mulr_ge0 ?ler0n.
have f0 : 0 < f by rewrite lt_minr ltr01 divr_gt0.
have f1 : f <= 1 by rewrite le_minl lexx.
have fe : f * (12%:R * B) <= e.
  have : f * (12%:R * B + 1) <= e by rewrite -ler_pdivl_mulr // le_minl lexx orbT.
  by apply: le_trans; apply: ler_wpmul2l; [exact: ltW | rewrite ler_addl ler01].
have n4 : 0 < n / 4%:R by rewrite divr_gt0 ?ltr0n.
have [dl dl0 hd] := @maha_near K p (l ^+ 2) _ _ n4 f0; pose d := Num.min dl (n / 4%:R).
exists d; first by rewrite lt_minr dl0.
move=> Y; rewrite le_minr => /andP[h1 h2] T pT lo up; have near i := le_trans (nrm2_le_fro2 X Y i) h1.
have cT : conditioned (l ^+ 2) T.
  exists l^-1; rewrite ?invr_gt0 //; split.
    by have := loewnerZ (ltW (etrans (invr_gt0 _) lp)) lo; rewrite scalerA -rmorphM mulVf ?gt_eqF // (rmorph1 (@Star.ofR K)) scale1r.
  by rewrite expr2 -mulrA divff ?gt_eqF // mulr1.
have bx i : n / 4%:R <= nrm2 (samp X i) by apply: le_trans (hn i); rewrite ler_pdivr_mulr ?ltr0n // ler_pemulr ?(ltW n0) // ler1n.
have by_ i : n / 4%:R <= nrm2 (samp Y i).
  have h := nrm2D (samp Y i) (- (samp Y i - samp X i)); rewrite subKr nrm2N in h.
  rewrite ler_pdivr_mulr ?ltr0n // [X in _ <= X]mulrC; apply: quarter (le_trans (hn i) h) _.
  rewrite mulrC -ler_pdivl_mulr ?ltr0n //; exact: le_trans (nrm2_le_fro2 X Y i) h2.
have a1 i : maha T (samp Y i) <= (1 + f) * maha T (samp X i).
  by have -> : samp Y i = samp X i + (samp Y i - samp X i) by [rewrite addrC subrK]; apply: hd.
have a2 i : maha T (samp X i) <= (1 + f) * maha T (samp Y i).
  by have {1}-> : samp X i = samp Y i + - (samp Y i - samp X i) by [rewrite subKr]; apply: hd => //; rewrite nrm2N.
have sB : \sum_i rho (maha T (samp X i)) <= B.
  apply: ler_sum => i _; apply: hrho_mono => //; first exact: maha_ge0.
  by rewrite /nrm2 -maha1; apply: maha_loewner => //; exact: pd1.
have g1 : 1 <= 1 + f by rewrite ler_addl ltW.
have rs q q' : 0 <= q -> 0 <= q' -> q <= (1 + f) * q' -> rho q <= (1 + 3%:R * f) * rho q'.
  move=> q0 q0' h; apply: le_trans (hrho_mono l0 b0 q0 h) _; apply: le_trans (hrho_scale l0 b0 q0' g1) _.
  by apply: ler_wpmul2r; [exact: hrho_ge0 | apply: near_sq_arith => //; exact: ltW].
have m0 Z i : 0 <= maha T (samp Z i) := maha_ge0 (samp Z i) pT.
have r0 (Z : 'M[K]_(N, p.+1)) i : 0 <= rho (maha T (samp Z i)) by exact: hrho_ge0.
have c1 i : rho (maha T (samp Y i)) <= rho (maha T (samp X i)) + f * (12%:R * rho (maha T (samp X i))) /\ rho (maha T (samp Y i)) <= 4%:R * rho (maha T (samp X i)).
  by apply: near_lin => //; [exact: ltW | apply: rs].
have c2 i : rho (maha T (samp X i)) <= rho (maha T (samp Y i)) + f * (12%:R * rho (maha T (samp X i))).
  by apply: near_lin2 => //; [exact: ltW | apply: rs | case: (c1 i)].
have tot : f * (12%:R * \sum_i rho (maha T (samp X i))) <= e.
  by apply: le_trans fe; apply: ler_wpmul2l; [exact: ltW | apply: ler_wpmul2l; rewrite ?ler0n].
have fin (g h : 'I_N -> R) : (forall i, g i <= h i + f * (12%:R * rho (maha T (samp X i)))) -> \sum_i g i <= \sum_i h i + e.
  move=> gh; apply: (@le_trans _ _ (\sum_i h i + f * (12%:R * \sum_i rho (maha T (samp X i))))); last by rewrite ler_add2l.
  by rewrite !mulr_sumr -big_split; apply: ler_sum => i _; exact: gh.
by split; rewrite /mcost addrAC ler_add2r; apply: fin => i; [case: (c1 i) | exact: c2].
Qed.
Lemma near_spans : near_data X (fun Y => (forall i, row i Y != 0) /\ spanning Y).
Proof.
apply: near_imp (near_and (near_nonzero X0) (near_rank 1%:M X)) => Y [Y0]; rewrite !mul1mx (rank_spanning sp) => h; split=> //.
by apply: spanning_rank; apply/eqP; rewrite eqn_leq rank_leq_col.
Qed.
Lemma hub_start_mean : start X (wsum (fun=> N%:R^-1)).
Proof. by apply: (start_mean_of N0); apply: near_imp near_spans => Y []. Qed.
(* the solutions for the samples near X are between common bounds *)
Lemma near_band : exists2 l : R, 0 < l & near_data X (fun Y => forall T, pd T -> mstep (hub_w lb b N) Y T = T ->
  loewner 1%:M (ofR l *: T) /\ loewner T (ofR l *: 1%:M)).
Proof.
have [_ c] := hub_start_mean; have pm : pd (scm X) by exact: scm_pd.
have [m [m1 h1 h2]] := pd_comparable (pd1 K p.+1) pm; have m0 := lt_le_trans ltr01 m1.
pose M := Num.max b (N%:R / lb); have M0 : 0 < M by rewrite lt_maxr b0.
pose l := m * 2%:R / b + M * 2%:R * m; have t0 : 0 < 2%:R :> R by rewrite ltr0n.
have la : 0 < m * 2%:R / b by rewrite divr_gt0 // mulr_gt0.
have lc : 0 < M * 2%:R * m by rewrite !mulr_gt0.
exists l; first by rewrite addr_gt0.
apply: near_imp (near_and near_spans (c 1 ltr01)) => Y [[Y0 spY] [d1 d2]] T pT fT; rewrite -/(scm Y) -/(scm X) in d1 d2.
have e2 : 1 + 1 = 2%:R :> R by [].
rewrite e2 in d1 d2; have lo : loewner (ofR b *: scm Y) T by rewrite -fT; exact: hub_ge.
have up : loewner T (ofR M *: scm Y) by rewrite -{1}fT; exact: hub_le.
split.
  apply: loewner_trans (_ : loewner 1%:M (ofR (m * 2%:R / b) *: T)) _; last by apply: loewner_le; [exact: pd_psd | rewrite ler_addl ltW].
  apply: loewner_comp (_ : loewner (scm Y) (ofR b^-1 *: T)); [by rewrite ltW // mulr_gt0 | by apply: loewner_comp h1 d2; exact: ltW |].
  by have := loewnerZ (ltW (etrans (invr_gt0 _) b0)) lo; rewrite scalerA -rmorphM mulVf ?gt_eqF // (rmorph1 (@Star.ofR K)) scale1r.
apply: loewner_trans (_ : loewner T (ofR (M * 2%:R * m) *: 1%:M)) _; last by apply: loewner_le; [exact/pd_psd/pd1 | rewrite ler_addr ltW].
apply: loewner_comp h2; first by rewrite ltW // mulr_gt0.
by apply: loewner_comp up d1; exact: ltW.
Qed.
Lemma hub_near (t : R) : 0 < t -> near_data X (fun Y => forall T, pd T -> mstep (hub_w lb b N) Y T = T -> close t T S).
Proof.
move=> t0; have [l lp hl] := near_band; have [s1 s2] : loewner 1%:M (ofR l *: S) /\ loewner S (ofR l *: 1%:M) := near_at hl S pS fS.
have [eta e0 he] := hub_excess_close t0; have e2 : 0 < eta / 2%:R by rewrite divr_gt0 ?ltr0n.
apply: near_imp (near_and near_spans (near_and hl (hub_cost_near lp e2))) => Y [[Y0 spY] [bY cY]] T pT fT; apply: he => //.
have [t1 t2] := bY T pT fT; have [_ h1] := cY T pT t1 t2; have [h2 _] := cY S pS s1 s2; apply: le_trans h1 _.
have h3 := hub_min l0 b0 N0 Y0 pT pS fT.
have -> : eta = eta / 2%:R + eta / 2%:R by rfield.
move: (eta / 2%:R) h2 h3; move: (mcost _ _ _) (mcost _ _ _) (mcost _ _ _) => x y z q h2 h3; rlra2.
Qed.
(* the iteration is continuous in the samples *)
Lemma u_lip q q' : 0 <= q -> q <= q' -> u q' - u q <= b / lb * (q' - q).
Proof.
move=> q0 qq; rewrite /code_weight -mulrBr -mulrA ler_pmul2l //.
case: (leP q' lb) => h'; case: (leP q lb) => h.
- by rewrite subrr mulr_ge0 ?invr_ge0 ?(ltW l0) // subr_ge0.
- by move: (lt_le_trans h (le_trans qq h')); rewrite ltxx.
- by rewrite mulrBr ![lb^-1 * _]mulrC ler_add2l ler_opp2 ler_pdivr_mulr // mul1r.
- by rewrite mulrBr ![lb^-1 * _]mulrC.
Qed.
Lemma hub_w_lip q q' : 0 <= q -> 0 <= q' -> (hub_w lb b N q - hub_w lb b N q') ^+ 2 <= (N%:R^-1 * (b / lb)) ^+ 2 * (q - q') ^+ 2.
Proof.
have n0 : 0 <= N%:R^-1 :> R by rewrite invr_ge0 ler0n.
have bl : 0 <= b / lb by rewrite divr_ge0 ?ltW.
have G (x y : R) : 0 <= x -> x <= y -> (hub_w lb b N x - hub_w lb b N y) ^+ 2 <= (N%:R^-1 * (b / lb)) ^+ 2 * (x - y) ^+ 2.
  move=> x0 xy; rewrite -exprMn -sqrrN -[X in _ <= X]sqrrN opprB -mulrN opprB /hub_w -mulrBr -mulrA.
  have yx : 0 <= u y - u x by rewrite subr_ge0; exact: u_mono.
  apply: ler_expn2r; last by apply: ler_wpmul2l => //; exact: u_lip.
    by rewrite nnegrE mulr_ge0.
  by rewrite nnegrE; apply: mulr_ge0 => //; apply: mulr_ge0 => //; rewrite subr_ge0.
move=> q0 q0'; case: (leP q q') => h; first exact: G.
by rewrite -sqrrN opprB -[(q - q') ^+ 2]sqrrN opprB; apply: G => //; exact: ltW.
Qed.
Lemma cont_maha (T : 'M[K]_p.+1) i : pd T -> contK (fun Y => ofR (maha T (samp Y i))) X.
Proof.
move=> pT; pose f (Y : 'M[K]_(N, p.+1)) := \sum_l (\sum_m cj (Y i m) * invmx T m l) * Y i l.
have E Y : ofR (maha T (samp Y i)) = f Y.
  rewrite ofR_maha // /qf /sesq mxE; apply: eq_bigr => l _.
  by rewrite !mxE; congr (_ * _); apply: eq_bigr => m _; rewrite adjE !mxE.
move=> e e0; apply: near_imp (_ : near_data X (fun Y => sq (f Y - f X) <= e)); first by move=> Y h; rewrite !E; exact: h.
apply: (_ : contK f X) => //; apply: cont_sum => l; apply: cont_mul; last exact: cont_entry.
apply: cont_sum => m; apply: cont_mul; last exact: cont_const.
apply: cont_cj; exact: cont_entry.
Qed.
Lemma sq_ofR (x : R) : sq (ofR x) = x ^+ 2.
Proof. by rewrite /sq cj_ofR -rmorphM toRK expr2. Qed.
Lemma cont_hw (T : 'M[K]_p.+1) i : pd T -> contK (fun Y => ofR (hub_w lb b N (maha T (samp Y i)))) X.
Proof.
move=> pT e e0; pose c : R := (N%:R^-1 * (b / lb)) ^+ 2.
have c0 : 0 < c by rewrite exprn_gt0 // mulr_gt0 ?invr_gt0 ?ltr0n // divr_gt0.
have d0 : 0 < e / c by rewrite divr_gt0.
apply: near_imp (cont_maha i pT d0) => Y; rewrite -!rmorphB !sq_ofR ler_pdivl_mulr // => h.
by apply: le_trans (hub_w_lip _ _) _; rewrite ?maha_ge0 // mulrC.
Qed.
Lemma cont_hstep (T : 'M[K]_p.+1) : pd T -> forall e : R, 0 < e -> near_data X (fun Y => fro2 (mstep (hub_w lb b N) Y T - F T) <= e).
Proof.
move=> pT; apply: cont_mx => j k.
pose f (Y : 'M[K]_(N, p.+1)) := \sum_i ofR (hub_w lb b N (maha T (samp Y i))) * (Y i j * cj (Y i k)).
have E Y : mstep (hub_w lb b N) Y T j k = f Y.
  by rewrite /mstep /wsum summxE; apply: eq_bigr => i _; rewrite !mxE big_ord1 adjE !mxE.
move=> e e0; apply: near_imp (_ : near_data X (fun Y => sq (f Y - f X) <= e)); first by move=> Y h; rewrite !E; exact: h.
apply: (_ : contK f X) => //; apply: cont_sum => i; apply: cont_mul; first exact: cont_hw.
by apply: cont_mul; [exact: cont_entry | apply: cont_cj; exact: cont_entry].
Qed.
Lemma cont_hiter s0 k (e : R) : start X s0 -> 0 < e -> near_data X (fun Y => close e (iter k (mstep (hub_w lb b N) Y) (s0 Y)) (iter k F (s0 X))).
Proof.
move=> [p0 c0]; have pX j : pd (iter j F (s0 X)) by elim: j => [|j] /=; [exact: (near_at p0) | exact: hub_pd].
elim: k e => [|k IH] e e0; first exact: c0.
have [f f0 hf] := small3 e0; have [d d0 hd] := close_fro (pX k.+1) f0.
apply: near_imp (near_and p0 (near_and near_spans (near_and (IH f f0) (cont_hstep (pX k) d0)))) => Y [pY0 [[Y0 spY] [c1 c2]]].
have pY j : pd (iter j (mstep (hub_w lb b N) Y) (s0 Y)) by elim: j => //= j; exact: hub_pd.
have c3 := hub_close Y N0 (pY k) (pX k) (ltW f0) c1.
have c4 : close f (mstep (hub_w lb b N) Y (iter k F (s0 X))) (iter k.+1 F (s0 X)) by apply: hd c2; apply/pd_herm/hub_pd.
have c5 := close_trans (ltW f0) (ltW f0) c3 c4; apply: close_le c5; [exact/pd_psd/(pY k.+1) | exact/pd_psd/(pX k.+1) |].
apply: le_trans hf; rewrite ler_add2r addrCA subrr addr0 ler_pemull ?ler_addl ?(ltW f0) //; by rewrite mulr_ge0 // addr_ge0 ?ler01 // ltW.
Qed.
(* if the iterates for X converge, those for the samples near X stay near the solution from some iteration on *)
Lemma hub_near_runs s0 : start X s0 -> (forall e : R, 0 < e -> exists n, forall k, (n <= k)%N -> close e (iter k F (s0 X)) S) ->
  forall t : R, 0 < t -> exists n, near_data X (fun Y => forall k, (n <= k)%N -> close t (iter k (mstep (hub_w lb b N) Y) (s0 Y)) S).
Proof.
move=> p0 hL t t0; have [f f0 hf] := small3 t0; have [f1 f2] := small_chain f0 hf; have [g g0 hg] := small3 f0; have [g1 _] := small_chain g0 hg.
have [n hn] := hL g g0; exists n; have cn := hn n (leqnn n).
apply: near_imp (near_and p0.1 (near_and near_spans (near_and (cont_hiter n p0 g0) (hub_near g0)))) => Y [pY0 [[Y0 spY] [c1 h]]] k nk.
have [T [pT eT _ _]] := hub_solution cK l0 b0 spY Y0; have fT := (estimating_hub lb b Y T).1 eT; have c3 := h T pT fT.
have pY j : pd (iter j (mstep (hub_w lb b N) Y) (s0 Y)) by elim: j => //= j; exact: hub_pd.
have c4 : close f (iter n (mstep (hub_w lb b N) Y) (s0 Y)) T.
  have := close_trans (ltW g0) _ c1 (close_trans (ltW g0) (ltW g0) cn (close_sym c3)) => /(_ _) h4.
  apply: close_le (pd_psd (pY n)) (pd_psd pT) hg (h4 _); by rewrite subr_ge0 mulr_ege1 // ler_addl ltW.
have c5 := hub_stays N0 (k - n)%N spY pT fT (ltW f0) (pY n) c4; rewrite -iterD subnK // in c5.
apply: close_le (pd_psd (pY k)) (pd_psd pS) f2 (close_trans (ltW f0) (ltW f0) c5 _).
exact: close_le (pd_psd pT) (pd_psd pS) g1 c3.
Qed.
End Hub.
