(* From the change made by an iteration to its residual; continuity of Student's iteration in the data.  Nothing here models code. *)
From Coq Require Import Reals Lra Classical_Prop.
From mathcomp Require Import all_ssreflect all_algebra.
From mathcomp Require Import zify.
From Verif Require Import RealsMC RealTac RealTac2 Star FunCalc Spec_covariance Spec_fixedpoint Spec_exist Proofs_mest Proofs_cost Proofs_unique Proofs_unique2
  Compact Proofs_estimators Proofs_converge Props_cost Props_robust Props_unique Props_converge Proofs_exist Proofs_exist2 Proofs_stable.
Set Implicit Arguments.
Unset Strict Implicit.
Unset Printing Implicit Defensive.
Local Open Scope ring_scope.
Import GRing.Theory Num.Theory Order.TTheory.

Section Change.
Variable K : starField.
Local Notation ofR := (@ofR K).
Local Notation toR := (@toR K).
Local Notation cj := (@cj K).
Lemma froN m n (A : 'M[K]_(m, n)) : fro (- A) = fro A. Proof. by rewrite /fro fro2N. Qed.
Lemma fro_sq m n (A : 'M[K]_(m, n)) : fro A ^+ 2 = fro2 A.
Proof. by rewrite /fro -RpowE; apply: R_sqrt.pow2_sqrt; apply/RleP; exact: fro2_ge0. Qed.
Lemma change_close p (s t : 'M[K]_p) (d l : R) : pd s -> pd t -> 0 <= d -> d < 1 -> fro (t - s) <= d * fro s -> loewner (ofR l *: 1%:M) t ->
  d * fro t / (1 - d) < l -> close (d * fro t / (1 - d) / (l - d * fro t / (1 - d))) t s.
Proof.
move=> ps pt d0 d1 h lo; set n := d * fro t / (1 - d) => nl; have d1' : 0 < 1 - d by rewrite subr_gt0.
have n0 : 0 <= n by rewrite divr_ge0 ?mulr_ge0 ?fro_ge0 // ltW.
have ln_ : 0 < l - n by rewrite subr_gt0.
have hs : fro s <= fro t / (1 - d).
  rewrite ler_pdivl_mulr // mulrBr mulr1 ler_subl_addr; have -> : fro s = fro (t + - (t - s)) by rewrite opprB addrC subrK.
  by apply: le_trans (froD _ _) _; rewrite froN ler_add2l; have -> : t + - (t - s) = s by [rewrite opprB addrC subrK]; rewrite mulrC.
have {}h : fro2 (t - s) <= n ^+ 2.
  rewrite -fro_sq ler_sqr ?nnegrE ?fro_ge0 //; apply: le_trans h _; rewrite /n -mulrA; exact: ler_wpmul2l.
have [q1 q2] := herm_le_fro (hermB (pd_herm pt) (pd_herm ps)) n0 h.
have c0 : 0 <= n / (l - n) by rewrite divr_ge0 // ltW.
have e1 (A : 'M[K]_p) : ofR (1 + n / (l - n)) *: A = A + ofR (n / (l - n)) *: A by rewrite rmorphD rmorph1 scalerDl scale1r.
have u1 : loewner t (s + ofR n *: 1%:M) by move: q1; rewrite /loewner opprB addrCA addrA.
have u2 : loewner s (t + ofR n *: 1%:M) by move: q2; rewrite /loewner addrCA addrA.
have lower (A : 'M[K]_p) : loewner (ofR (l - n) *: 1%:M) A -> loewner (ofR n *: 1%:M) (ofR (n / (l - n)) *: A).
  move=> hA; have := loewnerZ c0 hA; by rewrite scalerA -rmorphM divfK // gt_eqF.
have add (A B C : 'M[K]_p) : loewner B C -> loewner (A + B) (A + C) by rewrite /loewner opprD addrACA subrr add0r.
have lo' : loewner (ofR (l - n) *: 1%:M) t.
  by apply: loewner_trans lo; apply: loewner_le; [exact/pd_psd/pd1 | rewrite ger_addl oppr_le0].
split; rewrite e1; [apply: (loewner_trans u1) | apply: (loewner_trans u2)]; apply/add/lower => //.
have := loewner_trans lo u1; rewrite /loewner rmorphB scalerBl opprB addrA.
by [].
Qed.

(* continuity of functions of the data *)
Variables (N p : nat).
Implicit Types (X Y : 'M[K]_(N, p)).
Definition near_data X (P : 'M[K]_(N, p) -> Prop) := exists2 d : R, 0 < d & forall Y, fro2 (Y - X) <= d -> P Y.
Lemma near_and X P Q : near_data X P -> near_data X Q -> near_data X (fun Y => P Y /\ Q Y).
Proof.
move=> [d d0 h] [e e0 h']; exists (Num.min d e); first by rewrite lt_minr d0.
by move=> Y; rewrite le_minr => /andP[a b]; split; [exact: h | exact: h'].
Qed.
Lemma near_imp X (P Q : 'M[K]_(N, p) -> Prop) : (forall Y, P Y -> Q Y) -> near_data X P -> near_data X Q.
Proof. by move=> h [d d0 hd]; exists d => // Y /hd /h. Qed.
Lemma near_all (I : finType) X (P : I -> 'M[K]_(N, p) -> Prop) : (forall i, near_data X (P i)) -> near_data X (fun Y => forall i, P i Y).
Proof.
move=> h; suff H (s : seq I) : near_data X (fun Y => forall i, i \in s -> P i Y).
  by apply: near_imp (H (enum I)) => Y hY i; apply: hY; rewrite mem_enum.
elim: s => [|i s IH]; first by exists 1; [exact: ltr01 | move=> Y _ j; rewrite in_nil].
apply: near_imp (near_and (h i) IH) => Y [a b] j; rewrite inE => /orP [/eqP -> //|]; exact: b.
Qed.
Definition contK (f : 'M[K]_(N, p) -> K) X := forall e : R, 0 < e -> near_data X (fun Y => sq (f Y - f X) <= e).
Lemma sqM (x y : K) : sq (x * y) = sq x * sq y.
Proof. by apply: (@ofR_inj K); rewrite rmorphM !ofR_sq rmorphM mulrACA. Qed.
Lemma sq1 : sq (1 : K) = 1. Proof. by apply: (@ofR_inj K); rewrite ofR_sq !rmorph1 mulr1. Qed.
Lemma sq0 : sq (0 : K) = 0. Proof. by rewrite /sq mul0r raddf0. Qed.
Lemma sq_cj (x : K) : sq (cj x) = sq x. Proof. by rewrite /sq cjK mulrC. Qed.
Lemma cont_const c X : contK (fun=> c) X.
Proof. by move=> e e0; exists 1; [exact: ltr01 | move=> Y _; rewrite subrr sq0 ltW]. Qed.
Lemma cont_entry i j X : contK (fun Y => Y i j) X.
Proof.
move=> e e0; exists e => // Y; apply: le_trans; rewrite fro2E (bigD1 i) //= (bigD1 j) //= !mxE -addrA ler_addl.
by rewrite addr_ge0 // ?sumr_ge0 // => k _; rewrite ?sq_ge0 // sumr_ge0 // => k' _; exact: sq_ge0.
Qed.
Lemma cont_add f g X : contK f X -> contK g X -> contK (fun Y => f Y + g Y) X.
Proof.
move=> cf cg e e0; have e4 : 0 < e / 4%:R by rewrite divr_gt0 ?ltr0n.
apply: near_imp (near_and (cf _ e4) (cg _ e4)) => Y [a b]; rewrite opprD addrACA; apply: le_trans (sqD _ _) _.
apply: le_trans (_ : 2%:R * (e / 4%:R + e / 4%:R) <= _); first by apply: ler_wpmul2l; rewrite ?ler0n // ler_add.
by rewrite le_eqVlt; apply/orP; left; apply/eqP; rfield.
Qed.
Lemma cont_cj f X : contK f X -> contK (fun Y => cj (f Y)) X.
Proof. by move=> cf e e0; apply: near_imp (cf _ e0) => Y; rewrite -rmorphB sq_cj. Qed.
Lemma cont_sum (I : finType) (f : I -> 'M[K]_(N, p) -> K) X : (forall i, contK (f i) X) -> contK (fun Y => \sum_i f i Y) X.
Proof.
move=> cf; suff H (s : seq I) : contK (fun Y => \sum_(i <- s) f i Y) X by exact: H.
elim: s => [|i s IH] e e0.
  by apply: near_imp (cont_const 0 X e0) => Y; rewrite !big_nil.
by apply: near_imp (cont_add (cf i) IH e0) => Y; rewrite !big_cons.
Qed.
Lemma mul_arith (e F G df dg : R) : 0 <= F -> 0 <= G -> 0 <= df -> 0 <= dg -> dg <= 1 -> dg * (4%:R * (1 + F)) <= e -> df * (8%:R * (1 + G)) <= e ->
  2%:R * (df * (2%:R * (dg + G)) + F * dg) <= e.
Proof.
move=> F0 G0 f0 g0 g1 h1 h2; have a : df * dg <= df * 1 by exact: ler_wpmul2l.
have b : F * dg <= (1 + F) * dg by apply: ler_wpmul2r => //; rewrite ler_addr ler01.
move: h1 h2 a b; rewrite -[2%:R]/(1 + 1) -[4%:R]/(1 + (1 + (1 + 1))) -[8%:R]/(1 + (1 + (1 + (1 + (1 + (1 + (1 + 1))))))).
by move=> *; rnra2.
Qed.
Lemma cont_mul f g X : contK f X -> contK g X -> contK (fun Y => f Y * g Y) X.
Proof.
move=> cf cg e e0; have F0 := sq_ge0 (f X); have G0 := sq_ge0 (g X).
have F1 : 0 < 4%:R * (1 + sq (f X)) by rewrite mulr_gt0 ?ltr0n // ltr_spaddl ?ltr01.
have G1 : 0 < 8%:R * (1 + sq (g X)) by rewrite mulr_gt0 ?ltr0n // ltr_spaddl ?ltr01.
have d1 : 0 < Num.min 1 (e / (4%:R * (1 + sq (f X)))) by rewrite lt_minr ltr01 divr_gt0.
apply: near_imp (near_and (cf _ (divr_gt0 e0 G1)) (cg _ d1)) => Y []; rewrite le_minr => h2 /andP[h3 h1].
have -> : f Y * g Y - f X * g X = (f Y - f X) * g Y + f X * (g Y - g X).
  by rewrite mulrBl mulrBr addrA subrK.
apply: le_trans (sqD _ _) _; rewrite !sqM.
rewrite ler_pdivl_mulr // in h2; rewrite ler_pdivl_mulr // in h1.
apply: le_trans (mul_arith F0 G0 (sq_ge0 _) (sq_ge0 _) h3 h1 h2); apply: ler_wpmul2l; first exact: ler0n.
rewrite ler_add2r; apply: ler_wpmul2l; first exact: sq_ge0.
by have := sqD (g Y - g X) (g X); rewrite subrK.
Qed.
Lemma sq_gt0 (x : K) : x != 0 -> 0 < sq x.
Proof. by move=> x0; rewrite lt_def sq_ge0 andbT; apply: contra x0 => /eqP /sq_eq0 ->. Qed.
Lemma sqV (x : K) : sq x^-1 = (sq x)^-1.
Proof.
case: (eqVneq x 0) => [->|x0]; first by rewrite invr0 sq0 invr0.
apply: (mulfI (_ : sq x != 0)); first by rewrite gt_eqF // sq_gt0.
by rewrite -sqM (mulfV x0) mulfV ?gt_eqF ?sq_gt0 // sq1.
Qed.
Lemma cont_inv f X : f X != 0 -> contK f X -> contK (fun Y => (f Y)^-1) X.
Proof.
move=> f0 cf e e0; have F0 := sq_gt0 f0.
have d1 : 0 < Num.min (sq (f X) / 4%:R) (e * sq (f X) ^+ 2 / 4%:R) by rewrite lt_minr !divr_gt0 ?mulr_gt0 ?exprn_gt0 ?ltr0n.
apply: near_imp (cf _ d1) => Y; rewrite le_minr => /andP[h1 h2].
have h3 : sq (f X) / 4%:R <= sq (f Y).
  have := sqD (f Y) (- (f Y - f X)); rewrite sqN opprB addrC subrK => h.
  rewrite ler_pdivl_mulr ?ltr0n // in h1; rewrite ler_pdivr_mulr ?ltr0n //.
  move: h1 h; move: (sq (f X)) (sq (f Y)) (sq (f Y - f X)) => x y z.
  by rewrite -[4%:R]/(1 + (1 + (1 + 1))) -[2%:R]/(1 + 1) => h1 h; rlra2.
have Y0 : 0 < sq (f Y) by apply: lt_le_trans h3; rewrite divr_gt0 ?ltr0n.
have fY : f Y != 0 by apply/eqP => e'; move: Y0; rewrite e' sq0 ltxx.
have -> : (f Y)^-1 - (f X)^-1 = - (f Y - f X) * ((f Y)^-1 * (f X)^-1).
  by rewrite opprB mulrBl mulrCA mulfV // mulr1 mulrA mulfV // mul1r.
rewrite !sqM sqN !sqV -invfM ler_pdivr_mulr ?mulr_gt0 //.
rewrite ler_pdivl_mulr ?ltr0n // in h2; rewrite ler_pdivr_mulr ?ltr0n // in h3.
rewrite -(@ler_pmul2r _ 4%:R) ?ltr0n //; apply: le_trans h2 _; rewrite -mulrA ler_pmul2l // mulrAC expr2; apply: ler_wpmul2r => //; exact: ltW.
Qed.
(* a matrix whose entries are continuous *)
Lemma cont_mx m n (f : 'M[K]_(N, p) -> 'M[K]_(m, n)) X : (forall i j, contK (fun Y => f Y i j) X) -> forall e : R, 0 < e ->
  near_data X (fun Y => fro2 (f Y - f X) <= e).
Proof.
move=> cf e e0; have d0 : 0 < e / (m * n).+1%:R by rewrite divr_gt0 ?ltr0n.
apply: near_imp (near_all (fun i => near_all (fun j => cf i j _ d0))) => Y h; rewrite fro2E.
apply: le_trans (_ : \sum_(i < m) \sum_(j < n) e / (m * n).+1%:R <= _).
  by apply: ler_sum => i _; apply: ler_sum => j _; have := h i j; rewrite !mxE.
rewrite (eq_bigr (fun=> (e / (m * n).+1%:R) *+ n)) => [|i _]; last by rewrite sumr_const card_ord.
rewrite sumr_const card_ord -mulrnA mulnC -mulr_natr -mulrA; apply: ler_pimulr; first exact: ltW.
by rewrite mulrC ler_pdivr_mulr ?ltr0n // mul1r ler_nat.
Qed.
(* Student's iteration *)
Lemma cont_mstep (a : R) (S : 'M[K]_p) X : 0 < a -> pd S -> forall e : R, 0 < e ->
  near_data X (fun Y => fro2 (mstep (stu_w N p a) Y S - mstep (stu_w N p a) X S) <= e).
Proof.
move=> a0 pS; apply: cont_mx => j k.
pose f Y := \sum_i ofR ((a + p%:R) / N%:R) * (ofR a + \sum_l (\sum_m cj (Y i m) * invmx S m l) * Y i l)^-1 * (Y i j * cj (Y i k)).
have E Y : mstep (stu_w N p a) Y S j k = f Y.
  rewrite /mstep /wsum summxE; apply: eq_bigr => i _; rewrite !mxE big_ord1 adjE !mxE; congr (_ * _).
  rewrite /stu_w rmorphM fmorphV rmorphD; congr (_ * (_ + _)^-1); rewrite ofR_maha // /qf /sesq mxE; apply: eq_bigr => l _.
  by rewrite !mxE; congr (_ * _); apply: eq_bigr => m _; rewrite adjE !mxE.
move=> e e0; apply: near_imp (_ : near_data X (fun Y => sq (f Y - f X) <= e)); first by move=> Y h; rewrite !E; exact: h.
apply: (_ : contK f X) => //; apply: cont_sum => i; apply: cont_mul; last by apply: cont_mul; [exact: cont_entry | apply: cont_cj; exact: cont_entry].
apply: cont_mul; first exact: cont_const.
apply: cont_inv.
  have -> : \sum_l (\sum_m cj (X i m) * invmx S m l) * X i l = ofR (maha S (samp X i)).
    rewrite ofR_maha // /qf /sesq mxE; apply: eq_bigr => l _; rewrite !mxE; congr (_ * _); apply: eq_bigr => m _; by rewrite adjE !mxE.
  by rewrite -rmorphD fmorph_eq0 gt_eqF // ltr_spaddl // maha_ge0.
apply: cont_add; first exact: cont_const.
apply: cont_sum => l; apply: cont_mul; last exact: cont_entry.
apply: cont_sum => m; apply: cont_mul; last exact: cont_const.
apply: cont_cj; exact: cont_entry.
Qed.
(* Mahalanobis distances are bounded near X *)
Lemma near_maha (S : 'M[K]_p) X : pd S -> exists2 Q : R, 0 <= Q & near_data X (fun Y => forall i, maha S (samp Y i) <= Q).
Proof.
move=> pS; exists (\sum_i (1 + maha S (samp X i))).
  by apply: sumr_ge0 => i _; rewrite addr_ge0 ?ler01 // maha_ge0.
apply: near_all => i.
have E Y : ofR (maha S (samp Y i)) = \sum_l (\sum_m cj (Y i m) * invmx S m l) * Y i l.
  rewrite ofR_maha // /qf /sesq mxE; apply: eq_bigr => l _; rewrite !mxE; congr (_ * _); apply: eq_bigr => m _; by rewrite adjE !mxE.
have c : contK (fun Y => \sum_l (\sum_m cj (Y i m) * invmx S m l) * Y i l) X.
  apply: cont_sum => l; apply: cont_mul; last exact: cont_entry.
  apply: cont_sum => m; apply: cont_mul; last exact: cont_const.
  apply: cont_cj; exact: cont_entry.
apply: near_imp (c 1 ltr01) => Y; rewrite -!E -rmorphB -[ofR _]mulr1 sq_scale.
rewrite sq1 mulr1 => h; apply: le_trans (_ : 1 + maha S (samp X i) <= _).
  rewrite -ler_subl_addr leNgt; apply/negP => lt; move: h; rewrite leNgt => /negP; apply; move: lt; move: (_ - _) => x x1; rewrite expr2.
  by rewrite -[1 in X in X < _]mulr1; apply: ltr_pmul; rewrite ?ler01.
rewrite (bigD1 i) //= ler_addl; apply: sumr_ge0 => k _; by rewrite addr_ge0 ?ler01 // maha_ge0.
Qed.
Lemma near_nonzero X : (forall i, row i X != 0) -> near_data X (fun Y => forall i, row i Y != 0).
Proof.
move=> X0; apply: near_all => i; have [j xj] : exists j, X i j != 0.
  apply: NNPP => h; move: (X0 i) => /eqP; apply; apply/rowP => j; rewrite !mxE; apply/eqP; apply: contraT => xj; case: h; by exists j.
have c := @cont_entry i j X; have s0 : 0 < sq (X i j) / 4%:R by rewrite divr_gt0 ?sq_gt0 ?ltr0n.
apply: near_imp (c _ s0) => Y h; apply/eqP => /rowP /(_ j); rewrite !mxE => e; move: h; rewrite e sub0r sqN leNgt => /negP; apply.
by rewrite ltr_pdivr_mulr ?ltr0n // ltr_pmulr ?sq_gt0 // ltr1n.
Qed.
End Change.
Section Continuity.
Variable K : starField.
Variables (N p : nat) (X : 'M[K]_(N, p.+1)) (a : R) (S : 'M[K]_p.+1).
Hypotheses (a0 : 0 < a) (cK : compactK K) (X0 : forall i, row i X != 0) (sol : student_solution a X S).
Let pS : pd S := sol.1.
Let N0 : (0 < N)%N. Proof. by apply: (@spanning_N K N p X); case: sol => q e; rewrite e in q; exact: solution_spanning q. Qed.
Lemma student_near_res (t : R) : 0 < t -> exists Q e, [/\ 0 <= Q, 0 < e, e * Q < a, post a Q e = t &
  near_data X (fun Y => [/\ forall i, maha S (samp Y i) <= Q, forall i, row i Y != 0 & close e (mstep (stu_w N p.+1 a) Y S) S])].
Proof.
move=> t0; have [Q Q0 nQ] := near_maha X pS; have aQ : 0 < a + Q by rewrite ltr_spaddl.
pose e := a * t / (a + Q + t * Q); exists Q, e.
have den : 0 < a + Q + t * Q by rewrite ltr_spaddl // mulr_ge0 // ltW.
have e0 : 0 < e by rewrite divr_gt0 // mulr_gt0.
split=> //.
- rewrite /e mulrAC ltr_pdivr_mulr // -mulrA ltr_pmul2l // ltr_addr; exact: aQ.
- rewrite /post /e; have d1 : a + Q + t * Q <> 0 by apply/eqP; rewrite gt_eqF.
  have d2 : a + Q <> 0 by apply/eqP; rewrite gt_eqF.
  have d3 : a <> 0 by apply/eqP; rewrite gt_eqF.
  have -> : a - a * t / (a + Q + t * Q) * Q = a * (a + Q) / (a + Q + t * Q) by rfield.
  by rfield.
have [d d0 hd] := close_fro pS e0; have FS : mstep (stu_w N p.+1 a) X S = S by case: sol => _ {2}->.
apply: near_imp (near_and nQ (near_and (near_nonzero X0) (cont_mstep X a0 pS d0))) => Y [bQ [Y0 h]]; rewrite FS in h.
split=> //; apply: hd => //; apply: (proj1 (_ : psd _)); apply: wsum_psd => i.
by rewrite /stu_w !divr_ge0 ?ler0n ?addr_ge0 ?ler0n ?maha_ge0 // ltW.
Qed.
Lemma student_near (t : R) : 0 < t -> near_data X (fun Y => exists2 T, student_solution a Y T & close t T S).
Proof.
move=> t0; have [Q [e [Q0 e0 eQ pE h]]] := student_near_res t0; apply: near_imp h => Y [bQ Y0 res].
by have := post_exists N0 a0 pS bQ (ltW e0) res eQ cK Y0; rewrite pE.
Qed.
Lemma student_near_runs (t : R) s0 : 0 < t -> pd s0 -> exists n, near_data X (fun Y => forall k, (n <= k)%N -> close t (iter k (mstep (stu_w N p.+1 a) Y) s0) S).
Proof.
move=> t0 p0; have t2 : 0 < t / 2%:R by rewrite divr_gt0 ?ltr0n.
have [Q [e [Q0 e0 eQ pE [d d0 h]]]] := student_near_res t2; have [l [l1 h1 h2]] := pd_comparable p0 pS.
have l0 : 0 <= l - 1 by rewrite subr_ge0.
have r : 0 <= (1 + e) * Q / (a + Q) < 1.
  have := h X; rewrite subrr -fro_sq fro0 expr0n /= => /(_ (ltW d0)) [bQ _ _]; exact: (rate1 N0 a0 pS bQ (ltW e0) eQ).
have [r0 r1] := andP r; have [n hn] := geometric r0 r1 l0 t2; exists n, d => // Y /h [bQ Y0 res] k nk.
have sp : spanning Y := spanning_res pS (ltW e0) res.
have pk : pd (iter k (mstep (stu_w N p.+1 a) Y) s0) by elim: k {nk} => //= k; exact: student_mstep_pd.
apply: close_le (pd_psd pk) (pd_psd pS) _ (post_iter N0 a0 pS bQ (ltW e0) res eQ p0 l0 _ k); last by rewrite /close addrC subrK.
rewrite pE; apply: le_trans (_ : t / 2%:R + t / 2%:R <= _); first by rewrite ler_add2l; exact: hn.
by rewrite le_eqVlt; apply/orP; left; apply/eqP; rfield.
Qed.
End Continuity.
