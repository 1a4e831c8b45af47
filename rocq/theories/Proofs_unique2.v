(* Solutions of Tyler's and Student's equations: uniqueness, minimality, contraction of Student's update. *)
From Coq Require Import Reals Lra.
From mathcomp Require Import all_ssreflect all_fingroup all_algebra.
From Verif Require Import RealsMC RealTac RealTac2 Star StarInst FunCalc Model_featurearray Spec_covariance Spec_fixedpoint Proofs_mest Proofs_loop Proofs_cost
  Model_covariance Props_cost Props_robust Proofs_estimators Proofs_unique.
Set Implicit Arguments.
Unset Strict Implicit.
Unset Printing Implicit Defensive.
Local Open Scope ring_scope.
Import GRing.Theory Num.Theory Order.TTheory.

Section Tyler.
Variable K : starField.
Local Notation ofR := (@ofR K).
Local Notation toR := (@toR K).
Local Notation "A ^H" := (adj A) (at level 8, format "A ^H").
Variables (N p : nat) (X : 'M[K]_(N, p)).
Hypothesis (N0 : (0 < N)%N) (X0 : forall i, row i X != 0).
Implicit Types (S T : 'M[K]_p).
Lemma samp0 i : samp X i != 0. Proof. by rewrite /samp trmx_eq0. Qed.

Lemma tyler_wsum S : tyler_solution X S -> wsum (fun i => p%:R / maha S (samp X i)) X = ofR N%:R *: S.
Proof. by case=> _ e; rewrite wsumNZ //; congr (_ *: _); rewrite {2}e; apply: eq_wsum => i; rewrite mulrAC. Qed.
Lemma tyler_unique S T : irreducible X -> tyler_solution X S -> tyler_solution X T -> proportional S T.
Proof.
move=> irr sS sT; have [pS eS] := sS; have [pT eT] := sT.
have leT : mcost (fun q => p%:R * ln q) X T <= mcost (fun q => p%:R * ln q) X S by rewrite -!tcost_mcost; apply: tyler_min.
case: (posnP p) => [p0|p0].
  exists 1; first exact: ltr01.
  by rewrite rmorph1 scale1r; apply/matrixP => i; have := ltn_ord i; rewrite [X in (_ < X)%N]p0.
have u0 q : 0 < q -> 0 < p%:R / q :> R by move=> q0; rewrite divr_gt0 ?ltr0n.
have [B [d [uB eS' eT' d0 H]]] := @fixed_point_min_eq K N p _ (fun q => p%:R / q) X S T (@tyler_log_slope p) X0 u0 pS pT (tyler_wsum sS) leT.
pose j0 := Ordinal p0; pose ind : 'rV[R]_p := \row_j (d 0 j == d 0 j0)%:R.
pose P := B *m dia K ind *m invmx B.
have Px i : P *m samp X i = B *m (dia K ind *m (invmx B *m samp X i)) by rewrite !mulmxA.
have PP : P *m P = P.
  rewrite /P !mulmxA mulmxKV // -!mulmxA [in LHS](mulmxA (dia K ind)) diaM; congr (_ *m (dia K _ *m _)).
  by apply/rowP => j; rewrite !mxE; case: (_ == _); rewrite ?mulr1 ?mulr0.
have sp i : P *m samp X i = 0 \/ P *m samp X i = samp X i.
  have [_ Hi] := H i; rewrite Px; case: (eqVneq (maha S (samp X i) / maha T (samp X i)) (d 0 j0)) => r.
    right; have -> : dia K ind *m (invmx B *m samp X i) = invmx B *m samp X i; last by rewrite mulKVmx.
    apply/colP => j; rewrite mul_dia_mx mxE; case: (eqVneq ((invmx B *m samp X i) j 0) 0) => [->|y]; first by rewrite mulr0.
    by rewrite (Hi _ y) r eqxx rmorph1 mul1r.
  left; have -> : dia K ind *m (invmx B *m samp X i) = 0; last by rewrite mulmx0.
  apply/colP => j; rewrite mul_dia_mx [ind _ _]mxE; case: (eqVneq ((invmx B *m samp X i) j 0) 0) => [->|y]; first by rewrite mulr0 mxE.
  by rewrite (Hi _ y) (negbTE r) rmorph0 mul0r mxE.
have dP j : (invmx B *m P *m B) j j = ofR (ind 0 j).
  by rewrite /P !mulmxA mulVmx // mul1mx -mulmxA mulVmx // mulmx1 diaE eqxx mulr1n.
case: (irr P PP sp) => eP.
  have := dP j0; rewrite eP mulmx0 mul0mx !mxE eqxx rmorph1 => /esym /eqP; by rewrite oner_eq0.
exists (d 0 j0); first exact: d0.
have ed j : d 0 j = d 0 j0.
  have := dP j; rewrite eP mulmx1 mulVmx // !mxE eqxx; case: eqP => // _; rewrite rmorph0 => /eqP; by rewrite oner_eq0.
have -> : T = B *m dia K (const_mx (d 0 j0)) *m B^H by rewrite {1}eT'; congr (_ *m dia K _ *m _); apply/rowP => j; rewrite mxE ed.
by rewrite dia_const mul_mx_scalar -scalemxAl -eS'.
Qed.
(* without that condition, rescaling the part of a solution carried by each of the subspaces gives another one *)
Lemma tyler_rescale S P a b : tyler_solution X S -> P *m P = P ->
  (forall i, P *m samp X i = 0 \/ P *m samp X i = samp X i) -> 0 < a -> 0 < b ->
  let G := ofR a *: P + ofR b *: (1%:M - P) in G \in unitmx /\ tyler_solution X (G *m S *m G^H).
Proof.
move=> [pS eS] PP sp a0 b0 G.
have an : ofR a != 0 by rewrite gt_eqF // ofR_gt0.
have bn : ofR b != 0 by rewrite gt_eqF // ofR_gt0.
have PQ : P *m (1%:M - P) = 0 by rewrite mulmxBr mulmx1 PP subrr.
have QP : (1%:M - P) *m P = 0 by rewrite mulmxBl mul1mx PP subrr.
have QQ : (1%:M - P) *m (1%:M - P) = 1%:M - P by rewrite mulmxBr mulmx1 QP subr0.
have uG : G \in unitmx.
  suff e : G *m (ofR a^-1 *: P + ofR b^-1 *: (1%:M - P)) = 1%:M by exact: (mulmx1_unit e).1.
  rewrite /G mulmxDl !mulmxDr -!scalemxAl -!scalemxAr PP PQ QP QQ !scaler0 addr0 add0r !scalerA !fmorphV !divff //.
  by rewrite !scale1r addrC subrK.
have Gx i : exists2 c : R, 0 < c & G *m samp X i = ofR c *: samp X i.
  case: (sp i) => e; [exists b => // | exists a => //]; rewrite /G mulmxDl -!scalemxAl mulmxBl mul1mx e.
    by rewrite scaler0 add0r subr0.
  by rewrite subrr scaler0 addr0.
split=> //; split; first exact: pd_congr.
rewrite {1}eS /wsum mulmx_sumr mulmx_suml; apply: eq_bigr => i _; have [c c0 Gi] := Gx i.
have cn : ofR c != 0 by rewrite gt_eqF // ofR_gt0.
have e : samp X i = G *m (ofR c^-1 *: samp X i) by rewrite -scalemxAr Gi scalerA -rmorphM mulVf ?rmorph1 ?scale1r // gt_eqF.
have -> : maha (G *m S *m G^H) (samp X i) = maha S (samp X i) / c ^+ 2.
  rewrite {1}e (maha_congr _ uG (pd_unit pS)).
  rewrite /maha adjZR -!scalemxAl -!scalemxAr !mxE mulrA -rmorphM toRZ mulrC; congr (_ * _).
  by rewrite expr2 invfM.
rewrite -scalemxAr -scalemxAl -outer_mul Gi outer_scale cj_ofR -rmorphM scalerA -rmorphM; congr (ofR _ *: _).
by rewrite invfM invrK expr2 !mulrA.
Qed.
Lemma tyler_unique_irr S : tyler_solution X S -> (forall T, tyler_solution X T -> proportional S T) -> irreducible X.
Proof.
move=> sS uni P PP sp; have [pS eS] := sS.
have two : 0 < 2%:R :> R by rewrite ltr0n.
have [uG sT] := tyler_rescale sS PP sp two ltr01; have [c c0 eT] := uni _ sT.
move: eT; set G := _ + _ => eT.
have QP : (1%:M - P) *m P = 0 by rewrite mulmxBl mul1mx PP subrr.
have QQ : (1%:M - P) *m (1%:M - P) = 1%:M - P by rewrite mulmxBr mulmx1 QP subr0.
have PG : P *m G = ofR 2%:R *: P.
  by rewrite /G mulmxDr -!scalemxAr PP mulmxBr mulmx1 PP subrr scaler0 addr0.
have QG : (1%:M - P) *m G = 1%:M - P.
  by rewrite /G mulmxDr -!scalemxAr QP QQ scaler0 add0r rmorph1 scale1r.
have cong (A B : 'M[K]_p) : A *m S *m A^H = 0 -> A = 0.
  move=> h; have [B' [d' [uB eS' _ _]]] := simdiag pS pS.
  have : (A *m B') *m (A *m B')^H = 0 by rewrite adjM mulmxA -(mulmxA A) -eS'.
  move/(congr1 (@mxtrace _ _)); rewrite -fro2_tr mxtrace0 => /eqP; rewrite fmorph_eq0 => /eqP /fro2_eq0 e.
  by rewrite -[A](mulmxK uB) e mul0mx.
case: (eqVneq P 0) => [|Pn]; first by left.
case: (eqVneq (1%:M - P) 0) => [/eqP|Qn]; first by rewrite subr_eq0 => /eqP; right.
have cg A : A *m (G *m S *m G^H) *m A^H = (A *m G) *m S *m (A *m G)^H by rewrite adjM !mulmxA.
have c4 : c = 4%:R.
  have := congr1 (fun A => P *m A *m P^H) eT; rewrite cg PG adjZR -!scalemxAl -!scalemxAr -!scalemxAl scalerA -rmorphM -natrM => e.
  have : ofR (4%:R - c) *: (P *m S *m P^H) = 0 by rewrite rmorphB scalerBl e subrr.
  move/eqP; rewrite scaler_eq0 fmorph_eq0 subr_eq0 => /orP [/eqP //|/eqP /(cong _ P) h]; by rewrite h eqxx in Pn.
have c1 : c = 1.
  have := congr1 (fun A => (1%:M - P) *m A *m (1%:M - P)^H) eT; rewrite cg QG -!scalemxAr -!scalemxAl => e.
  have : ofR (1 - c) *: ((1%:M - P) *m S *m (1%:M - P)^H) = 0 by rewrite rmorphB scalerBl rmorph1 scale1r {1}e subrr.
  move/eqP; rewrite scaler_eq0 fmorph_eq0 subr_eq0 => /orP [/eqP //|/eqP /(cong _ P) h]; by rewrite h eqxx in Qn.
by move: c1; rewrite c4 => /eqP; rewrite (eqr_nat _ 4 1).
Qed.
(* a minimiser of the cost solves the equation *)
Lemma tyler_minimiser S : spanning X -> (0 < p)%N -> pd S -> (forall T, pd T -> tcost X S <= tcost X T) -> tyler_solution X S.
Proof.
move=> sX p0 pS mS; split=> //.
have pT : pd (mstep (fun q => p%:R / N%:R / q) X S).
  apply: wsum_pd => // i; by rewrite !divr_gt0 ?ltr0n // maha_gt0 ?samp0.
have [_ D] := tyler_descent N0 X0 pS pT.
case: (eqVneq (mstep (fun q => p%:R / N%:R / q) X S) S) => [e|/eqP n]; first by rewrite -{1}e.
by have := D n; rewrite ltNge mS.
Qed.
End Tyler.

(* ------------------------------------------------------------------ Student *)
Lemma stu_slope_eq (a b q q' : R) : 0 < a -> 0 < b -> 0 < q -> 0 < q' ->
  b * ln (a + q') <= b * ln (a + q) + b / (a + q) * q * (ln q' - ln q) -> q' = q.
Proof.
move=> a0 b0 q0 q'0 H; have s0 := addr_gt0 a0 q0; have s'0 := addr_gt0 a0 q'0.
apply/eqP/negPn/negP => qn.
have m0 : 0 < (a + q) / (a + q') by rewrite divr_gt0.
have m1 : (a + q) / (a + q') != 1.
  apply/eqP => m1; move/eqP: qn; apply; apply: (addrI a); by rewrite -[LHS]mul1r -m1 divfK // gt_eqF.
have h1 := ln_lt_sub1 m0 m1; have r0 : 0 < q' / q by rewrite divr_gt0.
have h2 := ln_le_sub1 (mulr_gt0 r0 m0).
rewrite lnM // lnD // in h2; rewrite lnD // in h1 h2.
have e : a * ((a + q) / (a + q') - 1) + q * (q' / q * ((a + q) / (a + q')) - 1) = 0.
  rewrite !mulrBr !mulr1 !mulrA [q * q']mulrC mulfK ?gt_eqF // addrACA -opprD -!mulrDl -mulrA mulrC -mulrA.
  by rewrite mulVf ?gt_eqF // mulr1 subrr.
have h3 : a * (ln (a + q) - ln (a + q')) + q * (ln q' - ln q + (ln (a + q) - ln (a + q'))) < 0.
  by rewrite -e; apply: ltr_le_add; rewrite ?ltr_pmul2l ?ler_pmul2l.
move: H; rewrite -!mulrA -mulrDr ler_pmul2l // -(ler_pmul2l s0) mulrDr [X in _ <= _ + X]mulrA mulfV ?gt_eqF // mul1r.
move: h3; clear; move: (ln (a + q)) (ln (a + q')) (ln q) (ln q') => u v w z h h'.
suff : (0 : R) < 0 by rewrite ltxx.
rlra.
Qed.

(* the inequalities behind the contraction of Student's update *)
Lemma stu_rate (a s Q l : R) : 0 < a -> 0 <= s -> s <= Q -> 1 <= l -> a + l * s <= (1 + Q / (a + Q) * (l - 1)) * (a + s).
Proof.
move=> a0 s0 sQ l1; have Q0 := le_trans s0 sQ; have aQ : 0 < a + Q by rewrite ltr_spaddl.
have as0 : 0 < a + s by rewrite ltr_spaddl.
have h : s / (a + s) <= Q / (a + Q).
  rewrite ler_pdivr_mulr // mulrAC ler_pdivl_mulr //; have := ler_wpmul2l (ltW a0) sQ; clear => h; rlra.
have -> : a + l * s = (1 + s / (a + s) * (l - 1)) * (a + s).
  have e : s / (a + s) * (a + s) = s by rewrite divfK // gt_eqF.
  transitivity (a + s + (s / (a + s) * (a + s)) * (l - 1)); first by rewrite e; rring.
  move: (s / (a + s)) => r; rring.
by apply: ler_wpmul2r; [exact: ltW | rewrite ler_add2l; apply: ler_wpmul2r => //; rewrite subr_ge0].
Qed.
Lemma stu_up (a s q l : R) : 0 < a -> 0 <= s -> 1 <= l -> s <= l * q -> (a + s) ^+ 2 <= (a + l * s) * (a + q).
Proof.
move=> a0 s0 l1 h; have l0 : 0 < l := lt_le_trans ltr01 l1.
have h1 : 0 <= l * (q + l * s - 2%:R * s).
  apply: le_trans (_ : s * (l - 1) ^+ 2 <= _); first by rewrite mulr_ge0 ?sqr_ge0.
  rewrite expr2; move: h; clear; rewrite -[2%:R]/(1 + 1); move=> h; rnra.
have h2 : 0 <= q + l * s - 2%:R * s by rewrite -(pmulr_rge0 _ l0).
have h3 : 0 <= a * (q + l * s - 2%:R * s) by rewrite mulr_ge0 // ltW.
have h4 : s * s <= s * (l * q) by rewrite ler_wpmul2l.
move: h3 h4; clear; rewrite expr2 -[2%:R]/(1 + 1) => h3 h4; rlra.
Qed.
Section Student.
Variable K : starField.
Local Notation ofR := (@ofR K).
Local Notation toR := (@toR K).
Local Notation "A ^H" := (adj A) (at level 8, format "A ^H").
(* the inverse reverses the order *)
Lemma maha_loewner p (S T : 'M[K]_p) l x : pd S -> pd T -> loewner S (ofR l *: T) -> maha T x <= l * maha S x.
Proof.
move=> pS pT le; have [B [d [uB eS eT d0]]] := simdiag pS pT.
pose y := invmx B *m x; have ex : x = B *m y by rewrite /y mulKVmx.
have eS' : S = B *m 1%:M *m B^H by rewrite mulmx1.
have -> : maha S x = \sum_j sq (y j 0) by rewrite ex eS' maha_congr ?unitmx1 // maha1.
have -> : maha T x = \sum_j sq (y j 0) / d 0 j by rewrite ex eT maha_congr ?dia_unit // maha_dia.
rewrite mulr_sumr; apply: ler_sum => j _; rewrite mulrC; apply: ler_wpmul2r; first exact: sq_ge0.
have e1 : dia K (const_mx 1) = 1%:M :> 'M_p by rewrite dia_const rmorph1.
have ps : psd (dia K (\row_j (l * d 0 j - 1))).
  suff -> : dia K (\row_j (l * d 0 j - 1)) = invmx B *m (ofR l *: T - S) *m (invmx B)^H by exact: psd_congr.
  rewrite eT eS' -e1 scalemxAl scalemxAr dia_scale -mulmxBl -mulmxBr diaB adjV !mulmxA mulVmx // mul1mx mulmxK ?unitmx_adj //.
  by congr (dia K _); apply/rowP => k; rewrite !mxE.
have := ps.2 (delta_mx j 0).
have e : (delta_mx j 0 : 'cV[K]_p)^H = delta_mx 0 j.
  by apply/matrixP => a b; rewrite adjE !mxE andbC; case: (_ && _); rewrite ?rmorph1 ?rmorph0.
rewrite /qf /sesq e -rowE -colE !mxE eqxx mulr1n ofRge0 subr_ge0 => h.
by rewrite -[(d 0 j)^-1]mul1r ler_pdivr_mulr.
Qed.
Lemma wsum_loewner N p (a b : 'I_N -> R) (X : 'M[K]_(N, p)) l : (forall i, a i <= l * b i) -> loewner (wsum a X) (ofR l *: wsum b X).
Proof.
move=> h; rewrite /loewner /wsum scaler_sumr -sumrB; apply: psd_sum => i _.
rewrite scalerA -rmorphM -scalerBl -rmorphB; apply: psdZ; last exact: psd_outer.
by rewrite ofRge0 subr_ge0.
Qed.
Variables (N p : nat) (X : 'M[K]_(N, p)) (a : R).
Hypothesis (N0 : (0 < N)%N) (X0 : forall i, row i X != 0) (a0 : 0 < a).
Definition stu_w (q : R) : R := (a + p%:R) / N%:R / (a + q).
Lemma stu_c0 : 0 < (a + p%:R) / N%:R. Proof. by rewrite divr_gt0 ?ltr0n // ltr_spaddl ?ler0n. Qed.
Lemma stu_unique S T : student_solution a X S -> student_solution a X T -> S = T.
Proof.
move=> [pS eS] [pT eT].
have ap : 0 < a + p%:R by rewrite ltr_spaddl ?ler0n.
have u0 q : 0 < q -> 0 < (a + p%:R) / (a + q) by move=> q0; rewrite divr_gt0 // addr_gt0.
have fx U : U = wsum (fun i => (a + p%:R) / N%:R / (a + maha U (samp X i))) X ->
  wsum (fun i => (a + p%:R) / (a + maha U (samp X i))) X = ofR N%:R *: U.
  by move=> e; rewrite wsumNZ // {2}e; congr (_ *: _); apply: eq_wsum => i; rewrite mulrAC.
have cvx q q' : 0 < q -> 0 < q' -> (a + p%:R) * ln (a + q) + (a + p%:R) / (a + q) * q * (ln q' - ln q) <= (a + p%:R) * ln (a + q').
  by move=> *; apply: Props_robust.stu_slope.
have le : mcost (fun q => (a + p%:R) * ln (a + q)) X T <= mcost (fun q => (a + p%:R) * ln (a + q)) X S.
  apply: (@fixed_point_min K N p _ (fun q => (a + p%:R) / (a + q))) => //; [by move=> q /u0 /ltW | exact: fx].
have [B [d [_ _ _ _ H]]] := @fixed_point_min_eq K N p _ (fun q => (a + p%:R) / (a + q)) X S T cvx X0 u0 pS pT (fx _ eS) le.
rewrite eS eT; apply: eq_wsum => i; have [h _] := H i; congr (_ / (a + _)); apply/esym.
by apply: stu_slope_eq h; rewrite ?maha_gt0 // trmx_eq0.
Qed.
(* Student's update contracts towards the solution *)
Variables (Sol : 'M[K]_p) (Q : R).
Hypotheses (sol : student_solution a X Sol) (bQ : forall i, maha Sol (samp X i) <= Q).
Let rate := Q / (a + Q).
Lemma stu_above S l : pd S -> 1 <= l -> loewner S (ofR l *: Sol) -> loewner (mstep stu_w X S) (ofR (1 + rate * (l - 1)) *: Sol).
Proof.
move=> pS l1 le; have [pSol eSol] := sol; rewrite eSol; apply: wsum_loewner => i.
have := maha_loewner (samp X i) pS pSol le; have := bQ i; have := maha_ge0 (samp X i) pSol; have := maha_ge0 (samp X i) pS.
move: (maha S _) (maha Sol _) => q s q0 s0 sQ h.
have aq : 0 < a + q by rewrite ltr_spaddl. have as_ : 0 < a + s by rewrite ltr_spaddl.
rewrite /stu_w mulrCA; apply: ler_wpmul2l; first exact/ltW/stu_c0.
rewrite -[(a + q)^-1]mul1r ler_pdivr_mulr // mulrAC ler_pdivl_mulr // mul1r.
have h1 := stu_rate a0 s0 sQ l1; have h2 := stu_up a0 s0 l1 h.
rewrite -(ler_pmul2r as_) -expr2; apply: le_trans h2 _; rewrite mulrAC; apply: ler_wpmul2r => //; exact: ltW.
Qed.
Lemma stu_below S l : pd S -> 1 <= l -> loewner Sol (ofR l *: S) -> loewner Sol (ofR (1 + rate * (l - 1)) *: mstep stu_w X S).
Proof.
move=> pS l1 le; have [pSol eSol] := sol; rewrite {1}eSol; apply: wsum_loewner => i.
have := maha_loewner (samp X i) pSol pS le; have := bQ i; have := maha_ge0 (samp X i) pSol; have := maha_ge0 (samp X i) pS.
move: (maha S _) (maha Sol _) => q s q0 s0 sQ h.
have aq : 0 < a + q by rewrite ltr_spaddl. have as_ : 0 < a + s by rewrite ltr_spaddl.
rewrite /stu_w mulrCA; apply: ler_wpmul2l; first exact/ltW/stu_c0.
rewrite -[(a + s)^-1]mul1r ler_pdivr_mulr // mulrAC ler_pdivl_mulr // mul1r.
by apply: le_trans (stu_rate a0 s0 sQ l1); rewrite ler_add2l.
Qed.
Lemma rate_ge0 : 0 <= Q -> 0 <= rate /\ rate < 1.
Proof.
move=> Q0; have aQ : 0 < a + Q by rewrite ltr_spaddl.
by split; [rewrite divr_ge0 // ltW | rewrite ltr_pdivr_mulr // mul1r ltr_addr].
Qed.
End Student.

(* ------------------------------------------------------------------ order intervals *)
Section Order.
Variable K : starField.
Local Notation ofR := (@ofR K).
Local Notation "A ^H" := (adj A) (at level 8, format "A ^H").
Lemma pd_comparable p (S T : 'M[K]_p) : pd S -> pd T -> exists l : R, [/\ 1 <= l, loewner S (ofR l *: T) & loewner T (ofR l *: S)].
Proof.
move=> pS pT; have [B [d [uB eS eT d0]]] := simdiag pS pT.
have e1 : dia K (const_mx 1) = 1%:M :> 'M_p by rewrite dia_const rmorph1.
have eS' : S = B *m dia K (const_mx 1) *m B^H by rewrite e1 mulmx1.
have s0 : 0 <= \sum_j d 0 j by apply: sumr_ge0 => j _; exact: ltW.
have s0' : 0 <= \sum_j (d 0 j)^-1 by apply: sumr_ge0 => j _; rewrite invr_ge0; exact: ltW.
have dj j : d 0 j <= \sum_j d 0 j by rewrite (bigD1 j) //= ler_addl; apply: sumr_ge0 => i _; exact: ltW.
have dj' j : (d 0 j)^-1 <= \sum_j (d 0 j)^-1 by rewrite (bigD1 j) //= ler_addl; apply: sumr_ge0 => i _; rewrite invr_ge0; exact: ltW.
exists (1 + (\sum_j d 0 j + \sum_j (d 0 j)^-1)); split; first by rewrite ler_addl addr_ge0.
- rewrite /loewner eT eS' scalemxAl scalemxAr dia_scale -mulmxBl -mulmxBr diaB; apply/psd_congr/psd_dia => j; rewrite !mxE subr_ge0.
  rewrite -ler_pdivr_mulr // mul1r; apply: le_trans (dj' j) _; by rewrite addrA ler_addr addr_ge0 ?ler01.
- rewrite /loewner eT eS' scalemxAl scalemxAr dia_scale -mulmxBl -mulmxBr diaB; apply/psd_congr/psd_dia => j; rewrite !mxE subr_ge0.
  rewrite mulr1; apply: le_trans (dj j) _; by rewrite addrCA ler_addl addr_ge0 ?ler01.
Qed.
(* |S - T| <= e |T| when S <= (1+e) T and T <= (1+e) S *)
Lemma loewner_fro p (S T : 'M[K]_p) e : pd S -> pd T -> 0 <= e -> loewner S (ofR (1 + e) *: T) -> loewner T (ofR (1 + e) *: S) ->
  fro (S - T) <= e * fro T.
Proof.
move=> pS pT e0 h1 h2; rewrite -froZ //.
have hS := pd_herm pS; have hT := pd_herm pT; have e1 : 0 < 1 + e by rewrite ltr_spaddl ?ltr01.
apply/RleP; apply: R_sqrt.sqrt_le_1_alt; apply/RleP; apply: fro2_loewner; first exact: hermZR.
- exact: hermB.
- by move: h1; rewrite /loewner rmorphD rmorph1 scalerDl scale1r opprB addrA [ofR e *: T + T]addrC.
- have -> : ofR e *: T + (S - T) = ofR (1 + e)^-1 *: (ofR (1 + e) *: S - T) + ofR (e - 1 + (1 + e)^-1) *: T.
    rewrite scalerBr scalerA -rmorphM mulVf ?gt_eqF // rmorph1 scale1r [ofR (e - 1 + _)]rmorphD scalerDl rmorphB scalerBl rmorph1 scale1r.
    by move: (ofR e *: T) (ofR (1 + e)^-1 *: T) => x v; rewrite (addrC (x - T)) (addrA (S - v)) subrK addrCA.
  apply: psdD; first by apply: psdZ => //; rewrite ofRge0 invr_ge0 ltW.
  apply: psdZ; last exact: pd_psd.
  rewrite ofRge0 -(pmulr_lge0 _ e1) mulrDl mulVf ?gt_eqF //.
  have -> : (e - 1) * (1 + e) + 1 = e * e by rring.
  exact: mulr_ge0.
Qed.
Lemma solution_spanning N p (w : 'I_N -> R) (X : 'M[K]_(N, p)) : pd (wsum w X) -> spanning X.
Proof.
move=> pS y h; apply/eqP/negPn/negP => yn; have := pS.2 y yn.
rewrite /wsum qf_sum big1 ?ltxx // => i _; by rewrite qfZ qf_outer h mxE mul0r mulr0.
Qed.
End Order.

Section StudentIter.
Variable K : starField.
Local Notation ofR := (@ofR K).
Variables (N p : nat) (X : 'M[K]_(N, p)) (a : R) (Sol : 'M[K]_p) (Q : R).
Hypothesis (N0 : (0 < N)%N) (a0 : 0 < a) (Q0 : 0 <= Q).
Hypotheses (sol : student_solution a X Sol) (bQ : forall i, maha Sol (samp X i) <= Q).
Let rate := Q / (a + Q).
Let step := mstep (stu_w N p a) X.
Lemma stu_step_pd S : pd S -> pd (step S).
Proof.
move=> pS; apply: wsum_pd; last by have [p0 e] := sol; rewrite e in p0; exact: solution_spanning p0.
move=> i; rewrite divr_gt0 ?stu_c0 // ltr_spaddl // maha_ge0 //.
Qed.
Lemma stu_iterates S l k : pd S -> 1 <= l -> loewner S (ofR l *: Sol) -> loewner Sol (ofR l *: S) ->
  [/\ pd (iter k step S), loewner (iter k step S) (ofR (1 + rate ^+ k * (l - 1)) *: Sol) &
      loewner Sol (ofR (1 + rate ^+ k * (l - 1)) *: iter k step S)].
Proof.
move=> pS l1 h1 h2; have [r0 r1] := rate_ge0 a0 Q0; elim: k => [|k [pk u1 u2]].
  by rewrite expr0 mul1r addrC subrK.
have l1' : 1 <= 1 + rate ^+ k * (l - 1) by rewrite ler_addl mulr_ge0 ?exprn_ge0 // subr_ge0.
have := stu_above N0 a0 sol bQ pk l1' u1; have := stu_below N0 a0 sol bQ pk l1' u2.
have -> : 1 + Q / (a + Q) * (1 + rate ^+ k * (l - 1) - 1) = 1 + rate ^+ k.+1 * (l - 1).
  by rewrite -/rate [1 + rate ^+ k * _ - 1]addrC addKr exprS mulrA.
by move=> b2 b1; split=> //; exact: stu_step_pd.
Qed.
Lemma stu_converges S : pd S -> exists2 M : R, 0 <= M & forall k, fro (iter k step S - Sol) <= rate ^+ k * M * fro Sol.
Proof.
move=> pS; have [l [l1 h1 h2]] := pd_comparable pS sol.1; exists (l - 1); first by rewrite subr_ge0.
move=> k; have [pk u1 u2] := stu_iterates k pS l1 h1 h2; have [r0 _] := rate_ge0 a0 Q0.
by apply: loewner_fro => //; [exact: sol.1 | rewrite mulr_ge0 ?exprn_ge0 // subr_ge0].
Qed.
End StudentIter.

(* ------------------------------------------------------------------ Tyler's update keeps order intervals *)
Section TylerOrder.
Variable K : starField.
Local Notation ofR := (@ofR K).
Variables (N p : nat) (X : 'M[K]_(N, p)) (Sol : 'M[K]_p).
Hypothesis (X0 : forall i, row i X != 0).
Hypotheses (sol : tyler_solution X Sol).
Definition tyl_w (q : R) : R := p%:R / N%:R / q.
Lemma tyl_c0 : 0 <= p%:R / N%:R :> R. Proof. by rewrite divr_ge0 ?ler0n. Qed.
Lemma tyl_above S l : pd S -> 0 < l -> loewner S (ofR l *: Sol) -> loewner (mstep tyl_w X S) (ofR l *: Sol).
Proof.
move=> pS l0 le; have [pSol eSol] := sol; rewrite eSol; apply: wsum_loewner => i.
have := maha_loewner (samp X i) pS pSol le; have := maha_gt0 pSol (samp0 X0 i); have := maha_gt0 pS (samp0 X0 i).
move: (maha S _) (maha Sol _) => q s q0 s0 h; rewrite /tyl_w mulrCA; apply: ler_wpmul2l; first exact: tyl_c0.
by rewrite ler_pdivl_mulr // mulrC ler_pdivr_mulr.
Qed.
Lemma tyl_below S l : pd S -> 0 < l -> loewner Sol (ofR l *: S) -> loewner Sol (ofR l *: mstep tyl_w X S).
Proof.
move=> pS l0 le; have [pSol eSol] := sol; rewrite {1}eSol; apply: wsum_loewner => i.
have := maha_loewner (samp X i) pSol pS le; have := maha_gt0 pSol (samp0 X0 i); have := maha_gt0 pS (samp0 X0 i).
move: (maha S _) (maha Sol _) => q s q0 s0 h; rewrite /tyl_w mulrCA; apply: ler_wpmul2l; first exact: tyl_c0.
by rewrite ler_pdivl_mulr // mulrC ler_pdivr_mulr.
Qed.
End TylerOrder.
