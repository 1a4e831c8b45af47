(* Distance between the solution of Student's equation and a matrix that solves it nearly.  Nothing here models code. *)
From Coq Require Import Reals Lra Classical_Prop.
From mathcomp Require Import all_ssreflect all_algebra.
From mathcomp Require Import zify.
From Verif Require Import RealsMC RealTac RealTac2 Star FunCalc Spec_covariance Spec_fixedpoint Spec_exist Proofs_mest Proofs_cost Proofs_unique Proofs_unique2
  Compact Proofs_estimators Proofs_converge Props_cost Props_robust Props_unique Props_converge Proofs_exist Proofs_exist2.
Set Implicit Arguments.
Unset Strict Implicit.
Unset Printing Implicit Defensive.
Local Open Scope ring_scope.
Import GRing.Theory Num.Theory Order.TTheory.

Section Stable.
Variable K : starField.
Local Notation ofR := (@ofR K).
Local Notation toR := (@toR K).
Local Notation cj := (@cj K).
Lemma loewner_pd p (S T : 'M[K]_p) (l : R) : 0 < l -> pd S -> loewner S (ofR l *: T) -> pd T.
Proof.
move=> l0 pS h; have li : 0 < l^-1 by rewrite invr_gt0.
have := pdD (pdZ (_ : 0 < ofR l^-1) pS) (psdZ (_ : 0 <= ofR l^-1) h).
rewrite ofR_gt0 ofRge0 => /(_ li (ltW li)); rewrite -scalerDr addrC subrK scalerA -rmorphM mulVf ?gt_eqF // rmorph1 scale1r //.
Qed.
Lemma herm_qfE n (S : 'M[K]_n) x : herm S -> ofR (toR (qf S x)) = qf S x.
Proof.
move=> h; apply: ofRK; have e : adj (adj x *m S *m x) = adj x *m S *m x by rewrite !adjM adjK h mulmxA.
by rewrite /qf /sesq -{2}e adjE.
Qed.
(* the order is closed *)
Lemma loewner_limit p (S T : 'M[K]_p) (l : R) : pd S -> herm T -> (forall e : R, 0 < e -> loewner T (ofR (l + e) *: S)) -> loewner T (ofR l *: S).
Proof.
move=> pS hT h; split=> [|x]; first by apply: hermB => //; apply: hermZR; exact: pd_herm.
have hh : herm (ofR l *: S - T) by apply: hermB => //; apply: hermZR; exact: pd_herm.
case: (eqVneq x 0) => [->|x0]; first by rewrite /qf /sesq mulmx0 mxE.
have q0 : 0 < toR (qf S x) by apply: toR_gt0; exact: pS.2.
rewrite -(herm_qfE x hh) ofRge0 leNgt; apply/negP => neg.
pose e := - toR (qf (ofR l *: S - T) x) / toR (qf S x) / 2%:R.
have e0 : 0 < e by rewrite !divr_gt0 ?ltr0n // oppr_gt0.
have := (h e e0).2 x; rewrite rmorphD scalerDl -addrA [ofR e *: S - T]addrC addrA qfD qfZ.
rewrite -(herm_qfE x hh) -(herm_qfE x (pd_herm pS)) -rmorphM -rmorphD ofRge0 leNgt => /negP; apply.
rewrite /e; move: (toR _) neg => y y0; move: (toR _) q0 => z z0.
have -> : - y / z / 2%:R * z = - y / 2%:R by rewrite mulrAC divfK ?gt_eqF.
have -> : y + - y / 2%:R = y / 2%:R by rfield.
by rewrite pmulr_llt0 ?invr_gt0 ?ltr0n.
Qed.
(* the Frobenius norm *)
Lemma sq_scale (r : R) (x : K) : sq (ofR r * x) = r ^+ 2 * sq x.
Proof. by rewrite /sq rmorphM cj_ofR mulrACA -rmorphM -expr2 toRZ. Qed.
Lemma sq_young (r : R) (x y : K) : 0 < r -> sq (x + y) <= (1 + r ^+ 2) * sq x + (1 + (r ^+ 2)^-1) * sq y.
Proof.
move=> r0; have := sq_ge0 (ofR r * x + - (ofR r^-1 * y)); rewrite !sqDe sqN !sq_scale rmorphN mulrN raddfN /=.
have -> : toR (ofR r * x * cj (ofR r^-1 * y)) = toR (x * cj y).
  by rewrite rmorphM cj_ofR mulrACA -rmorphM mulfV ?gt_eqF // rmorph1 mul1r.
rewrite exprVn; move: (toR (x * cj y)) (sq x) (sq y) (r ^+ 2) (r ^+ 2)^-1 => t u v s s' h; rlra2.
Qed.
Lemma froD m n (A B : 'M[K]_(m, n)) : fro (A + B) <= fro A + fro B.
Proof.
case: (eqVneq (fro A) 0) => [/fro_eq0 ->|A0]; first by rewrite add0r ler_addr fro_ge0.
case: (eqVneq (fro B) 0) => [/fro_eq0 ->|B0]; first by rewrite addr0 ler_addl fro_ge0.
have {A0} A0 : 0 < fro A by rewrite lt_def A0 fro_ge0.
have {B0} B0 : 0 < fro B by rewrite lt_def B0 fro_ge0.
have sA : 0 < fro B / fro A by rewrite divr_gt0.
rewrite -ler_sqr ?nnegrE ?fro_ge0 //; last by rewrite addr_ge0 ?fro_ge0.
have sq2 (M : 'M[K]_(m, n)) : fro M ^+ 2 = fro2 M by rewrite /fro -RpowE; apply: R_sqrt.pow2_sqrt; apply/RleP; exact: fro2_ge0.
set r := R_sqrt.sqrt (fro B / fro A); have r0 : 0 < r by apply/RltP/R_sqrt.sqrt_lt_R0/RltP.
have r2 : r ^+ 2 = fro B / fro A by rewrite /r -RpowE; apply: R_sqrt.pow2_sqrt; apply/RleP/ltW.
rewrite sq2; apply: (@le_trans _ _ ((1 + r ^+ 2) * fro2 A + (1 + (r ^+ 2)^-1) * fro2 B)).
  rewrite !fro2E !mulr_sumr -big_split; apply: ler_sum => i _; rewrite !mulr_sumr -big_split; apply: ler_sum => j _.
  by rewrite mxE; exact: sq_young.
rewrite r2 -!sq2; move: (fro A) (fro B) A0 B0 => u v u0 v0; rewrite le_eqVlt; apply/orP; left; apply/eqP.
have u1 : u <> 0 by apply/eqP; rewrite gt_eqF. have v1 : v <> 0 by apply/eqP; rewrite gt_eqF.
rfield; by split.
Qed.
Section Student.
Variables (N p : nat) (X : 'M[K]_(N, p.+1)) (a : R).
Hypotheses (N0 : (0 < N)%N) (a0 : 0 < a).
Local Notation F := (mstep (stu_w N p.+1 a) X).
Lemma stu_closer S T (Q e : R) : pd S -> pd T -> (forall i, maha T (samp X i) <= Q) -> 0 <= e -> close e S T -> close (Q / (a + Q) * e) (F S) (F T).
Proof.
move=> pS pT bQ e0 [h1 h2]; have l1 : 1 <= 1 + e by rewrite ler_addl.
have el : 1 + e - 1 = e by rewrite addrC addKr.
have c0 : 0 <= (a + p.+1%:R) / N%:R by rewrite divr_ge0 ?ler0n // addr_ge0 ?ler0n // ltW.
split; apply: wsum_loewner => i.
- have := maha_loewner (samp X i) pS pT h1; have := bQ i; have := maha_ge0 (samp X i) pT; have := maha_ge0 (samp X i) pS.
  move: (maha S _) (maha T _) => q s q0 s0 sQ h.
  have aq : 0 < a + q by rewrite ltr_spaddl. have as_ : 0 < a + s by rewrite ltr_spaddl.
  rewrite /stu_w mulrCA; apply: ler_wpmul2l; first exact: c0.
  rewrite -[(a + q)^-1]mul1r ler_pdivr_mulr // mulrAC ler_pdivl_mulr // mul1r.
  have h3 := stu_rate a0 s0 sQ l1; have h4 := stu_up a0 s0 l1 h; rewrite el in h3.
  rewrite -(ler_pmul2r as_) -expr2; apply: le_trans h4 _; rewrite mulrAC; apply: ler_wpmul2r => //; exact: ltW.
- have := maha_loewner (samp X i) pT pS h2; have := bQ i; have := maha_ge0 (samp X i) pT; have := maha_ge0 (samp X i) pS.
  move: (maha S _) (maha T _) => q s q0 s0 sQ h.
  have aq : 0 < a + q by rewrite ltr_spaddl. have as_ : 0 < a + s by rewrite ltr_spaddl.
  rewrite /stu_w mulrCA; apply: ler_wpmul2l; first exact: c0.
  rewrite -[(a + s)^-1]mul1r ler_pdivr_mulr // mulrAC ler_pdivl_mulr // mul1r.
  by apply: le_trans (_ : a + (1 + e) * s <= _); [rewrite ler_add2l | have := stu_rate a0 s0 sQ l1; rewrite el].
Qed.
(* the error made by a matrix S such that F S is close to S *)
Variables (S : 'M[K]_p.+1) (Q e : R).
Hypotheses (pS : pd S) (bQ : forall i, maha S (samp X i) <= Q) (e0 : 0 <= e) (res : close e (F S) S) (eQ : e * Q < a).
Definition post : R := e * (a + Q) / (a - e * Q).
Lemma Q_ge0 : 0 <= Q.
Proof. by have := bQ (Ordinal N0); apply: le_trans; exact: maha_ge0. Qed.
Let Q0 := Q_ge0.
Let aQ : 0 < a + Q. Proof. by rewrite ltr_spaddl. Qed.
Let den : 0 < a - e * Q. Proof. by rewrite subr_gt0. Qed.
Lemma post_ge0 : 0 <= post.
Proof. by rewrite divr_ge0 ?mulr_ge0 // ltW. Qed.
Lemma postE x : (1 + e) * (1 + Q / (a + Q) * (post + x)) - 1 = post + (1 + e) * Q / (a + Q) * x.
Proof.
rewrite /post; move: (gt_eqF den) (gt_eqF aQ) => /eqP d1 /eqP d2; move: (e) (Q) (a) d1 d2 => e' Q' a' d1 d2.
rfield; split; [move=> h; apply: d2; rewrite -[RHS]h -RplusE // | move=> h; apply: d1; rewrite -[RHS]h -RplusE -RoppE -RmultE //].
Qed.
Lemma rate1 : 0 <= (1 + e) * Q / (a + Q) < 1.
Proof.
apply/andP; split; last by rewrite ltr_pdivr_mulr // mul1r mulrDl mul1r addrC ltr_add2r.
apply: divr_ge0; last exact: ltW.
by apply: mulr_ge0 => //; apply: addr_ge0 => //; exact: ler01.
Qed.
Lemma spanning_res : spanning X.
Proof. by apply: (@solution_spanning K N p.+1 _ X); apply: (loewner_pd _ pS res.2); rewrite ltr_paddr ?ltr01. Qed.
Lemma close_step T x : pd T -> 0 <= x -> close (post + x) T S -> close (post + (1 + e) * Q / (a + Q) * x) (F T) S.
Proof.
move=> pT x0 h; have px : 0 <= post + x by rewrite addr_ge0 // post_ge0.
rewrite -postE mulrC; apply: close_trans res => //; first by rewrite mulr_ge0 // divr_ge0 // ltW.
exact: stu_closer.
Qed.
Lemma post_iter T l : pd T -> 0 <= l -> close l T S -> forall k, close (post + ((1 + e) * Q / (a + Q)) ^+ k * l) (iter k F T) S.
Proof.
move=> pT l0 h; have [r0 r1] := andP rate1; have sp := spanning_res.
have pk k : pd (iter k F T) by elim: k => //= k; exact: student_mstep_pd.
elim=> [|k IH] /=; last by rewrite exprS -mulrA; apply: close_step => //; rewrite mulr_ge0 ?exprn_ge0.
by apply: close_le (pd_psd pT) (pd_psd pS) (_ : l <= _) h; rewrite expr0 mul1r ler_addr post_ge0.
Qed.
(* every solution is close to S *)
Lemma post_bound T : pd T -> F T = T -> close post T S.
Proof.
move=> pT fT; have [l [l1 h1 h2]] := pd_comparable pT pS; have [r0 r1] := andP rate1.
have h k : close (post + ((1 + e) * Q / (a + Q)) ^+ k * l) T S.
  elim: k => [|k IH]; last first.
    by rewrite exprS -mulrA -{1}fT; apply: close_step => //; rewrite mulr_ge0 ?exprn_ge0 // (le_trans ler01).
  apply: close_le (pd_psd pT) (pd_psd pS) (_ : l - 1 <= _) _; last by rewrite /close addrC subrK.
  by rewrite expr0 mul1r; apply: le_trans (_ : l <= _); [rewrite ger_addl oppr_le0 ler01 | rewrite ler_addr post_ge0].
have l0 : 0 <= l by exact: le_trans ler01 l1.
have lim x : 0 < x -> close (post + x) T S.
  move=> x0; have [k0 hk] := geometric r0 r1 l0 x0; apply: close_le (pd_psd pT) (pd_psd pS) _ (h k0); rewrite ler_add2l; exact: hk.
split; apply: loewner_limit => //; try (by apply: pd_herm); move=> x x0; rewrite -addrA; by case: (lim x x0).
Qed.
(* and there is one *)
Hypotheses (cK : compactK K) (X0 : forall i, row i X != 0).
Lemma post_exists : exists2 T, student_solution a X T & close post T S.
Proof.
have sp := spanning_res; have Fpd T : pd T -> pd (F T) by exact: student_mstep_pd.
have pk k : pd (iter k F S) by elim: k => //= k; exact: Fpd.
have ck k : close post (iter k F S) S.
  elim: k => [|k IH] /=.
    apply: close_le (pd_psd pS) (pd_psd pS) post_ge0 _; rewrite /close addr0 rmorph1 scale1r; split; exact: loewner_refl.
  by have := close_step (pk k) (lexx 0); rewrite mulr0 addr0; apply.
have po := post_ge0; have p1 : 0 < 1 + post by rewrite ltr_paddr ?ltr01.
have bk k i : maha (iter k F S) (samp X i) <= (1 + post) * Q.
  apply: le_trans (maha_loewner (samp X i) pS (pk k) (ck k).2) _; apply: ler_wpmul2l => //; exact: ltW.
have qp : 0 <= (1 + post) * Q by rewrite mulr_ge0 // ltW.
have [r0 r1] := rate_ge0 a0 qp.
have ek k : close ((((1 + post) * Q) / (a + (1 + post) * Q)) ^+ k * e) (F (iter k F S)) (iter k F S).
  elim: k => [|k IH]; first by rewrite expr0 mul1r.
  by rewrite exprS -mulrA /=; apply: stu_closer => //; [exact: Fpd | rewrite mulr_ge0 ?exprn_ge0].
have [l [l1 h1 h2]] := pd_comparable (pd1 K p.+1) pS; have l0 : 0 < l by exact: lt_le_trans ltr01 l1.
have [L [pL fL hL]] : exists L, [/\ pd L, F L = L & forall (e : R) k0, 0 < e -> exists2 k, (k0 <= k)%N & close e (iter k F S) L].
  apply: (fixed_cluster X0 (@stu_subhom N p a a0 N0) Fpd cK (mulr_gt0 l0 p1) pk).
  - by move=> k; apply: loewner_comp h1 (ck k).2; exact: ltW.
  - by move=> k; rewrite mulrC; apply: loewner_comp (ck k).1 h2; exact: ltW.
  - move=> x x0; have [k0 hk] := geometric r0 r1 e0 x0; exists k0 => k kk; apply: close_le (ek k); [exact/pd_psd/Fpd | exact: pd_psd | exact: hk].
by exists L; [split=> //; rewrite -{1}fL | exact: post_bound].
Qed.
End Student.
End Stable.
