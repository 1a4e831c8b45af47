(* Costs sum_i rho (x_i^H S^-1 x_i) + N ln det S: simultaneous diagonalisation of two positive
   definite matrices, global minimality of fixed points (geodesic convexity), descent of the
   fixed-point update (majorisation). *)
From Coq Require Import Reals Lra.
From mathcomp Require Import all_ssreflect all_fingroup all_algebra.
From Verif Require Import RealsMC RealTac Star FunCalc Model_featurearray Spec_covariance Proofs_mest.
Set Implicit Arguments.
Unset Strict Implicit.
Unset Printing Implicit Defensive.
Local Open Scope ring_scope.
Import GRing.Theory Num.Theory Order.TTheory.

(* real analysis: logarithm *)
Lemma lnM (x y : R) : 0 < x -> 0 < y -> ln (x * y) = ln x + ln y.
Proof. by move=> /RltP x0 /RltP y0; rewrite -RmultE ln_mult. Qed.
Lemma lnV (x : R) : 0 < x -> ln x^-1 = - ln x.
Proof. by move=> x0; have /RltP x0' := x0; rewrite -RinvE ?ln_Rinv //; apply/eqP; rewrite gt_eqF. Qed.
Lemma ln1 : ln 1 = 0. Proof. exact: ln_1. Qed.
Lemma lnD (x y : R) : 0 < x -> 0 < y -> ln (x / y) = ln x - ln y.
Proof. by move=> x0 y0; rewrite lnM ?invr_gt0 // lnV. Qed.
Lemma ln_prod n (d : 'I_n -> R) : (forall j, 0 < d j) -> ln (\prod_j d j) = \sum_j ln (d j).
Proof.
move=> d0; suff [] : 0 < \prod_j d j /\ ln (\prod_j d j) = \sum_j ln (d j) by [].
apply: (big_ind2 (fun x y => 0 < x /\ ln x = y)) => [|x y u v [x0 <-] [u0 <-]|j _] //.
- by rewrite ln1; split=> //; exact: ltr01.
- by rewrite lnM // mulr_gt0.
Qed.
Lemma lnX (x : R) n : 0 < x -> ln (x ^+ n) = n%:R * ln x.
Proof.
move=> x0; elim: n => [|n IH]; first by rewrite expr0 ln1 mul0r.
by rewrite exprS lnM ?exprn_gt0 // IH -[in RHS]addn1 natrD mulrDl mul1r addrC.
Qed.
(* ln x <= x - 1, strict unless x = 1 *)
Lemma ln_lt_sub1 (x : R) : 0 < x -> x != 1 -> ln x < x - 1.
Proof.
move=> /RltP x0 /eqP x1; apply/RltP; change (Rlt (ln x) (Rminus x R1)).
have h : ln x <> R0 by move=> h; apply: x1; apply: ln_inv => //; [exact: Rlt_0_1 | rewrite ln_1].
have := exp_ineq1 (ln x) h; rewrite exp_ln // => H; lra.
Qed.
Lemma ln_le_sub1 (x : R) : 0 < x -> ln x <= x - 1.
Proof.
move=> x0; case: (eqVneq x 1) => [->|x1]; first by rewrite ln1 subrr.
by apply/ltW/ln_lt_sub1.
Qed.
Lemma ln_le (x y : R) : 0 < x -> x <= y -> ln x <= ln y.
Proof.
move=> x0 xy; have y0 := lt_le_trans x0 xy.
have h : 0 < x / y by rewrite divr_gt0.
have := ln_le_sub1 h; rewrite lnD // => H.
by rewrite -subr_le0; apply: le_trans H _; rewrite subr_le0 ler_pdivr_mulr // mul1r.
Qed.
Lemma ln_lt (x y : R) : 0 < x -> x < y -> ln x < ln y.
Proof.
move=> x0 xy; have y0 := lt_trans x0 xy.
have h : 0 < x / y by rewrite divr_gt0.
have := ln_le_sub1 h; rewrite lnD // => H.
by rewrite -subr_lt0; apply: le_lt_trans H _; rewrite subr_lt0 ltr_pdivr_mulr // mul1r.
Qed.
(* concavity *)
Lemma ln_jensen n (w z : 'I_n -> R) : (forall j, 0 <= w j) -> \sum_j w j = 1 -> (forall j, 0 < z j) ->
  \sum_j w j * ln (z j) <= ln (\sum_j w j * z j).
Proof.
move=> w0 w1 z0; set m := \sum_j w j * z j.
have m0 : 0 < m.
  have [j wj] : exists j, 0 < w j.
    apply/existsP; case: existsP => // h; have : \sum_j w j = 0.
      by apply: big1 => j _; apply/eqP; case: (ltrgt0P (w j)) (w0 j) => // hj _; case: h; exists j.
    by rewrite w1 => /eqP; rewrite oner_eq0.
  rewrite /m (bigD1 j) //=; apply: ltr_spaddl; first by rewrite mulr_gt0.
  by apply: sumr_ge0 => i _; rewrite mulr_ge0 // ltW.
have H j : w j * ln (z j) <= w j * ln m + (w j * z j / m - w j).
  have -> : w j * ln m + (w j * z j / m - w j) = w j * (ln m + (z j / m - 1)) by rewrite mulrDr mulrBr mulrA mulr1.
  apply: ler_wpmul2l => //.
  by rewrite -ler_subl_addl -lnD //; apply: ln_le_sub1; rewrite divr_gt0.
apply: le_trans (ler_sum _ (fun j _ => H j)) _.
by rewrite big_split sumrB /= -!mulr_suml w1 mul1r -/m divff ?gt_eqF // subrr addr0.
Qed.

Section Cost.
Variable K : starField.
Local Notation cj := (@cj K).
Local Notation ofR := (@ofR K).
Local Notation toR := (@toR K).
Local Notation "A ^H" := (adj A) (at level 8, format "A ^H").

(* S = B B^H, T = B diag(d) B^H *)
Lemma simdiag p (S T : 'M[K]_p) : pd S -> pd T -> exists B d,
  [/\ B \in unitmx, S = B *m B^H, T = B *m dia K d *m B^H & forall j, 0 < d 0 j].
Proof.
move=> pS pT; have hS := pd_herm pS.
pose r := fmx R_sqrt.sqrt S.
have hr : herm r := fmx_herm _ _.
have rr : r *m r = S.
  rewrite /r fmxM // -[RHS](fmx_id hS); apply: eq_in_fmx => // x /(eigval_gt0 pS) x0.
  by rewrite sqrtR_sqr // ltW.
have ur : r \in unitmx by have := pd_unit pS; rewrite -rr unitmx_mul => /andP[].
pose W := invmx r *m T *m (invmx r)^H.
have pW : pd W by apply: pd_congr => //; rewrite unitmx_inv.
have [d [V dec]] := spectral (pd_herm pW); have [uV eW] := dec.
exists (r *m V), d; split.
- by rewrite unitmx_mul ur unitary_unit.
- by rewrite adjM hr -mulmxA (mulmxA V) unitaryV // mul1mx rr.
- rewrite adjM !mulmxA -(mulmxA r) -(mulmxA r) -eW /W.
  by rewrite !mulmxA mulmxV // mul1mx adjV hr mulmxKV.
- by move=> j; apply: (eigval_gt0 pW); apply: eigdec_eigval dec.
Qed.

(* |y_j|^2 *)
Definition sq (x : K) : R := toR (x * cj x).
Lemma sq_ge0 x : 0 <= sq x. Proof. exact/toR_ge0/mul_cj_ge0. Qed.
Lemma ofR_sq x : ofR (sq x) = x * cj x. Proof. exact/ofR_toR_ge0/mul_cj_ge0. Qed.

Lemma dia_inv p (d : 'rV[R]_p) : (forall j, 0 < d 0 j) -> invmx (dia K d) = dia K (map_mx (fun x => x^-1) d).
Proof.
move=> d0; have h : dia K d *m dia K (map_mx (fun x => x^-1) d) = 1%:M.
  rewrite diaM; have -> : (\row_j (d 0 j * (map_mx (fun x => x^-1) d) 0 j)) = const_mx 1 :> 'rV[R]_p.
    by apply/rowP => j; rewrite !mxE divff // gt_eqF.
  by rewrite dia_const rmorph1.
by rewrite -[LHS]mulmx1 -h mulmxA mulVmx ?mul1mx //; apply: (mulmx1_unit h).1.
Qed.
Lemma dia_unit p (d : 'rV[R]_p) : (forall j, 0 < d 0 j) -> dia K d \in unitmx.
Proof. by move=> d0; apply/pd_unit/pd_dia. Qed.
Lemma maha_dia p (d : 'rV[R]_p) y : (forall j, 0 < d 0 j) -> maha (dia K d) y = \sum_j sq (y j 0) / d 0 j.
Proof.
move=> d0; rewrite /maha dia_inv // mxE raddf_sum; apply: eq_bigr => j _.
by rewrite mul_mx_dia mxE mxE mxE mulrAC mulrC toRZ [cj _ * _]mulrC [RHS]mulrC.
Qed.
Lemma maha1 p (y : 'cV[K]_p) : maha 1%:M y = \sum_j sq (y j 0).
Proof.
have -> : 1%:M = dia K (const_mx 1) :> 'M_p by rewrite dia_const rmorph1.
rewrite maha_dia => [|j]; last by rewrite mxE ltr01.
by apply: eq_bigr => j _; rewrite mxE divr1.
Qed.
Lemma det_simdiag p (B : 'M[K]_p) (d : 'rV[R]_p) : B \in unitmx -> (forall j, 0 < d 0 j) ->
  ln (toR (\det (B *m dia K d *m B^H))) = ln (toR (\det (B *m B^H))) + \sum_j ln (d 0 j).
Proof.
move=> uB d0; have pB : pd (B *m B^H) by rewrite -[B in B *m _]mulmx1; apply: pd_congr uB (pd1 _ _).
have e : \det (B *m dia K d *m B^H) = ofR (\prod_j d 0 j) * \det (B *m B^H).
  rewrite !det_mulmx mulrC mulrA mulrC; congr (_ * _); last by rewrite mulrC.
  by rewrite det_diag rmorph_prod; apply: eq_bigr => j _; rewrite mxE.
rewrite e toRZ lnM ?toR_gt0 ?det_pd //; last by apply: prodr_gt0.
by rewrite ln_prod // addrC.
Qed.

Lemma outerE p (x : 'cV[K]_p) i j : outer x i j = x i 0 * cj (x j 0).
Proof. by rewrite /outer mxE big_ord1 adjE. Qed.
(* the cost *)
Definition mcost N p (rho : R -> R) (X : 'M[K]_(N, p)) (S : 'M[K]_p) : R :=
  \sum_i rho (maha S (samp X i)) + N%:R * ln (toR (\det S)).

Section Two.
Variables (N p : nat) (X : 'M[K]_(N, p)) (S T : 'M[K]_p).
Hypotheses (pS : pd S) (pT : pd T).
Variables (B : 'M[K]_p) (d : 'rV[R]_p).
Hypotheses (uB : B \in unitmx) (eS : S = B *m B^H) (eT : T = B *m dia K d *m B^H) (d0 : forall j, 0 < d 0 j).
Let y i : 'cV[K]_p := invmx B *m samp X i.
Lemma BF i : samp X i = B *m y i. Proof. by rewrite /y mulKVmx. Qed.
Lemma mahaS i : maha S (samp X i) = \sum_j sq (y i j 0).
Proof.
have e : S = B *m 1%:M *m B^H by rewrite mulmx1.
by rewrite BF e maha_congr ?unitmx1 // maha1.
Qed.
Lemma mahaT i : maha T (samp X i) = \sum_j sq (y i j 0) / d 0 j.
Proof. by rewrite BF eT maha_congr ?dia_unit // maha_dia. Qed.
Lemma detT : ln (toR (\det T)) = ln (toR (\det S)) + \sum_j ln (d 0 j).
Proof. by rewrite eT det_simdiag // -eS. Qed.
(* entries of B^-1 (sum a_i x_i x_i^H) B^-H *)
Lemma wsumB a M : wsum a X = B *m M *m B^H -> forall j, \sum_i a i * sq (y i j 0) = toR (M j j).
Proof.
move=> e j.
have : wsum a X = B *m (\sum_i ofR (a i) *: outer (y i)) *m B^H.
  rewrite mulmx_sumr mulmx_suml; apply: eq_bigr => i _.
  by rewrite -scalemxAr -scalemxAl -outer_mul -BF.
rewrite e => /(congr1 (fun A => invmx B *m A *m invmx B^H)).
rewrite !mulmxA !mulVmx // !mul1mx !mulmxK ?unitmx_adj // => ->.
rewrite summxE raddf_sum; apply: eq_bigr => i _.
move: (y i) => v; by rewrite mxE toRZ outerE.
Qed.
End Two.

(* A fixed point S = 1/N sum u(q_i) x_i x_i^H is a global minimiser, when rho is convex in ln q
   with slope u(q) q. *)
Lemma fixed_point_min N p (rho u : R -> R) (X : 'M[K]_(N, p)) (S T : 'M[K]_p) :
  (forall q q', 0 < q -> 0 < q' -> rho q + u q * q * (ln q' - ln q) <= rho q') ->
  (forall i, row i X != 0) -> (forall q, 0 < q -> 0 <= u q) ->
  pd S -> pd T -> wsum (fun i => u (maha S (samp X i))) X = ofR N%:R *: S -> mcost rho X S <= mcost rho X T.
Proof.
move=> cvx X0 u0 pS pT fix_; have [B [d [uB eS eT d0]]] := simdiag pS pT.
have xi i : samp X i != 0 by rewrite /samp trmx_eq0.
have mS := mahaS X uB eS; have mT := mahaT X uB eT d0.
have qS i := maha_gt0 pS (xi i); have qT i := maha_gt0 pT (xi i).
set y := fun i => invmx B *m samp X i in mS mT *.
have J i : rho (maha S (samp X i)) - \sum_j u (maha S (samp X i)) * sq (y i j 0) * ln (d 0 j) <= rho (maha T (samp X i)).
  apply: le_trans (cvx _ _ (qS i) (qT i)); rewrite ler_add2l.
  have q0 := qS i; have uq := u0 _ q0; set q := maha S _ in q0 uq *.
  have w1 : \sum_j sq (y i j 0) / q = 1 by rewrite -mulr_suml -mS divff // gt_eqF.
  have w0 j : 0 <= sq (y i j 0) / q by rewrite divr_ge0 ?sq_ge0 // ltW.
  have z0 j : 0 < (d 0 j)^-1 by rewrite invr_gt0.
  have := ln_jensen w0 w1 z0.
  have -> : \sum_j sq (y i j 0) / q * (d 0 j)^-1 = maha T (samp X i) / q.
    by rewrite mT mulr_suml; apply: eq_bigr => j _; rewrite mulrAC.
  rewrite lnD // => /(ler_wpmul2l (mulr_ge0 uq (ltW q0))); apply: le_trans.
  rewrite mulr_sumr -sumrN; apply: ler_sum => j _.
  rewrite lnV // mulrN mulrN; set l := ln _; set v := sq _.
  suff -> : u q * q * (v / q * l) = u q * v * l by [].
  by rewrite !mulrA (mulrAC (u q)) -(mulrA _ q) divff ?mulr1 // gt_eqF.
have Sm : \sum_i rho (maha S (samp X i)) - N%:R * (\sum_j ln (d 0 j)) <= \sum_i rho (maha T (samp X i)).
  apply: le_trans (ler_sum _ (fun i _ => J i)); rewrite sumrB ler_add2l ler_opp2.
  rewrite exchange_big mulr_sumr /=; apply: ler_sum => j _; rewrite -mulr_suml.
  rewrite (@wsumB N p X B uB _ (ofR N%:R *: 1%:M)); last first.
    by rewrite fix_ eS -scalemxAr -scalemxAl mulmx1.
  by rewrite !mxE eqxx mulr1 toRK.
rewrite /mcost (detT uB eS eT d0) mulrDr addrA.
by rewrite addrAC ler_add2r -ler_subl_addr.
Qed.

(* The update never increases the cost, when rho is concave with derivative u; it decreases
   it unless S is a fixed point. *)
Lemma update_descent N p (rho u : R -> R) (X : 'M[K]_(N, p)) (S T : 'M[K]_p) :
  (forall q q', 0 < q -> 0 < q' -> rho q' <= rho q + u q * (q' - q)) ->
  (forall i, row i X != 0) -> (0 < N)%N ->
  pd S -> pd T -> wsum (fun i => u (maha S (samp X i))) X = ofR N%:R *: T ->
  mcost rho X T <= mcost rho X S /\ (T <> S -> mcost rho X T < mcost rho X S).
Proof.
move=> ccv X0 N0 pS pT up; have [B [d [uB eS eT d0]]] := simdiag pS pT.
have xi i : samp X i != 0 by rewrite /samp trmx_eq0.
have mS := mahaS X uB eS; have mT := mahaT X uB eT d0.
have qS i := maha_gt0 pS (xi i); have qT i := maha_gt0 pT (xi i).
pose y := fun i => invmx B *m samp X i; rewrite -/(y _) in mS mT.
have [a ea] : exists a : 'I_N -> R, a = fun i => u (maha S (samp X i)) by exists (fun i => u (maha S (samp X i))).
rewrite -ea in up.
have W j : \sum_i a i * sq (y i j 0) = N%:R * d 0 j.
  rewrite (@wsumB N p X B uB _ (ofR N%:R *: dia K d)); last first.
    by rewrite up eT -scalemxAr -scalemxAl.
  by rewrite mxE diaE eqxx mulr1n -rmorphM toRK.
have aS : \sum_i a i * maha S (samp X i) = N%:R * \sum_j d 0 j.
  transitivity (\sum_i \sum_j a i * sq (y i j 0)); first by apply: eq_bigr => i _; rewrite [in LHS]mS mulr_sumr.
  by rewrite exchange_big mulr_sumr; apply: eq_bigr => j _; rewrite W.
have aT : \sum_i a i * maha T (samp X i) = N%:R * p%:R.
  transitivity (\sum_i \sum_j a i * (sq (y i j 0) / d 0 j)); first by apply: eq_bigr => i _; rewrite [in LHS]mT mulr_sumr.
  have -> : p%:R = \sum_(j < p) (1 : R) by rewrite sumr_const card_ord.
  rewrite exchange_big /= mulr_sumr; apply: eq_bigr => j _.
  under eq_bigr => i _ do rewrite mulrA.
  by rewrite -mulr_suml W -mulrA divff ?mulr1 // gt_eqF.
pose gap := \sum_j (d 0 j - 1 - ln (d 0 j)).
have g0 j : 0 <= d 0 j - 1 - ln (d 0 j) by rewrite subr_ge0 ln_le_sub1.
have D : mcost rho X T <= mcost rho X S - N%:R * gap.
  rewrite /mcost (detT uB eS eT d0).
  have h : \sum_i rho (maha T (samp X i)) <= \sum_i rho (maha S (samp X i)) + (N%:R * p%:R - N%:R * \sum_j d 0 j).
    rewrite -aS -aT -sumrB -big_split /=; apply: ler_sum => i _; by rewrite -mulrBr ea; apply: ccv.
  have -> : gap = \sum_j d 0 j - p%:R - \sum_j ln (d 0 j) by rewrite /gap !sumrB sumr_const card_ord.
  rewrite mulrDr !mulrBr; move: h; set h := \sum_i _; set b := \sum_i _; set s := N%:R * ln _.
  set t := N%:R * \sum_j ln _; set v := N%:R * \sum_j _; set w := N%:R * p%:R => H; clearbody h b s t v w; clear -H; rlra.
have G0 : 0 <= gap by apply: sumr_ge0.
split; first by apply: le_trans D _; rewrite ler_subl_addr ler_addl mulr_ge0 // ler0n.
move=> TS; apply: le_lt_trans D _; rewrite ltr_subl_addr ltr_addl mulr_gt0 ?ltr0n //.
rewrite lt_def G0 andbT; apply/negP => /eqP e; apply: TS; rewrite eT eS.
have e0 j : d 0 j = 1.
  apply/eqP; apply/negPn/negP => dj; have := ln_lt_sub1 (d0 j) dj; rewrite -subr_gt0.
  by move/eqP: e; rewrite psumr_eq0 // => /allP /(_ j (mem_index_enum _)) /eqP ->; rewrite ltxx.
have -> : d = const_mx 1 by apply/rowP => j; rewrite e0 mxE.
by rewrite dia_const rmorph1 mulmx1.
Qed.
End Cost.
