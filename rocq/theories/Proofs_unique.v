(* Equality cases of the convexity argument of Proofs_cost.v, the decrease made by one update, and the size of the
   update in the Frobenius norm: used for uniqueness, termination and convergence of the fixed-point algorithms. *)
From Coq Require Import Reals Lra.
From mathcomp Require Import all_ssreflect all_fingroup all_algebra.
From Verif Require Import RealsMC RealTac RealTac2 Star FunCalc Model_featurearray Spec_covariance Proofs_mest Proofs_loop Proofs_cost.
Set Implicit Arguments.
Unset Strict Implicit.
Unset Printing Implicit Defensive.
Local Open Scope ring_scope.
Import GRing.Theory Num.Theory Order.TTheory.

(* strict concavity of ln *)
Lemma ln_jensen_eq n (w z : 'I_n -> R) : (forall j, 0 <= w j) -> \sum_j w j = 1 -> (forall j, 0 < z j) ->
  ln (\sum_j w j * z j) <= \sum_j w j * ln (z j) -> forall j, 0 < w j -> z j = \sum_j w j * z j.
Proof.
move=> w0 w1 z0; set m := \sum_j w j * z j => le j wj.
have m0 : 0 < m.
  rewrite /m (bigD1 j) //=; apply: ltr_spaddl; first by rewrite mulr_gt0.
  by apply: sumr_ge0 => i _; rewrite mulr_ge0 // ltW.
pose g j := w j * (ln m + (z j / m - 1) - ln (z j)).
have g0 i : 0 <= g i.
  rewrite mulr_ge0 // subr_ge0 -ler_subl_addl -lnD //; apply: ln_le_sub1; by rewrite divr_gt0.
have gs : \sum_i g i = ln m - \sum_i w i * ln (z i).
  transitivity (\sum_i (w i * ln m + (w i * z i / m - w i) - w i * ln (z i))).
    by apply: eq_bigr => i _; rewrite /g mulrBr mulrDr mulrBr mulr1 mulrA.
  by rewrite sumrB big_split sumrB /= -!mulr_suml w1 mul1r -/m divff ?gt_eqF // subrr addr0.
have s0 : \sum_i g i = 0.
  apply/eqP; rewrite eq_le sumr_ge0 ?andbT; last by move=> i _.
  by rewrite gs subr_le0.
have gj : g j = 0 by move/eqP: s0; rewrite psumr_eq0 => [/allP /(_ j (mem_index_enum _)) /eqP //|i _]; exact: g0.
apply/eqP/negPn/negP => zm; have q1 : z j / m != 1.
  by apply/eqP => q1; move/eqP: zm; apply; rewrite -[RHS]mul1r -q1 divfK // gt_eqF.
have := ln_lt_sub1 (divr_gt0 (z0 j) m0) q1; rewrite lnD // ltr_subl_addl -subr_gt0 => h.
by have := mulr_gt0 wj h; rewrite -/(g j) gj ltxx.
Qed.

Section Unique.
Variable K : starField.
Local Notation cj := (@cj K).
Local Notation ofR := (@ofR K).
Local Notation toR := (@toR K).
Local Notation "A ^H" := (adj A) (at level 8, format "A ^H").

(* When a fixed point S does not cost less than T, all the inequalities are equalities *)
Lemma fixed_point_min_eq N p (rho u : R -> R) (X : 'M[K]_(N, p)) (S T : 'M[K]_p) :
  (forall q q', 0 < q -> 0 < q' -> rho q + u q * q * (ln q' - ln q) <= rho q') ->
  (forall i, row i X != 0) -> (forall q, 0 < q -> 0 < u q) ->
  pd S -> pd T -> wsum (fun i => u (maha S (samp X i))) X = ofR N%:R *: S -> mcost rho X T <= mcost rho X S ->
  exists B d, [/\ B \in unitmx, S = B *m B^H, T = B *m dia K d *m B^H, forall j, 0 < d 0 j &
    forall i, (let q := maha S (samp X i) in let q' := maha T (samp X i) in rho q' <= rho q + u q * q * (ln q' - ln q)) /\
      forall j, (invmx B *m samp X i) j 0 != 0 -> d 0 j = maha S (samp X i) / maha T (samp X i)].
Proof.
move=> cvx X0 u0 pS pT fix_ le; have [B [d [uB eS eT d0]]] := simdiag pS pT.
exists B, d; split=> //.
have xi i : samp X i != 0 by rewrite /samp trmx_eq0.
have mS := mahaS X uB eS; have mT := mahaT X uB eT d0.
have qS i := maha_gt0 pS (xi i); have qT i := maha_gt0 pT (xi i).
pose y := fun i => invmx B *m samp X i; rewrite -/(y _) in mS mT.
pose q i := maha S (samp X i); pose q' i := maha T (samp X i).
pose w i j := sq (y i j 0) / q i.
have w1 i : \sum_j w i j = 1 by rewrite /w -mulr_suml -mS divff // gt_eqF.
have w0 i j : 0 <= w i j by rewrite divr_ge0 ?sq_ge0 ?ltW ?qS.
have z0 j : 0 < (d 0 j)^-1 by rewrite invr_gt0.
have wz i : \sum_j w i j * (d 0 j)^-1 = q' i / q i.
  by rewrite /q' mT mulr_suml; apply: eq_bigr => j _; rewrite /w mulrAC.
(* J1: convexity of rho, J2: Jensen *)
pose a i := rho (q' i) - (rho (q i) + u (q i) * q i * (ln (q' i) - ln (q i))).
pose b i := u (q i) * q i * (ln (q' i) - ln (q i) - \sum_j w i j * ln (d 0 j)^-1).
have a0 i : 0 <= a i by rewrite subr_ge0; apply: cvx; [exact: qS | exact: qT].
have uq i : 0 < u (q i) * q i by rewrite mulr_gt0 ?u0 ?qS.
have b0 i : 0 <= b i.
  apply: mulr_ge0; first exact/ltW/uq.
  rewrite subr_ge0 -lnD ?qS ?qT // -wz; exact: ln_jensen.
have tot : \sum_i (a i + b i) = mcost rho X T - mcost rho X S.
  have e i : a i + b i = rho (q' i) - rho (q i) + \sum_j (u (q i) * sq (y i j 0)) * ln (d 0 j).
    have -> : \sum_j u (q i) * sq (y i j 0) * ln (d 0 j) = - (u (q i) * q i * \sum_j w i j * ln (d 0 j)^-1).
      rewrite mulr_sumr -sumrN; apply: eq_bigr => j _; rewrite lnV // !mulrN opprK /w.
      rewrite !mulrA; congr (_ * _); rewrite -[in RHS]mulrA -[in RHS]mulrA; congr (_ * _).
      by rewrite mulrA mulrC mulrA mulVf ?mul1r // gt_eqF // qS.
    rewrite /a /b; set l := ln _ - ln _; set k := \sum_j _; set f := rho _; set g := rho _; set h := u _.
    clearbody l k f g h; rring.
  rewrite (eq_bigr _ (fun i _ => e i)) big_split /= sumrB exchange_big /=.
  have -> : \sum_j \sum_i u (q i) * sq (y i j 0) * ln (d 0 j) = N%:R * \sum_j ln (d 0 j).
    rewrite mulr_sumr; apply: eq_bigr => j _; rewrite -mulr_suml.
    rewrite (@wsumB K N p X B uB (fun i => u (q i)) (ofR N%:R *: 1%:M)); last first.
      by rewrite fix_ eS -scalemxAr -scalemxAl mulmx1.
    by rewrite !mxE eqxx mulr1 toRK.
  rewrite /mcost (detT uB eS eT d0) mulrDr /q /q'.
  set f := \sum_i rho _; set g := \sum_i rho _; set h := N%:R * _; set k := N%:R * _; clearbody f g h k; rring.
have s0 : \sum_i (a i + b i) = 0.
  apply/eqP; rewrite eq_le sumr_ge0 ?andbT => [|i _]; last exact: addr_ge0.
  by rewrite tot subr_le0.
have ab i : a i + b i = 0 by move/eqP: s0; rewrite psumr_eq0 => [/allP /(_ i (mem_index_enum _)) /eqP //|j _]; exact: addr_ge0.
move=> i; have /eqP := ab i; rewrite paddr_eq0 // => /andP [/eqP ai /eqP bi]; split.
  by move=> k k2; rewrite -subr_le0 -/(a i) ai.
move=> j yj; have wj : 0 < w i j.
  rewrite divr_gt0 ?qS //; have := sq_ge0 (y i j 0); rewrite le_eqVlt => /orP [/eqP h|//].
  move: yj; rewrite -/(y i) -mul_cj_eq0 -ofR_sq -h rmorph0 eqxx //.
have := ln_jensen_eq (w0 i) (w1 i) z0; rewrite wz lnD ?qS ?qT // => /(_ _ j wj).
move/eqP: bi; rewrite mulf_eq0 gt_eqF ?uq //= subr_eq0 => /eqP -> /(_ (lexx _)) => e.
by rewrite -[LHS]invrK e invf_div.
Qed.

(* The decrease made by one update *)
Definition gap (x : R) : R := x - 1 - ln x.
Lemma gap_ge0 x : 0 < x -> 0 <= gap x. Proof. by move=> x0; rewrite subr_ge0 ln_le_sub1. Qed.
Lemma update_gap N p (rho u : R -> R) (X : 'M[K]_(N, p)) (S T : 'M[K]_p) :
  (forall q q', 0 < q -> 0 < q' -> rho q' <= rho q + u q * (q' - q)) ->
  (forall i, row i X != 0) ->
  pd S -> pd T -> wsum (fun i => u (maha S (samp X i))) X = ofR N%:R *: T ->
  exists B d, [/\ B \in unitmx, S = B *m B^H, T = B *m dia K d *m B^H, forall j, 0 < d 0 j &
    mcost rho X T <= mcost rho X S - N%:R * \sum_j gap (d 0 j)].
Proof.
move=> ccv X0 pS pT up; have [B [d [uB eS eT d0]]] := simdiag pS pT; exists B, d; split=> //.
have xi i : samp X i != 0 by rewrite /samp trmx_eq0.
have mS := mahaS X uB eS; have mT := mahaT X uB eT d0.
have qS i := maha_gt0 pS (xi i); have qT i := maha_gt0 pT (xi i).
pose y := fun i => invmx B *m samp X i; rewrite -/(y _) in mS mT.
have [a ea] : exists a : 'I_N -> R, a = fun i => u (maha S (samp X i)) by exists (fun i => u (maha S (samp X i))).
rewrite -ea in up.
have W j : \sum_i a i * sq (y i j 0) = N%:R * d 0 j.
  rewrite (@wsumB K N p X B uB _ (ofR N%:R *: dia K d)); last first.
    by rewrite up eT -scalemxAr -scalemxAl.
  by rewrite mxE diaE eqxx mulr1n -rmorphM toRK.
have aS : \sum_i a i * maha S (samp X i) = N%:R * \sum_j d 0 j.
  transitivity (\sum_i \sum_j a i * sq (y i j 0)); first by apply: eq_bigr => i _; rewrite [in LHS]mS mulr_sumr.
  by rewrite exchange_big mulr_sumr; apply: eq_bigr => j _; rewrite W.
have aT : \sum_i a i * maha T (samp X i) = N%:R * p%:R.
  transitivity (\sum_i \sum_j a i * (sq (y i j 0) / d 0 j)); first by apply: eq_bigr => i _; rewrite [in LHS]mT mulr_sumr.
  have -> : p%:R = \sum_(j < p) (1 : R) by rewrite sumr_const card_ord.
  rewrite exchange_big /= mulr_sumr; apply: eq_bigr => j _.
  under eq_bigr => i _ do rewrite mulrA.
  by rewrite -mulr_suml W -mulrA divff ?mulr1 // gt_eqF.
rewrite /mcost (detT uB eS eT d0).
have h : \sum_i rho (maha T (samp X i)) <= \sum_i rho (maha S (samp X i)) + (N%:R * p%:R - N%:R * \sum_j d 0 j).
  rewrite -aS -aT -sumrB -big_split /=; apply: ler_sum => i _; by rewrite -mulrBr ea; apply: ccv.
have -> : \sum_j gap (d 0 j) = \sum_j d 0 j - p%:R - \sum_j ln (d 0 j) by rewrite /gap !sumrB sumr_const card_ord.
rewrite mulrDr !mulrBr; move: h; set h := \sum_i _; set b := \sum_i _; set s := N%:R * ln _.
set t := N%:R * \sum_j ln _; set v := N%:R * \sum_j _; set w := N%:R * p%:R => H; clearbody h b s t v w; clear -H; rlra.
Qed.

(* the trace of a product of positive semi-definite matrices *)
Lemma tr_psd p (A : 'M[K]_p) : psd A -> 0 <= \tr A.
Proof.
move=> pA; apply: sumr_ge0 => i _; have := pA.2 (delta_mx i 0).
suff -> : qf A (delta_mx i 0) = A i i by [].
have e : (delta_mx i 0 : 'cV[K]_p)^H = delta_mx 0 i.
  by apply/matrixP => a b; rewrite adjE !mxE andbC; case: (_ && _); rewrite ?rmorph1 ?rmorph0.
by rewrite /qf /sesq e -rowE -colE !mxE.
Qed.
Lemma tr_psdM p (A B : 'M[K]_p) : psd A -> psd B -> 0 <= \tr (A *m B).
Proof.
move=> pA pB; pose r := fmx R_sqrt.sqrt A.
have rr : r *m r = A.
  rewrite /r (fmxM _ _ (psd_herm pA)) -[RHS](fmx_id (psd_herm pA)); apply: eq_in_fmx; first exact: psd_herm.
  by move=> x /(eigval_ge0 pA) x0; rewrite sqrtR_sqr.
have hr : r^H = r := fmx_herm _ _.
by rewrite -rr -mulmxA mxtrace_mulC -{2}hr; apply/tr_psd/psd_congr.
Qed.
(* -A <= M <= A implies |M| <= |A| *)
Lemma fro2_loewner p (A M : 'M[K]_p) : herm A -> herm M -> psd (A - M) -> psd (A + M) -> fro2 M <= fro2 A.
Proof.
move=> hA hM p1 p2; have := tr_psdM p1 p2.
have eA : \tr (A *m A) = ofR (fro2 A) by rewrite fro2_tr (hA : A^H = A).
have eM : \tr (M *m M) = ofR (fro2 M) by rewrite fro2_tr (hM : M^H = M).
rewrite mulmxDr !mulmxBl !(mxtraceD, raddfN) /= [\tr (M *m A)]mxtrace_mulC eA eM addrA subrK.
by rewrite -rmorphB /= ofRge0 subr_ge0.
Qed.
End Unique.

(* ------------------------------------------------------------------ size of an update *)
(* (sqrt(1+t) - 1)^2: lower bound of gap x when |x - 1| > t *)
Definition phi (t : R) : R := (R_sqrt.sqrt (1 + t) - 1) ^+ 2.
Lemma sqrt1t_gt1 t : 0 < t -> 1 < R_sqrt.sqrt (1 + t).
Proof.
move=> t0; rewrite ltNge; apply/negP => h.
have s0 : 0 < 1 + t by rewrite addr_gt0 ?ltr01.
have /ltW r0 := sqrtR_gt0 s0; have := sqrtR_sqr (ltW s0); have := ler_pmul r0 r0 h h; rewrite mul1r => h1 h2.
by move: h1; rewrite h2 leNgt ltr_addl t0.
Qed.
Lemma phi_gt0 t : 0 < t -> 0 < phi t.
Proof. by move=> t0; rewrite /phi exprn_even_gt0 //= subr_eq0 gt_eqF // sqrt1t_gt1. Qed.
Lemma gap_sqrt x : 0 < x -> (R_sqrt.sqrt x - 1) ^+ 2 <= gap x.
Proof.
move=> x0; have r0 := sqrtR_gt0 x0; have rr := sqrtR_sqr (ltW x0); have := ln_le_sub1 r0; rewrite /gap -rr lnM // rr.
move: (R_sqrt.sqrt x) (ln _) rr => r l e h; rewrite -e expr2; clear -h; rnra.
Qed.
Lemma gap_far x t : 0 < x -> 0 < t -> t < `|x - 1| -> phi t <= gap x.
Proof.
move=> x0 t0 h; apply: le_trans (gap_sqrt x0); rewrite /phi.
have s0 : 0 < 1 + t by rewrite addr_gt0 ?ltr01.
have r1 := sqrt1t_gt1 t0; have rr := sqrtR_sqr (ltW s0); have y0 := sqrtR_gt0 x0; have yy := sqrtR_sqr (ltW x0).
move: (R_sqrt.sqrt (1 + t)) (R_sqrt.sqrt x) rr yy r1 y0 => r y rr yy r1 y0.
have [x1|x1] := lerP 1 x.
  rewrite ger0_norm ?subr_ge0 // in h.
  have ry : r <= y.
    rewrite leNgt; apply/negP => yr; have := ltr_pmul (ltW y0) (ltW y0) yr yr; rewrite rr yy => h2.
    by move: h; rewrite ltr_subr_addl => /(lt_trans h2); rewrite ltxx.
  by rewrite !expr2; apply: ler_pmul; rewrite ?ler_add2r ?subr_ge0 // ltW.
rewrite ltr0_norm ?subr_lt0 // opprB in h.
have y1 : y < 1.
  rewrite ltNge; apply/negP => y1; have := ler_pmul ler01 ler01 y1 y1; rewrite mul1r yy leNgt x1 //.
have r0 : 0 < r := lt_trans ltr01 r1.
have k1 : r - 1 <= t / 2%:R.
  rewrite -(ler_pmul2r (x := r + 1)) ?addr_gt0 ?ltr01 //.
  have -> : (r - 1) * (r + 1) = t by rewrite -subr_sqr expr1n expr2 rr addrAC subrr add0r.
  rewrite -mulrA; apply: ler_pemulr; first exact: ltW.
  by rewrite mulrC ler_pdivl_mulr ?ltr0n // mul1r -[2%:R]/(1 + 1) ler_add2r ltW.
have k2 : t / 2%:R <= 1 - y.
  rewrite ler_pdivr_mulr ?ltr0n //; apply: le_trans (ltW h) _; rewrite -yy.
  have -> : 1 - y * y = (1 - y) * (1 + y) by rring.
  apply: ler_wpmul2l; first by rewrite subr_ge0 ltW.
  by rewrite -[2%:R]/(1 + 1) ler_add2l ltW.
rewrite -[X in _ <= X]sqrrN opprB !expr2; have k3 := le_trans k1 k2.
by apply: ler_pmul => //; rewrite subr_ge0 ltW.
Qed.

Section Change.
Variable K : starField.
Local Notation ofR := (@ofR K).
Local Notation "A ^H" := (adj A) (at level 8, format "A ^H").
Lemma dia_scale p t (d : 'rV[R]_p) : ofR t *: dia K d = dia K (\row_j (t * d 0 j)).
Proof. by apply/matrixP => i j; rewrite !mxE mulrnAr rmorphM. Qed.
Lemma diaB p (d e : 'rV[R]_p) : dia K d - dia K e = dia K (\row_j (d 0 j - e 0 j)).
Proof. by apply/matrixP => i j; rewrite !mxE -mulrnBl rmorphB. Qed.
Lemma diaD p (d e : 'rV[R]_p) : dia K d + dia K e = dia K (\row_j (d 0 j + e 0 j)).
Proof. by apply/matrixP => i j; rewrite !mxE -mulrnDl rmorphD. Qed.
(* the Frobenius norm of the change is at most t times that of S *)
Lemma fro_change p (S T B : 'M[K]_p) d t : S = B *m B^H -> T = B *m dia K d *m B^H -> 0 <= t ->
  (forall j, `|d 0 j - 1| <= t) -> fro (T - S) <= t * fro S.
Proof.
move=> eS eT t0 h; rewrite -froZ //.
have e1 : dia K (const_mx 1) = 1%:M :> 'M_p by rewrite dia_const rmorph1.
have eM : T - S = B *m dia K (\row_j (d 0 j - 1)) *m B^H.
  rewrite eT eS -{3}[B]mulmx1 -e1 -mulmxBl -mulmxBr diaB; congr (_ *m dia K _ *m _); apply/rowP => j; by rewrite !mxE.
have eA : ofR t *: S = B *m dia K (const_mx t) *m B^H.
  by rewrite dia_const mul_mx_scalar -scalemxAl eS.
have hS a : herm (B *m dia K a *m B^H) by apply: herm_congr; exact: adj_dia.
apply/RleP; apply: R_sqrt.sqrt_le_1_alt; apply/RleP; rewrite eM eA; apply: fro2_loewner => //.
- rewrite -mulmxBl -mulmxBr diaB; apply/psd_congr/psd_dia => j; rewrite !mxE subr_ge0.
  by apply: le_trans (h j); apply: ler_norm.
- rewrite -mulmxDl -mulmxDr diaD; apply/psd_congr/psd_dia => j; rewrite !mxE -ler_subl_addr sub0r.
  by apply: le_trans (h j); rewrite -normrN; apply: ler_norm.
Qed.
(* a change greater than t costs at least phi t *)
Lemma change_gap p (S T B : 'M[K]_p) d t : S = B *m B^H -> T = B *m dia K d *m B^H -> (forall j, 0 < d 0 j) -> 0 < t ->
  t * fro S < fro (T - S) -> phi t <= \sum_j gap (d 0 j).
Proof.
move=> eS eT d0 t0 h; have [j hj] : exists j, t < `|d 0 j - 1|.
  apply/existsP; apply: contraLR h; rewrite negb_exists => /forallP h; rewrite -leNgt.
  by apply: (fro_change eS eT (ltW t0)) => j; rewrite leNgt h.
rewrite (bigD1 j) //=; apply: le_trans (gap_far (d0 j) t0 hj) _; rewrite ler_addl.
by apply: sumr_ge0 => i _; apply: gap_ge0.
Qed.
End Change.

(* ------------------------------------------------------------------ termination of a loop that decreases a cost *)
Section Term.
Variables (St D : Type) (gt : D -> D -> bool) (np_inf : D) (step : St -> res St) (change : St -> St -> D).
Variables (tol : D) (I : St -> Prop) (c : St -> R) (delta L : R).
Hypothesis dec : forall s s', I s -> step s = Ok s' -> I s' /\ (gt (change s' s) tol -> c s' <= c s - delta).
Hypothesis low : forall s, I s -> L <= c s.
Lemma updates_cost s0 j s : I s0 -> updates step j s0 = Ok s ->
  (forall i d, (0 < i <= j)%N -> reported np_inf step change s0 i d -> gt d tol) -> I s /\ c s <= c s0 - j%:R * delta.
Proof.
move=> I0; elim: j s => [|j IH] s; first by move=> [<-] _; rewrite mul0r subr0.
move=> /= us h; case uj: (updates step j s0) us => [sj|//] /= us.
have [Ij cj] : I sj /\ c sj <= c s0 - j%:R * delta.
  apply: IH => // i d /andP [i0 ij]; apply: h; by rewrite i0 /= ltnW.
have [Is cs] := dec Ij us; split=> //; have g : gt (change s sj) tol.
  by apply: (h j.+1) => /=; [exact: leqnn | exists sj, s; split=> //; rewrite uj].
apply: le_trans (cs g) _; rewrite -addn1 natrD mulrDl mul1r opprD addrA; by rewrite ler_add2r.
Qed.
Lemma stops_bound m s0 s d k n : 0 < delta -> I s0 -> stops_with gt np_inf step change tol m s0 s d k ->
  c s0 - L < n%:R * delta -> (k <= n)%N /\ ((n <= m)%N -> ~ gt d tol).
Proof.
move=> d0 I0 [us rep km st bef] hn.
have J j s' : updates step j s0 = Ok s' -> (forall i d, (0 < i <= j)%N -> reported np_inf step change s0 i d -> gt d tol) -> (j < n)%N.
  move=> uj hj; have [Is cs] := updates_cost I0 uj hj.
  have := low Is; move/(le_trans)/(_ cs); rewrite ler_subr_addl addrC -ler_subr_addl => h.
  by rewrite -(ltr_nat [numDomainType of R]) -(ltr_pmul2r d0); apply: le_lt_trans h hn.
split.
  case: k us rep km st bef => [//|k] us rep km st bef.
  move: us => /=; case uk: (updates step k s0) => [sk|//] _; apply: (J _ _ uk) => i d' /andP [_ ik] r.
  by apply: bef r; rewrite ltnS.
move=> nm g; have ek := st g; suff : (k < n)%N by rewrite ek ltnNge nm.
apply: (J k s us) => i d' /andP [i0 im] r.
move: im; rewrite leq_eqVlt => /orP [/eqP e|im]; last exact: (bef _ _ im r).
by rewrite e in r; rewrite (reported_inj r rep).
Qed.
End Term.
