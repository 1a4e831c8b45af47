(* Theorems about what the robust estimators solve: C36-C39. *)
From Coq Require Import Reals String Lra.
From Coquelicot Require Import Coquelicot.
From mathcomp Require Import all_ssreflect all_algebra.
From mathcomp Require Import complex zify.
From Verif Require Import RealsMC RealTac RealTac2 Star StarInst FunCalc RealRep Model_featurearray Model_linalg Proofs_linalg Props_linalg
  Model_covariance Spec_covariance Model_estimators Proofs_mest Proofs_loop Proofs_covariance Proofs_estimators Proofs_cost Props_cost
  NpArray Proofs_numpy Model_mappings Proofs_mappings Props_mappings Model_scipy Model_probability Proofs_probability Props_probability Model_scores RobustNum.
Set Implicit Arguments.
Unset Strict Implicit.
Unset Printing Implicit Defensive.
Local Open Scope ring_scope.
Import GRing.Theory Num.Theory Order.TTheory.

(* ------------------------------------------------------------------ C36 *)
(* the Student log-likelihood cost with a degrees of freedom (up to constants), and its equation *)
Section Student.
Variable K : starField.
Lemma stu_slope (a b q q' : R) : 0 < a -> 0 < b -> 0 < q -> 0 < q' ->
  b * ln (a + q) + b / (a + q) * q * (ln q' - ln q) <= b * ln (a + q').
Proof.
move=> a0 b0 q0 q'0; have s0 := addr_gt0 a0 q0; have s'0 := addr_gt0 a0 q'0.
rewrite -!mulrA -mulrDr ler_pmul2l //.
have m0 : 0 < (a + q) / (a + q') by rewrite divr_gt0.
have h1 := ln_le_sub1 m0; have r0 : 0 < q' / q by rewrite divr_gt0.
have h2 := ln_le_sub1 (mulr_gt0 r0 m0).
rewrite lnM // lnD // in h2; rewrite lnD // in h1 h2.
have e : a * ((a + q) / (a + q') - 1) + q * (q' / q * ((a + q) / (a + q')) - 1) = 0.
  rewrite !mulrBr !mulr1 !mulrA [q * q']mulrC mulfK ?gt_eqF // addrACA -opprD -!mulrDl -mulrA mulrC -mulrA.
  by rewrite mulVf ?gt_eqF // mulr1 subrr.
have h3 : a * (ln (a + q) - ln (a + q')) + q * (ln q' - ln q + (ln (a + q) - ln (a + q'))) <= 0.
  by rewrite -e; apply: ler_add; rewrite ler_pmul2l.
rewrite -(ler_pmul2l s0) mulrDr [X in _ + X]mulrA mulfV ?gt_eqF // mul1r.
move: h3; clear; move: (ln (a + q)) (ln (a + q')) (ln q) (ln q') => u v w z h; rlra.
Qed.
Definition stu_cost (a : R) N p (X : 'M[K]_(N, p)) (S : 'M[K]_p) : R := mcost (fun q => (a + p%:R) * ln (a + q)) X S.
Lemma stu_min a N p (X : 'M[K]_(N, p)) S T : 0 < a -> (0 < N)%N -> (forall i, row i X != 0) -> pd S -> pd T ->
  wsum (fun i => (a + p%:R) / N%:R / (a + maha S (samp X i))) X = S -> stu_cost a X S <= stu_cost a X T.
Proof.
move=> a0 N0 X0 pS pT e; have b0 : 0 < a + p%:R by rewrite (lt_le_trans a0) // ler_addl ler0n.
apply: (@fixed_point_min K N p _ (fun q => (a + p%:R) / (a + q))) => //.
- by move=> q q' q0 q'0; apply: stu_slope.
- by move=> q q0; rewrite divr_ge0 ?ltW // addr_gt0.
- rewrite wsumNZ // -{2}e; congr (_ *: _); apply: eq_wsum => i; by rewrite mulrAC.
Qed.
End Student.

(* the log-likelihoods *)
Definition rloglik (lgamma : R -> R) N p (df : R) (X : 'M[R]_(N, p)) (S : 'M[R]_p) : R := \sum_i rstudent lgamma df 0 S (row i X)^T.
Definition cloglik (lgamma : R -> R) N p (df : R) (X : 'M[complex_sf]_(N, p)) (S : 'M[complex_sf]_p) : R :=
  \sum_i cstudent_spec lgamma df 0 S (samp X i).
Lemma np_sum_values n (g : 'I_n -> R) v : values_of g v -> np_sum v = R2C (\sum_i g i).
Proof.
case=> kv sv hv; rewrite /np_sum sv R2C_sum /vals_idx in hv *; case: eqP hv => [n1|_] hv.
  by subst n; rewrite big_ord1 -hv.
by rewrite /=; apply: eq_bigr => i _; rewrite -hv.
Qed.
Section Score.
Variables (psd_other : psd_oracle) (lgamma : R -> R) (clog : C -> C).
Lemma freeze_none d (S : 'M[R]_d) (c : arr) : spd S -> sh c = [:: d; d] ->
  (forall i j : 'I_d, complex.Re (at_ c [:: nat_of_ord i; nat_of_ord j]) = S i j) ->
  exists m', freeze psd_other Pnone (Parr c) = Ok (@Frozen d m' d (invmx S, ln (\det S), d)) /\ vec_of (0 : 'cV[R]_d) m'.
Proof.
move=> pS sc hc.
have h0 (k : 'I_d) : complex.Re (at_ (np_zeros KReal [:: d]) [:: nat_of_ord k]) = (0 : 'cV[R]_d) k 0 by rewrite mxE.
have [m' [e v]] := @freeze_gen psd_other d 0 S (np_zeros KReal [:: d]) c pS erefl h0 sc hc.
exists m'; split=> //; rewrite -e /freeze /process_parameters /params_dim /= /ndim /len sc /np_size /= big_seq1.
by [].
Qed.
(* the score is the Student log-likelihood of the test data at the estimate; None before any iteration *)
Theorem C36_score_real N p df (X : 'M[R]_(N, p)) (S : 'M[R]_p) x c k : spd S -> rows_of X x ->
  sh c = [:: p; p] -> (forall i j : 'I_p, complex.Re (at_ c [:: nat_of_ord i; nat_of_ord j]) = S i j) ->
  student_score psd_other lgamma clog k c df x = Ok (if k == 0%N then None else Some (R2C (rloglik lgamma df X S))).
Proof.
move=> pS rx sc hc; rewrite /student_score; case: eqP => // _; have [m' [-> vm]] := freeze_none pS sc hc.
rewrite [bindr (Ok _) _]/= /mvt_frozen_logpdf [fr_dim _]/=; have [v [-> hv]] := student_core_ok lgamma clog df S (quantiles_2 false p rx) vm.
by rewrite [bindr _ _]/= (np_sum_values hv).
Qed.
Theorem C36_score_complex N p df (X : 'M[complex_sf]_(N, p)) (S : 'M[complex_sf]_p) x c k : 0 < df -> pd S -> has_mx X x ->
  kd c = KCplx -> has_mx S c ->
  complex_student_score psd_other lgamma clog k c df x = Ok (if k == 0%N then None else Some (R2C (cloglik lgamma df X S))).
Proof.
move=> df0 pS hX kc hc; rewrite /complex_student_score; case: eqP => // _.
have hm : mean_is (0 : 'cV[complex_sf]_p) Pnone by right.
have hS : ccov_is S (Parr c) by exists c.
have [f [-> [hf _]]] := @C09_frozen_logpdf_partial psd_other lgamma clog p 0 S _ _ hm hS pS df df0.
by rewrite [bindr _ _]/=; have [v [-> hv]] := hf _ _ _ hX; rewrite [bindr _ _]/= (np_sum_values hv).
Qed.
End Score.
Lemma loglik_alg (g l d n h q df s : R) : n * (g - h * d) - h * (df + q) * (s - n * l) = n * g + h * (df + q) * n * l - h * ((df + q) * s + n * d).
Proof. rring. Qed.
(* the log-likelihood is the cost, up to the sign, a factor and a constant *)
Lemma rloglik_cost lgamma N p df (X : 'M[real_sf]_(N, p)) : 0 < df -> exists k, forall S : 'M[real_sf]_p, pd S ->
  rloglik lgamma df X S = k - 2%:R^-1 * @stu_cost real_sf df N p X S.
Proof.
move=> df0.
exists (N%:R * (lgamma (2%:R^-1 * (df + p%:R)) - lgamma (2%:R^-1 * df) - p%:R / 2%:R * ln (df * PI)) + 2%:R^-1 * (df + p%:R) * N%:R * ln df) => S pS.
rewrite /rloglik /rstudent; set g := (_ - _ - _ : R).
have e i : ln (1 + 1 / df * ((((row i X)^T - 0)^T *m invmx S *m ((row i X)^T - 0)) 0 0)) = ln (df + maha S (samp X i)) - ln df.
  have m0 := maha_ge0 (samp X i) pS; have s0 : 0 < df + maha S (samp X i) by rewrite ltr_paddr.
  rewrite subr0 -lnD //; congr ln; rewrite mulrDl mulfV ?gt_eqF // [maha _ _ / df]mulrC; rewrite mul1r; congr (_ + _ * _).
  by rewrite /maha /samp; have -> : ((row i X)^T : 'cV[real_sf]_p)^H = ((row i X)^T)^T by apply/matrixP => a b; rewrite adjE !mxE.
rewrite (eq_bigr (fun i => g - 2%:R^-1 * (df + p%:R) * (ln (df + maha (S : 'M[real_sf]_p) (samp X i)) - ln df))); last by move=> i _; rewrite e.
rewrite big_split sumr_const /= cardT size_enum_ord sumrN -mulr_sumr sumrB sumr_const cardT size_enum_ord /stu_cost /mcost -mulr_sumr.
rewrite -[g *+ N]mulr_natl -[ln df *+ N]mulr_natl; exact: loglik_alg.
Qed.
Lemma cloglik_cost lgamma N p df (X : 'M[complex_sf]_(N, p)) : 0 < df -> exists k, forall S : 'M[complex_sf]_p, pd S ->
  cloglik lgamma df X S = k - @stu_cost complex_sf (df / 2%:R) N p X S.
Proof.
move=> df0; have a0 : 0 < df / 2%:R by exact: (divr_gt0 df0 two_gt0).
exists (N%:R * (lgamma (df / 2%:R + p%:R) - lgamma (df / 2%:R) - p%:R * ln (PI * df / 2%:R)) + 1 * (df / 2%:R + p%:R) * N%:R * ln (df / 2%:R)) => S pS.
rewrite /cloglik /cstudent_spec; set g := (_ - _ - _ - _ : R).
have e i : ln (1 + 2%:R * maha S (samp X i - 0) / df) = ln (df / 2%:R + maha S (samp X i)) - ln (df / 2%:R).
  have m0 := maha_ge0 (samp X i) pS; have s0 : 0 < df / 2%:R + maha S (samp X i) by rewrite ltr_paddr.
  rewrite subr0 -lnD //; congr ln; rewrite [RHS]mulrDl [X in _ = X + _]divff ?gt_eqF //; congr (_ + _).
  by rewrite invf_div mulrA [maha _ _ * _]mulrC.
rewrite (eq_bigr (fun i => g - (df / 2%:R + p%:R) * (ln (df / 2%:R + maha S (samp X i)) - ln (df / 2%:R)))); last by move=> i _; rewrite e.
rewrite big_split sumr_const /= cardT size_enum_ord sumrN -mulr_sumr sumrB sumr_const cardT size_enum_ord /stu_cost /mcost -mulr_sumr.
rewrite -[g *+ N]mulr_natl -[ln (df / _) *+ N]mulr_natl.
have h := loglik_alg (lgamma (df / 2%:R + p%:R) - lgamma (df / 2%:R) - p%:R * ln (PI * df / 2%:R)) (ln (df / 2%:R)) (ln (complex.Re (\det S))) N%:R 1 p%:R (df / 2%:R)
  (\sum_(i < N) ln (df / 2%:R + maha S (samp X i))).
move: h; rewrite !mul1r => h; exact: h.
Qed.

(* What the fixed points maximise: the likelihood with df/2 (real) or 2 df (complex) degrees of freedom,
   among all positive definite matrices. *)
Theorem C36_real_maximises_half_df_partial N p eigh lgamma (df : R) (X : 'M[real_sf]_(N, p)) S T : eigh_ok eigh -> 0 < df ->
  (0 < N)%N -> (forall i, row i X != 0) -> pd S -> pd T -> student_step eigh X df S = S ->
  rloglik lgamma (df / 2%:R) X T <= rloglik lgamma (df / 2%:R) X S.
Proof.
move=> ok df0 N0 X0 pS pT; rewrite student_stepE // => fx.
have a0 : 0 < df / 2%:R by exact: (divr_gt0 df0 two_gt0).
have [k hk] := rloglik_cost lgamma X a0; rewrite !hk // ler_add2l ler_opp2 ler_pmul2l ?half_gt0 //.
apply: stu_min => //; rewrite -{2}fx; apply: eq_wsum => i; by rewrite ctau_pd.
Qed.
Theorem C36_complex_maximises_double_df_partial N p eigh lgamma (df : R) (X : 'M[complex_sf]_(N, p)) S T : eigh_ok eigh -> 0 < df ->
  (0 < N)%N -> (forall i, row i X != 0) -> pd S -> pd T -> complex_student_step eigh X df S = S ->
  cloglik lgamma (2%:R * df) X T <= cloglik lgamma (2%:R * df) X S.
Proof.
move=> ok df0 N0 X0 pS pT; rewrite complex_student_stepE // => fx.
have a0 : 0 < 2%:R * df by exact: (mulr_gt0 two_gt0 df0).
have e2 : 2%:R * df / 2%:R = df by rewrite mulrC mulrA half2 mul1r.
have [k hk] := cloglik_cost lgamma X a0; rewrite !hk // e2 ler_add2l ler_opp2.
apply: stu_min => //; rewrite -{2}fx; apply: eq_wsum => i; by rewrite ctau_pd.
Qed.

(* Witness against the likelihood with df degrees of freedom: two samples 1 and 2 in dimension 1, for which 2 is the
   fixed point of the update with parameter 1 *)
Section Witness.
Variable K : starField.
Definition wx (i : 'I_2) : R := if i == 0 then 1 else 1 + 1.
Definition wX : 'M[K]_(2, 1) := \matrix_(i, j) @ofR K (wx i).
Definition sc (s : R) : 'M[K]_1 := (@ofR K s)%:M.
Lemma sc_pd s : 0 < s -> pd (sc s).
Proof. by move=> s0; rewrite /sc -scalemx1; apply: pdZ; rewrite ?ofR_gt0 //; apply: pd1. Qed.
Lemma wX_samp i : samp wX i = const_mx (@ofR K (wx i)).
Proof. by apply/matrixP => a b; rewrite !mxE. Qed.
Lemma wX_row i : row i wX != 0.
Proof.
apply/eqP => /rowP /(_ 0); rewrite !mxE => /eqP; rewrite fmorph_eq0 /wx; case: ifP => _; first by rewrite oner_eq0.
by rewrite -mulr2n pnatr_eq0.
Qed.
Lemma maha_sc s x : 0 < s -> maha (sc s) (const_mx (@ofR K x) : 'cV[K]_1) = x * x / s.
Proof.
move=> s0; rewrite /maha /sc invmx_scalar mul_mx_scalar -scalemxAl mxE mxE big_ord1 adjE !mxE cj_ofR.
by rewrite -fmorphV -!rmorphM toRK mulrC.
Qed.
Lemma mcost_sc rho s : 0 < s -> mcost rho wX (sc s) = rho (1 / s) + rho ((1 + 1 + 1 + 1) / s) + (1 + 1) * ln s.
Proof.
move=> s0; rewrite /mcost big_ord_recl big_ord1 !wX_samp !maha_sc // /sc det_scalar1 toRK /wx /=.
by rewrite mulr1 mulrDr !mulr1 addrA [in LHS]mulr2n.
Qed.
Lemma wsum_sc w : wsum w wX = sc (w 0 + w (lift ord0 0) * (1 + 1 + 1 + 1)).
Proof.
rewrite /wsum big_ord_recl big_ord1 !wX_samp; apply/matrixP => a b; rewrite (ord1 a) (ord1 b) !mxE !big_ord1 !adjE !mxE !cj_ofR.
by rewrite -!rmorphM -rmorphD eqxx mulr1n /wx /= !mulr1 [in LHS]mulrDr !mulr1 !addrA.
Qed.
End Witness.
(* f has derivative 0 at S in every Hermitian direction *)
Definition stationary (K : starField) p (f : 'M[K]_p -> R) (S : 'M[K]_p) : Prop :=
  forall H, herm H -> derivable_pt_lim (fun t => f (S + @ofR K t *: H)) 0 0.
Lemma not_stationary (K : starField) (f : 'M[K]_1 -> R) (g : R -> R) (s l : R) : 0 < s ->
  (forall t, 0 < t -> f (sc K t) = g t) -> is_derive g s l -> stationary f (sc K s) -> l = 0.
Proof.
move=> s0 fg dg /(_ 1%:M) st; have h1 : herm (1%:M : 'M[K]_1) by apply/pd_herm/pd1.
move: (st h1) => /is_derive_Reals d.
have d' : is_derive (fun t => f (sc K s + @ofR K t *: 1%:M)) (0 : R) l.
  apply: (@is_derive_ext_loc _ _ (fun t => g (s + t))).
    exists (mkposreal s (RltP _ _ s0)) => t ht; symmetry; rewrite -fg; last first.
      have : Rlt (Rabs t) s by have := ht; rewrite /ball /= /AbsRing_ball /abs /minus /plus /opp /= Ropp_0 Rplus_0_r.
      by move=> /Rabs_def2 [_ h]; apply/RltP; rewrite -RplusE -R0E; lra.
    by congr f; rewrite /sc scalemx1 -raddfD -rmorphD.
  apply/is_derive_Reals => eps eps0; have [del h] := (proj1 (is_derive_Reals _ _ _) dg) eps eps0; exists del => t t0 td.
  by rewrite Rplus_0_l addr0; apply: h.
by rewrite -(is_derive_unique _ _ _ d'); apply: is_derive_unique.
Qed.
Theorem C36_real_refuted eigh lgamma : eigh_ok eigh ->
  exists (X : 'M[real_sf]_(2, 1)) (S T : 'M[real_sf]_1),
    [/\ forall i, row i X != 0, pd S, pd T, student_step eigh X 2%:R S = S & rloglik lgamma 2%:R X S < rloglik lgamma 2%:R X T] /\
    ~ stationary (rloglik lgamma 2%:R X) S.
Proof.
move=> ok; have t0 : 0 < (2%:R : R) := two_gt0.
have T0 : 0 < (9%:R / 4%:R : R) by rewrite divr_gt0 ?ltr0n.
have [k hk] := @rloglik_cost lgamma 2 1 2%:R (wX real_sf) t0.
have hg s : 0 < s -> rloglik lgamma 2%:R (wX real_sf) (sc real_sf s) = g2 k (Rinv (IZR 2)) (IZR 2) (IZR 3) s.
  move=> s0; rewrite hk; last exact: sc_pd.
  rewrite /stu_cost mcost_sc // /g2; r2R.
  have -> : Rplus (Rplus (Rplus R1 R1) R1) R1 = IZR 4 by lra.
  rewrite /Rdiv /Rminus; change R1 with (IZR 1); rring.
exists (wX real_sf), (sc real_sf 2%:R), (sc real_sf (9%:R / 4%:R)); split; first split.
- exact: wX_row.
- exact: sc_pd.
- exact: sc_pd.
- rewrite student_stepE // wsum_sc; congr sc; rewrite !ctau_pd ?wX_samp ?maha_sc //; try exact: sc_pd.
  rewrite /wx /=; rfield.
- by rewrite !hg //; apply/RltP; r2R; exact: g2_real.
- move=> st; have := @not_stationary real_sf _ _ 2%:R _ t0 hg _ st; r2R => h.
  have := h _ (g2_real' k); lra.
Qed.
Theorem C36_complex_refuted eigh lgamma : eigh_ok eigh ->
  exists (X : 'M[complex_sf]_(2, 1)) (S T : 'M[complex_sf]_1),
    [/\ forall i, row i X != 0, pd S, pd T, complex_student_step eigh X 1 S = S & cloglik lgamma 1 X S < cloglik lgamma 1 X T] /\
    ~ stationary (cloglik lgamma 1 X) S.
Proof.
move=> ok; have t0 : 0 < (2%:R : R) := two_gt0; have d0 : 0 < (1 : R) := ltr01.
have T0 : 0 < (9%:R / 5%:R : R) by rewrite divr_gt0 ?ltr0n.
have [k hk] := @cloglik_cost lgamma 2 1 1 (wX complex_sf) d0.
have hg s : 0 < s -> cloglik lgamma 1 (wX complex_sf) (sc complex_sf s) = g2 k R1 (Rinv (IZR 2)) (Rdiv (IZR 3) (IZR 2)) s.
  move=> s0; rewrite hk; last exact: sc_pd.
  rewrite /stu_cost mcost_sc // /g2; r2R.
  have -> : Rplus (Rplus (Rplus R1 R1) R1) R1 = IZR 4 by lra.
  have -> : Rplus (Rmult R1 (Rinv (IZR 2))) (IZR 1) = Rdiv (IZR 3) (IZR 2) by field.
  change R1 with (IZR 1); rewrite /Rdiv /Rminus !Rmult_1_l; rring.
exists (wX complex_sf), (sc complex_sf 2%:R), (sc complex_sf (9%:R / 5%:R)); split; first split.
- exact: wX_row.
- exact: sc_pd.
- exact: sc_pd.
- rewrite complex_student_stepE // wsum_sc; congr sc; rewrite !ctau_pd ?wX_samp ?maha_sc //; try exact: sc_pd.
  rewrite /wx /=; rfield.
- by rewrite (hg _ t0) (hg _ T0); apply/RltP; r2R; exact: g2_complex.
- move=> st; have := @not_stationary complex_sf _ _ 2%:R _ t0 hg _ st; r2R => h.
  have := h _ (g2_complex' k); lra.
Qed.

Print Assumptions C36_score_real.
Print Assumptions C36_score_complex.
Print Assumptions C36_real_maximises_half_df_partial.
Print Assumptions C36_complex_maximises_double_df_partial.
Print Assumptions C36_real_refuted.
Print Assumptions C36_complex_refuted.
