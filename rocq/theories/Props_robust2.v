(* Theorems about what the robust estimators solve: C37-C39. *)
From Coq Require Import Reals String Lra.
From mathcomp Require Import all_ssreflect all_algebra.
From mathcomp Require Import complex zify.
From Verif Require Import RealsMC RealTac RealTac2 Star StarInst FunCalc RealRep Model_featurearray Model_linalg Proofs_linalg Props_linalg
  Model_covariance Spec_covariance Model_estimators Proofs_mest Proofs_loop Proofs_covariance Proofs_estimators Props_covariance Proofs_cost Props_cost
  Props_probability Props_robust.
Set Implicit Arguments.
Unset Strict Implicit.
Unset Printing Implicit Defensive.
Local Open Scope ring_scope.
Import GRing.Theory Num.Theory Order.TTheory.

(* ------------------------------------------------------------------ C37 *)
(* Huber's weight function and the equation S = 1/N sum u(x^H S^-1 x) x x^H *)
Definition huber_weight (lbda beta q : R) : R := (if q <= lbda then 1 else lbda / q) / beta.
Definition estimating_eq (K : starField) N p (u : R -> R) (X : 'M[K]_(N, p)) (S : 'M[K]_p) :=
  S = wsum (fun i => N%:R^-1 * u (maha S (samp X i))) X.
(* the weights of the code: the inverse *)
Definition code_weight (lbda beta q : R) : R := beta * (if q <= lbda then 1 else q / lbda).
Lemma huber_u_inv lbda beta q : 0 < lbda -> 0 < beta -> 0 <= q -> (huber_u lbda beta q)^-1 = code_weight lbda beta q.
Proof.
move=> l0 b0 q0; rewrite /huber_u /code_weight; case: (eqVneq q 0) => [->|qn]; first by rewrite ltW // !mulr1 mul1r invrK.
have q0' : 0 < q by rewrite lt_neqAle eq_sym qn.
rewrite mul1r; case: leP => h; first by rewrite min_l ?invfM ?invrK ?invr1 // ler_pdivl_mulr // mul1r.
have e : lbda / q <= 1 by rewrite ler_pdivr_mulr // mul1r ltW.
by rewrite min_r // invfM invrK invf_div.
Qed.
(* What a fixed point solves: the equation with the inverse weights, which grow with the distance *)
Theorem C37_equation_solved_partial N p lbda beta : 0 < lbda -> 0 < beta ->
  (forall eigh (X : 'M[real_sf]_(N, p)) S, eigh_ok eigh -> pd S ->
     (huber_step eigh X lbda beta S = Ok S <-> estimating_eq (code_weight lbda beta) X S)) /\
  (forall eigh (X : 'M[complex_sf]_(N, p)) S, eigh_ok eigh -> pd S ->
     (complex_huber_step eigh X lbda beta S = Ok S <-> estimating_eq (code_weight lbda beta) X S)).
Proof.
move=> l0 b0; have nb : (lbda <= 0) || (beta < 0) = false by rewrite leNgt l0 ltNge ltW.
split=> eigh X S ok pS; rewrite ?huber_stepE ?complex_huber_stepE nb /estimating_eq.
  have e : wsum (fun i => N%:R^-1 / huber_u lbda beta (ctau eigh X S i)) X = wsum (fun i => N%:R^-1 * code_weight lbda beta (maha S (samp X i))) X.
    by apply: eq_wsum => i; rewrite ctau_pd // huber_u_inv // maha_ge0.
  by rewrite e; split=> [[h]|h]; [exact: esym | rewrite -h].
have e : wsum (fun i => N%:R^-1 / huber_u lbda beta (ctau eigh X S i)) X = wsum (fun i => N%:R^-1 * code_weight lbda beta (maha S (samp X i))) X.
  by apply: eq_wsum => i; rewrite ctau_pd // huber_u_inv // maha_ge0.
by rewrite e; split=> [[h]|h]; [exact: esym | rewrite -h].
Qed.
Theorem C37_code_weight_increases lbda beta q q' : 0 < lbda -> 0 < beta -> 0 <= q -> q <= q' ->
  code_weight lbda beta q <= code_weight lbda beta q' /\ (lbda < q' -> q < q' -> code_weight lbda beta q < code_weight lbda beta q') /\
  huber_weight lbda beta q' <= huber_weight lbda beta q.
Proof.
move=> l0 b0 q0 qq; rewrite /code_weight /huber_weight; split; [|split].
- rewrite ler_pmul2l //; case: (leP q lbda) => h; case: (leP q' lbda) => h' //.
  + by rewrite ler_pdivl_mulr // mul1r ltW.
  + by have := le_trans qq h'; rewrite leNgt h.
  + by rewrite ler_pmul2r ?invr_gt0.
- move=> h' h; rewrite ltr_pmul2l // [q' <= _]leNgt h' /=; case: (leP q lbda) => hq.
    by rewrite ltr_pdivl_mulr // mul1r.
  by rewrite ltr_pmul2r ?invr_gt0.
- rewrite ler_pmul2r ?invr_gt0 //; case: (leP q' lbda) => h'; case: (leP q lbda) => h //.
  + by have := le_trans qq h'; rewrite leNgt h.
  + by rewrite ler_pdivr_mulr ?mul1r; [apply: ltW | apply: lt_trans h'].
  + by rewrite ler_pmul2l // lef_pinv ?posrE // (lt_trans l0).
Qed.
(* one sample in dimension 1 *)
Section OneSample.
Variable K : starField.
Definition X1 (x : R) : 'M[K]_(1, 1) := const_mx (@ofR K x).
Lemma X1_samp x i : samp (X1 x) i = const_mx (@ofR K x).
Proof. by apply/matrixP => a b; rewrite !mxE. Qed.
Lemma wsum_X1 w x : wsum w (X1 x) = sc K (w 0 * (x * x)).
Proof.
rewrite /wsum big_ord1 X1_samp; apply/matrixP => a b; rewrite (ord1 a) (ord1 b) !mxE big_ord1 !adjE !mxE cj_ofR.
by rewrite -!rmorphM eqxx mulr1n.
Qed.
Lemma sc_inj s t : sc K s = sc K t -> s = t.
Proof. by move=> /matrixP /(_ 0 0); rewrite !mxE /= !mulr1n => /(congr1 (@toR K)); rewrite !toRK. Qed.
Lemma not_huber lbda beta : 0 < lbda -> 0 < beta -> beta != 1 -> 1 <= lbda * beta ->
  estimating_eq (code_weight lbda beta) (X1 1) (sc K beta) /\ ~ estimating_eq (huber_weight lbda beta) (X1 1) (sc K beta).
Proof.
move=> l0 b0 b1 lb; have q : maha (sc K beta) (const_mx (@ofR K 1) : 'cV[K]_1) = beta^-1 by rewrite maha_sc // mulr1 mul1r.
have ql : beta^-1 <= lbda by rewrite -[X in X <= _]mul1r ler_pdivr_mulr.
rewrite /estimating_eq !wsum_X1 X1_samp q /code_weight /huber_weight ql !mulr1 mul1r invr1 !mul1r; split=> // /sc_inj e.
have /eqP : beta * beta = 1 by rewrite {2}e mulfV // gt_eqF.
by rewrite -expr2 sqrf_eq1 (negbTE b1) => /eqP e1; have := b0; rewrite e1 ltr0N1.
Qed.
End OneSample.
Theorem C37_refuted lbda beta : 0 < lbda -> 0 < beta -> beta != 1 -> 1 <= lbda * beta ->
  (forall eigh, eigh_ok eigh -> exists (X : 'M[real_sf]_(1, 1)) S,
     [/\ pd S, huber_step eigh X lbda beta S = Ok S & ~ estimating_eq (huber_weight lbda beta) X S]) /\
  (forall eigh, eigh_ok eigh -> exists (X : 'M[complex_sf]_(1, 1)) S,
     [/\ pd S, complex_huber_step eigh X lbda beta S = Ok S & ~ estimating_eq (huber_weight lbda beta) X S]).
Proof.
move=> l0 b0 b1 lb; have [H1 H2] := C37_equation_solved_partial 1 1 l0 b0; split=> eigh ok.
  have [h1 h2] := not_huber real_sf l0 b0 b1 lb; have ps := sc_pd real_sf b0; exists (X1 real_sf 1), (sc real_sf beta); split=> //.
  exact/(H1 _ _ _ ok ps).
have [h1 h2] := not_huber complex_sf l0 b0 b1 lb; have ps := sc_pd complex_sf b0; exists (X1 complex_sf 1), (sc complex_sf beta).
split; [exact: ps | exact/(H2 _ _ _ ok ps) | exact: h2].
Qed.
(* lambda = 1, beta = 2 meet the hypotheses *)
Example C37_refuted_instance : [/\ 0 < (1 : R), 0 < (2%:R : R), (2%:R : R) != 1 & 1 <= 1 * 2%:R :> R].
Proof. by split; rewrite ?mul1r ?ler1n ?ltr01 ?ltr0n // (eqr_nat _ 2 1). Qed.

(* ------------------------------------------------------------------ C38 *)
(* Two data sets that differ in one sample, whatever its values: the update from S differs by at most a fixed multiple of S. *)
Lemma zmod_alg (V : zmodType) (a r b o c : V) : a + r + b - (o + r) = a + ((b - c) + (c - o)).
Proof. by rewrite [b - c + _]addrA subrK opprD [- o - r]addrC addrA [a + r + b]addrAC addrK addrA. Qed.
Section Influence.
Variable K : starField.
Lemma influence N p (w : R -> R) b (X Y : 'M[K]_(N, p)) S j : (forall i, i != j -> row i X = row i Y) -> pd S ->
  0 <= w (maha S (samp X j)) -> 0 <= w (maha S (samp Y j)) -> w (maha S (samp X j)) * maha S (samp X j) <= b ->
  loewner (mstep w X S) (mstep w Y S + @ofR K b *: S).
Proof.
move=> XY pS; set q := maha S (samp X j) => wx wy wb; set R0 := \sum_(i < N | i != j) @ofR K (w (maha S (samp Y i))) *: outer (samp Y i).
have eX : mstep w X S = @ofR K (w q) *: outer (samp X j) + R0.
  by rewrite /mstep /wsum (bigD1 j) //=; congr (_ + _); apply: eq_bigr => i ij; rewrite /samp XY.
have eY : mstep w Y S = @ofR K (w (maha S (samp Y j))) *: outer (samp Y j) + R0 by rewrite /mstep /wsum (bigD1 j).
rewrite /loewner eX eY.
have -> : @ofR K (w (maha S (samp Y j))) *: outer (samp Y j) + R0 + @ofR K b *: S - (@ofR K (w q) *: outer (samp X j) + R0) =
  @ofR K (w (maha S (samp Y j))) *: outer (samp Y j) + (@ofR K (b - w q * q) *: S + @ofR K (w q) *: (@ofR K q *: S - outer (samp X j))).
  rewrite scalerBr scalerA -rmorphM rmorphB scalerBl; exact: zmod_alg.
apply: psdD; first by apply: psdZ; [rewrite ofRge0 | apply: psd_outer].
apply: psdD; first by apply: psdZ; [rewrite ofRge0 subr_ge0 | apply: pd_psd].
by apply: psdZ; [rewrite ofRge0 | apply: outer_le].
Qed.
End Influence.
Lemma student_influence (a b q n : R) : 0 < a -> 0 < b -> 0 <= n -> 0 <= q -> 0 <= b * n / (a + q) /\ b * n / (a + q) * q <= b * n.
Proof.
move=> a0 b0 n0 q0; have s0 : 0 < a + q by rewrite ltr_paddr.
have c0 : 0 <= b * n by rewrite mulr_ge0 // ltW.
split; first by rewrite divr_ge0 // ltW.
rewrite -mulrA; apply: ler_pimulr => //; rewrite mulrC ler_pdivr_mulr // mul1r ler_addr; exact: ltW.
Qed.
Theorem C38_student_bounded_partial N p (df : R) : 0 < df ->
  (forall eigh (X Y : 'M[real_sf]_(N, p)) S j, eigh_ok eigh -> pd S -> (forall i, i != j -> row i X = row i Y) ->
     loewner (student_step eigh X df S) (student_step eigh Y df S + @ofR real_sf ((df / 2%:R + p%:R) / N%:R) *: S)) /\
  (forall eigh (X Y : 'M[complex_sf]_(N, p)) S j, eigh_ok eigh -> pd S -> (forall i, i != j -> row i X = row i Y) ->
     loewner (complex_student_step eigh X df S) (complex_student_step eigh Y df S + @ofR complex_sf ((df + p%:R) / N%:R) *: S)).
Proof.
move=> d0; have h0 : 0 < df / 2%:R by exact: (divr_gt0 d0 two_gt0).
have n0 : 0 <= (N%:R^-1 : R) by rewrite invr_ge0 ler0n.
have P (x : R) : 0 < x -> 0 < x + p%:R by move=> x0; rewrite ltr_paddr ?ler0n.
split=> eigh X Y S j ok pS XY.
  have E (Z : 'M[real_sf]_(N, p)) : student_step eigh Z df S = mstep (fun t => (df / 2%:R + p%:R) / N%:R / (df / 2%:R + t)) Z S by rewrite student_stepE // -(cstep_mstep _ _ ok pS).
rewrite !E.
  have B q q0 := @student_influence (df / 2%:R) _ q _ h0 (P _ h0) n0 q0.
  by apply: (influence XY) => //; [case: (B _ (maha_ge0 (samp X j) pS)) | case: (B _ (maha_ge0 (samp Y j) pS)) | case: (B _ (maha_ge0 (samp X j) pS))].
have E (Z : 'M[complex_sf]_(N, p)) : complex_student_step eigh Z df S = mstep (fun t => (df + p%:R) / N%:R / (df + t)) Z S by rewrite complex_student_stepE // -(cstep_mstep _ _ ok pS).
rewrite !E.
have B q q0 := @student_influence df _ q _ d0 (P _ d0) n0 q0.
by apply: (influence XY) => //; [case: (B _ (maha_ge0 (samp X j) pS)) | case: (B _ (maha_ge0 (samp Y j) pS)) | case: (B _ (maha_ge0 (samp X j) pS))].
Qed.
Theorem C38_tyler_bounded_partial N p :
  (forall eigh (X Y : 'M[real_sf]_(N, p)) S j, eigh_ok eigh -> pd S -> row j X != 0 -> row j Y != 0 -> (forall i, i != j -> row i X = row i Y) ->
     loewner (tyler_step eigh X S) (tyler_step eigh Y S + @ofR real_sf (p%:R / N%:R) *: S)) /\
  (forall eigh (X Y : 'M[complex_sf]_(N, p)) S j, eigh_ok eigh -> pd S -> row j X != 0 -> row j Y != 0 -> (forall i, i != j -> row i X = row i Y) ->
     loewner (complex_tyler_step eigh X S) (complex_tyler_step eigh Y S + @ofR complex_sf (p%:R / N%:R) *: S)).
Proof.
have n0 : 0 <= (p%:R / N%:R : R) by rewrite divr_ge0 ?ler0n.
split=> eigh X Y S j ok pS xj yj XY.
  have E (Z : 'M[real_sf]_(N, p)) : tyler_step eigh Z S = mstep (fun t => p%:R / N%:R / t) Z S by rewrite tyler_stepE // -(cstep_mstep _ _ ok pS).
rewrite !E.
  have hX : 0 < maha S (samp X j) by apply: maha_gt0; rewrite // /samp trmx_eq0.
  apply: (influence XY) => //; try by rewrite divr_ge0 // maha_ge0.
  by rewrite divfK // gt_eqF.
have E (Z : 'M[complex_sf]_(N, p)) : complex_tyler_step eigh Z S = mstep (fun t => p%:R / N%:R / t) Z S by rewrite complex_tyler_stepE // -(cstep_mstep _ _ ok pS).
rewrite !E.
have hX : 0 < maha S (samp X j) by apply: maha_gt0; rewrite // /samp trmx_eq0.
apply: (influence XY) => //; try by rewrite divr_ge0 // maha_ge0.
by rewrite divfK // gt_eqF.
Qed.
(* Huber's update is not bounded: one sample in dimension 1 *)
Theorem C38_huber_refuted lbda beta : 0 < lbda -> 0 < beta ->
  (forall eigh, eigh_ok eigh -> forall b : R, exists (X : 'M[real_sf]_(1, 1)) T,
     huber_step eigh X lbda beta 1%:M = Ok T /\ ~ loewner T (@ofR real_sf b *: 1%:M)) /\
  (forall eigh, eigh_ok eigh -> forall b : R, exists (X : 'M[complex_sf]_(1, 1)) T,
     complex_huber_step eigh X lbda beta 1%:M = Ok T /\ ~ loewner T (@ofR complex_sf b *: 1%:M)).
Proof.
move=> l0 b0; have nb : (lbda <= 0) || (beta < 0) = false by rewrite leNgt l0 ltNge ltW.
pose x (b : R) : R := 1 + `|b| / beta.
have x1 b : 1 <= x b by rewrite ler_addl divr_ge0 ?normr_ge0 // ltW.
have big b q : b < 1%:R^-1 * code_weight lbda beta q * (x b * x b).
  rewrite invr1 mul1r; have c1 : beta <= code_weight lbda beta q.
    rewrite /code_weight -[X in X <= _]mulr1 ler_pmul2l //; case: (leP q lbda) => // h.
    by rewrite ler_pdivl_mulr // mul1r ltW.
  apply: le_lt_trans (ler_norm b) _; apply: (@lt_le_trans _ _ (beta * x b)).
    by rewrite /x mulrDr mulr1 mulrCA divff ?gt_eqF // mulr1 ltr_addr.
  rewrite mulrA; apply: (@le_trans _ _ (code_weight lbda beta q * x b)); first by rewrite ler_wpmul2r // (le_trans ler01).
  by apply: ler_pemulr => //; rewrite mulr_ge0 //; [apply: le_trans c1; apply: ltW | apply: le_trans (x1 b)].
have nl (K : starField) b q : ~ loewner (sc K (1%:R^-1 * code_weight lbda beta q * (x b * x b))) (@ofR K b *: 1%:M).
  case=> _ /(_ 1%:M); rewrite /qf /sesq adj1 mul1mx mulmx1 scalemx1 -raddfB mxE eqxx mulr1n -rmorphB ofRge0 subr_ge0 leNgt.
  by rewrite big.
split=> eigh ok b.
  exists (X1 real_sf (x b)); rewrite huber_stepE nb; eexists; split; first reflexivity.
  have p1 := pd1 real_sf 1; rewrite wsum_X1 (ctau_pd _ _ ok p1) (huber_u_inv l0 b0 (maha_ge0 _ p1)).
  exact: nl.
exists (X1 complex_sf (x b)); rewrite complex_huber_stepE nb; eexists; split; first reflexivity.
have p1 := pd1 complex_sf 1; rewrite wsum_X1 (ctau_pd _ _ ok p1) (huber_u_inv l0 b0 (maha_ge0 _ p1)).
exact: nl.
Qed.

(* ------------------------------------------------------------------ C39 *)
(* real data as complex data *)
Definition emb m n (A : 'M[real_sf]_(m, n)) : 'M[complex_sf]_(m, n) := map_mx (@ofR complex_sf) A.
Lemma embM m n l (A : 'M[real_sf]_(m, n)) (B : 'M[real_sf]_(n, l)) : emb (A *m B) = emb A *m emb B. Proof. exact: map_mxM. Qed.
Lemma embZ m n (c : R) (A : 'M[real_sf]_(m, n)) : emb (@ofR real_sf c *: A) = @ofR complex_sf c *: emb A.
Proof. by apply/matrixP => i j; rewrite !mxE rmorphM. Qed.
Lemma embH m n (A : 'M[real_sf]_(m, n)) : emb A^H = (emb A)^H.
Proof. by apply/matrixP => i j; rewrite /emb mxE !adjE mxE cj_ofR. Qed.
Lemma emb_unit n (A : 'M[real_sf]_n) : (emb A \in unitmx) = (A \in unitmx). Proof. exact: map_unitmx. Qed.
Lemma emb_inv n (A : 'M[real_sf]_n) : emb (invmx A) = invmx (emb A). Proof. exact: map_invmx. Qed.
Lemma emb_pd n (S : 'M[real_sf]_n) : pd S -> pd (emb S).
Proof.
move=> pS; have [B [d [uB -> _ _]]] := simdiag pS pS; rewrite embM embH -[X in X *m _]mulmx1; apply: pd_congr; first by rewrite emb_unit.
exact: pd1.
Qed.
Lemma emb_maha n (S : 'M[real_sf]_n) x : maha (emb S) (emb x) = maha S x.
Proof. by rewrite /maha -emb_inv -embH -!embM mxE toRK. Qed.
Lemma emb_samp N p (X : 'M[real_sf]_(N, p)) i : samp (emb X) i = emb (samp X i).
Proof. by apply/matrixP => a b; rewrite !mxE. Qed.
Lemma emb_mstep N p w (X : 'M[real_sf]_(N, p)) S : mstep w (emb X) (emb S) = emb (mstep w X S).
Proof.
rewrite /mstep /wsum /emb raddf_sum; apply: eq_bigr => i _; rewrite -/(emb _) emb_samp emb_maha.
by rewrite -[RHS]/(emb (_ *: _)) embZ /outer embM embH.
Qed.
Lemma emb_fro p (A : 'M[real_sf]_p) : fro (emb A) = fro A.
Proof.
rewrite /fro; congr R_sqrt.sqrt; rewrite -[LHS](@toRK complex_sf) -[RHS](@toRK real_sf) !fro2_tr -embH -embM.
by rewrite /emb trace_map_mx toRK.
Qed.
Lemma emb_rel_change p (s s' : 'M[real_sf]_p) : rel_change (emb s') (emb s) = rel_change s' s.
Proof.
rewrite /rel_change emb_fro; have -> : emb s' - emb s = emb (s' - s) by apply/matrixP => i j; rewrite !mxE rmorphB.
by rewrite emb_fro.
Qed.
Lemma emb_normalised p nrm (S : 'M[real_sf]_p.+1) : normalised nrm (emb S) = emb (normalised nrm S).
Proof.
rewrite /normalised; have e : get_normalisation_function nrm (emb S) = @ofR complex_sf (get_normalisation_function nrm S).
  rewrite /get_normalisation_function; case: ifP => _; first by rewrite /norm_trace /emb trace_map_mx toRK.
  case: ifP => _; first by rewrite /norm_determinant /emb det_map_mx toRK.
  case: ifP => _; first by rewrite /norm_element mxE.
  by case: ifP => _; rewrite rmorph1.
by rewrite e -fmorphV -embZ.
Qed.
Lemma emb_init N p (X : 'M[real_sf]_(N, p)) : complex_empirical_covariance (emb X) true = emb (empirical_covariance_centered X).
Proof.
rewrite complex_init_none real_init_none -[wsum _ X]/(mstep (fun=> N%:R^-1) X 0) -emb_mstep.
by [].
Qed.
Lemma emb_runs p (f : 'M[real_sf]_p -> res 'M[real_sf]_p) (g : 'M[complex_sf]_p -> res 'M[complex_sf]_p) h tol m s0 :
  (forall s, f s = Ok (h s)) -> (forall s, pd s -> pd (h s)) -> (forall s, pd s -> g (emb s) = Ok (emb (h s))) -> pd s0 ->
  exists s d k, [/\ fp_loop f tol m s0 = Some (Ok (s, d, k)), fp_loop g tol m (emb s0) = Some (Ok (emb s, d, k)) & pd s].
Proof.
move=> Ef Ph Eg p0.
have [s [d [k e]]] := loop_ok tol m s0 Ef; exists s, d, k; rewrite e.
have H1 a b : pd a /\ b = emb a -> rres (fun s t => pd s /\ t = emb s) (f a) (g b).
  by move=> [pa ->]; rewrite Ef Eg //=; split=> //; apply: Ph.
have H2 a b a' b' : pd a /\ b = emb a -> f a = Ok a' -> g b = Ok b' -> pd a' /\ b' = emb a' -> rel_change a' a = rel_change b' b.
  by move=> [pa ->] _ _ [_ ->]; rewrite emb_rel_change.
have := @loop_sim _ _ _ gtf PInf f g (@rel_change _ _) (@rel_change _ _) (fun s t => pd s /\ t = emb s) H1 H2 tol m s0 (emb s0) (conj p0 erefl).
rewrite -/(fp_loop f _ _ _) -/(fp_loop g _ _ _) e /rout; case: (fp_loop g _ _ _) => [[[[t d'] k']|]|] //.
by case=> [[ps ->] <- <-].
Qed.
Section Agree.
Variables (N p : nat) (X : 'M[real_sf]_(N, p.+1)) (init : option 'M[real_sf]_p.+1) (tol : flt) (m : nat).
Variables (eigh : eigsolver real_sf) (ceigh : eigsolver complex_sf).
Hypotheses (ok : eigh_ok eigh) (cok : eigh_ok ceigh) (rX : \rank X = p.+1) (X0 : forall i, row i X != 0).
Hypothesis pi : forall s, init = Some s -> pd s.
Let iE : complex_init (emb X) (omap (@emb _ _) init) = emb (real_init X init).
Proof. by rewrite /complex_init /real_init; case: init => [s|]; [| exact: emb_init]. Qed.
Let ip : pd (real_init X init).
Proof. by case: init pi => [s0 /(_ _ erefl)|_] //=; rewrite real_init_none; exact: init_pd. Qed.
Let agree w f g : (forall s, pd s -> pd (cstep eigh w X s)) -> (forall s, f s = Ok (cstep eigh w X s)) ->
  (forall s, g s = Ok (cstep ceigh w (emb X) s)) ->
  exists s d k, [/\ fp_loop f tol m (real_init X init) = Some (Ok (s, d, k)),
     fp_loop g tol m (complex_init (emb X) (omap (@emb _ _) init)) = Some (Ok (emb s, d, k)) & pd s].
Proof.
move=> Ph Ef Eg; rewrite iE; apply: (emb_runs tol m Ef Ph) => // s ps.
by rewrite Eg (cstep_mstep _ _ cok (emb_pd ps)) emb_mstep (cstep_mstep _ _ ok ps).
Qed.
(* Tyler's estimators agree: same error, same number of iterations, same matrix *)
Theorem C39_tyler_agrees_partial nrm : exists s d k,
  tyler_shape_matrix_fixedpoint eigh X init tol m nrm = Some (Ok (s, d, k)) /\
  complex_tyler_shape_matrix_fixedpoint ceigh (emb X) (omap (@emb _ _) init) tol m nrm = Some (Ok (emb s, d, k)).
Proof.
have [||| s [d [k [e1 e2 ps]]]] := @agree (fun q => p.+1%:R / N%:R / q) (fun s => Ok (tyler_step eigh X s)) (fun s => Ok (complex_tyler_step ceigh (emb X) s)).
- by move=> s ps; have := real_step_pd (ppf := fun _ _ => 0) (cdf := fun _ _ => 0) (a := TylerFP "") I ok rX X0 ps.
- by move=> s; rewrite tyler_stepE.
- by move=> s; rewrite complex_tyler_stepE.
exists (normalised nrm s), d, k.
rewrite /tyler_shape_matrix_fixedpoint /complex_tyler_shape_matrix_fixedpoint -/(real_init X init) -/(complex_init (emb X) (omap (@emb _ _) init)) e1 e2 /=.
by rewrite emb_normalised.
Qed.
(* the real Student estimator with df agrees with the complex one with df/2 *)
Theorem C39_student_agrees_with_half_df_partial df : 0 < df -> exists s d k,
  student_t_mle_fixed_point eigh X df init tol m = Some (Ok (s, d, k)) /\
  complex_student_t_mle_fixed_point ceigh (emb X) (df / 2%:R) (omap (@emb _ _) init) tol m = Some (Ok (emb s, d, k)).
Proof.
move=> d0; have h0 : 0 < df / 2%:R by exact: (divr_gt0 d0 two_gt0).
have [||| s [d [k [e1 e2 ps]]]] := @agree (fun q => (df / 2%:R + p.+1%:R) / N%:R / (df / 2%:R + q))
  (fun s => Ok (student_step eigh X df s)) (fun s => Ok (complex_student_step ceigh (emb X) (df / 2%:R) s)).
- by move=> s ps; have := real_step_pd (ppf := fun _ _ => 0) (cdf := fun _ _ => 0) (a := StudentMLE df) d0 ok rX X0 ps.
- by move=> s; rewrite student_stepE.
- by move=> s; rewrite complex_student_stepE.
exists s, d, k; rewrite /student_t_mle_fixed_point /complex_student_t_mle_fixed_point !leNgt d0 h0 /=; split; [exact: e1 | exact: e2].
Qed.
(* Huber's with the same lambda and beta *)
Theorem C39_huber_agrees_with_same_thresholds_partial lbda beta : 0 < lbda -> 0 < beta -> exists s d k,
  fp_loop (huber_step eigh X lbda beta) tol m (real_init X init) = Some (Ok (s, d, k)) /\
  fp_loop (complex_huber_step ceigh (emb X) lbda beta) tol m (complex_init (emb X) (omap (@emb _ _) init)) = Some (Ok (emb s, d, k)).
Proof.
move=> l0 b0; have nb : (lbda <= 0) || (beta < 0) = false by rewrite leNgt l0 ltNge ltW.
have [||| s [d [k [e1 e2 ps]]]] := @agree (fun q => N%:R^-1 / huber_u lbda beta q) (huber_step eigh X lbda beta) (complex_huber_step ceigh (emb X) lbda beta).
- move=> s ps; apply: cstep_pd => //; first exact: spanning_rank.
  move=> i; have N0 := rank_N rX; rewrite divr_gt0 ?invr_gt0 ?ltr0n // huber_u_gt0 // maha_ge0 //.
- by move=> s; rewrite huber_stepE nb.
- by move=> s; rewrite complex_huber_stepE nb.
by exists s, d, k.
Qed.
End Agree.
(* With the same df the Student estimators differ from the first update *)
Theorem C39_student_refuted : forall eigh ceigh, eigh_ok eigh -> eigh_ok ceigh ->
  exists (X : 'M[real_sf]_(2, 1)) S, [/\ pd S, \rank X = 1%N, forall i, row i X != 0 &
    emb (student_step eigh X 2%:R S) <> complex_student_step ceigh (emb X) 2%:R (emb S)].
Proof.
move=> eigh ceigh ok cok; have t0 := two_gt0; exists (wX real_sf), (sc real_sf 2%:R).
have ps := sc_pd real_sf t0; split=> //.
- apply/eqP; rewrite eqn_leq rank_leq_col /=; case E: (\rank (wX real_sf)) => //; have := wX_row real_sf 0.
  have /eqP := E; rewrite mxrank_eq0 => /eqP ->; by rewrite row0 eqxx.
- exact: wX_row.
have e : emb (wX real_sf) = wX complex_sf by apply/matrixP => i j; rewrite !mxE.
have emb_sc s : emb (sc real_sf s) = sc complex_sf s by rewrite /emb map_scalar_mx.
rewrite e emb_sc student_stepE // complex_student_stepE // !wsum_sc (ctau_pd _ _ ok ps) (ctau_pd _ (lift _ _) ok ps).
have cps := sc_pd complex_sf t0; rewrite !(ctau_pd _ _ cok cps) !wX_samp !maha_sc // /wx /=.
rewrite emb_sc => /sc_inj.
lazymatch goal with |- @eq _ ?a ?b -> _ => have -> : a = 2%:R by rfield end.
lazymatch goal with |- @eq _ ?a ?b -> _ => have -> : b = 21%:R / 10%:R by rfield end.
r2R => h; have : @eq R _ _ := h; lra.
Qed.

Print Assumptions C37_equation_solved_partial.
Print Assumptions C37_code_weight_increases.
Print Assumptions C37_refuted.
Print Assumptions C38_student_bounded_partial.
Print Assumptions C38_tyler_bounded_partial.
Print Assumptions C38_huber_refuted.
Print Assumptions C39_tyler_agrees_partial.
Print Assumptions C39_student_agrees_with_half_df_partial.
Print Assumptions C39_huber_agrees_with_same_thresholds_partial.
Print Assumptions C39_student_refuted.
