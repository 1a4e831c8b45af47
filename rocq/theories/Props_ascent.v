(* The direction in which the online estimator moves: C116. *)
From Coq Require Import Reals String.
From mathcomp Require Import all_ssreflect all_algebra.
From mathcomp Require Import complex.
From Coquelicot Require Import Coquelicot.
From Verif Require Import RealsMC RealTac RealTac2 Star StarInst FunCalc Model_featurearray Model_linalg Proofs_linalg Props_linalg NpArray Proofs_numpy
  Model_mappings Model_covariance Spec_covariance Model_estimators Model_scipy Model_probability Model_scores
  Model_sklearn Model_objects Proofs_objects Props_objects Model_manifolds Props_hpd Proofs_hpd Proofs_mest Proofs_cost GeoNum Props_geodesic KronNum TylNum AscNum Props_cost Props_kstudent Proofs_egrad Model_online Props_online.
Set Implicit Arguments.
Unset Strict Implicit.
Unset Printing Implicit Defensive.
Local Open Scope ring_scope.
Import GRing.Theory Num.Theory Order.TTheory.

(* ---------- specification ---------- *)
(* minus the logarithm of the density of the centred complex normal law at x, up to a constant *)
Definition gauss_cost (K : starField) p (x : 'cV[K]_p) (S : 'M[K]_p) : R := ln (@toR K (\det S)) + maha S x.
(* the gradient of that cost for the metric of the manifold, see C116_gradient *)
Definition gauss_move (K : starField) p (x : 'cV[K]_p) (S : 'M[K]_p) : 'M[K]_p := S - outer x.

(* ---------- numbers ---------- *)
Definition phi (u : R) : R := 1 + u + 2%:R^-1 * (u * u).
Lemma phi_gt0 u : 0 < phi u.
Proof. rewrite /phi; rnra2. Qed.
Lemma phi_ascent (q t : R) : 0 < t -> t * (q - 1) < 2%:R -> 0 < (phi (t * (1 - q)) - 1) * (1 - q) \/ q = 1.
Proof.
move=> t0 h; case: (eqVneq q 1) => [->|q1]; [by right|left].
have -> : (phi (t * (1 - q)) - 1) * (1 - q) = t * (1 - q) ^+ 2 * (2%:R^-1 * (2%:R - t * (q - 1))).
  rewrite /phi; rfield.
apply: mulr_gt0; last by rewrite mulr_gt0 ?invr_gt0 ?ltr0n // subr_gt0.
by rewrite mulr_gt0 // lt_def sqr_ge0 andbT expf_neq0 // subr_eq0 eq_sym.
Qed.
Lemma ln_ascent (q f : R) : 0 < f -> 0 < (f - 1) * (1 - q) -> q < ln f + q / f.
Proof.
move=> f0 h; have f1 : f != 1 by apply: contraTneq h => ->; rewrite subrr mul0r ltxx.
have := @ln_lt_sub1 f^-1; rewrite invr_gt0 f0 invr_eq1 f1 lnV // => /(_ isT isT) l.
have e : q - q / f = q * (f - 1) / f by rewrite mulrBr mulr1 mulrBl mulfK // gt_eqF.
rewrite -ltr_subl_addr e; apply: lt_trans (_ : (f - 1) / f < _).
  by rewrite ltr_pmul2r ?invr_gt0 // -subr_gt0 -{1}[f - 1]mul1r -mulrBl mulrC.
by move: l; rewrite ltr_oppl opprB => l; rewrite mulrBl mul1r mulfV // gt_eqF.
Qed.
Lemma phi_descent (q t : R) : 0 < t -> t <= 1 -> t + 2%:R^-1 * (t * t) * (q - 1) <= 1 -> 0 <= q ->
  let f := phi (t * (q - 1)) in q = 1 \/ (1 < f /\ f <= q) \/ (q <= f /\ f < 1).
Proof.
move=> t0 t1 h q0 f; case: (ltgtP q 1) => [ql|qg|->]; [right; right|right; left|by left].
  have u0 : t * (q - 1) < 0 by rewrite pmulr_rlt0 // subr_lt0.
  have u1 : -1 <= t * (q - 1).
    have d0 : 0 <= t * q by rewrite mulr_ge0 // ltW.
    by rewrite mulrBr mulr1 ler_subr_addr; apply: le_trans d0; rewrite addrC subr_le0.
  split; last by rewrite /f /phi; move: (t * (q - 1)) u0 u1 => u u0 u1; rnra2.
  have -> : f = q + ((1 - q) * (1 - t) + 2%:R^-1 * (t * (q - 1)) ^+ 2) by rewrite /f /phi; rfield.
  by rewrite ler_addl addr_ge0 // mulr_ge0 ?subr_ge0 ?invr_ge0 ?ler0n ?sqr_ge0 // ltW.
have u0 : 0 < t * (q - 1) by rewrite pmulr_rgt0 // subr_gt0.
split; first by rewrite /f /phi; move: (t * (q - 1)) u0 => u u0; rnra2.
have -> : f = 1 + (t + 2%:R^-1 * (t * t) * (q - 1)) * (q - 1) by rewrite /f /phi; rfield.
by rewrite -ler_subr_addl ler_pimull // subr_ge0 ltW.
Qed.
Lemma ln_descent (q f : R) : 0 < f -> (1 < f /\ f <= q) \/ (q <= f /\ f < 1) -> ln f + q / f < q.
Proof.
move=> f0 h; have f1 : f != 1 by case: h => [] [a b]; [rewrite gt_eqF|rewrite lt_eqF].
have l := ln_lt_sub1 f0 f1.
have e : q - q / f = q * (f - 1) / f by rewrite mulrBr mulr1 mulrBl mulfK // gt_eqF.
rewrite -ltr_subr_addr e; apply: lt_le_trans l _.
rewrite ler_pdivl_mulr // mulrC -subr_ge0 -mulrBl; case: h => [] [a b].
  by rewrite mulr_ge0 // subr_ge0 // ltW.
by rewrite -mulrNN mulr_ge0 // oppr_ge0 subr_le0 // ltW.
Qed.

Lemma shift_lt (a b c d : R) : 0 < c -> b <= d -> a + b < c + (a + d). Proof. by move=> h1 h2; rlra2. Qed.
Lemma shift_lt' (a b c d : R) : 0 <= c -> b < d -> a + b < c + (a + d). Proof. by move=> h1 h2; rlra2. Qed.
Lemma shift_gt (a b c d : R) : c < 0 -> d <= b -> c + (a + d) < a + b. Proof. by move=> h1 h2; rlra2. Qed.
Lemma shift_gt' (a b c d : R) : c <= 0 -> d < b -> c + (a + d) < a + b. Proof. by move=> h1 h2; rlra2. Qed.

(* ---------- rank one ---------- *)
Section RankOne.
Variable K : starField.
Local Notation ofR := (@ofR K).
Local Notation toR := (@toR K).
Lemma det_1rank n (u : 'cV[K]_n) (v : 'rV[K]_n) : \det (1%:M + u *m v) = 1 + (v *m u) 0 0.
Proof.
have e1 : block_mx 1%:M v (- u) 1%:M = block_mx 1%:M 0 (- u) 1%:M *m block_mx (1%:M : 'M_1) v 0 (1%:M + u *m v).
  by rewrite mulmx_block !mul1mx !mulmx1 !mul0mx ?mulmx0 !addr0 mulNmx addrCA addNr addr0.
have e2 : block_mx 1%:M v (- u) 1%:M = block_mx (1%:M : 'M_1) v 0 1%:M *m block_mx (1%:M + v *m u) 0 (- u) 1%:M.
  by rewrite mulmx_block !mul1mx !mulmx1 !mul0mx ?mulmx0 !add0r mulmxN addrK.
have := congr1 determinant e1; rewrite {}e2 !det_mulmx !det_ublock !det_lblock !det1 !mul1r !mulr1 => <-.
by rewrite det_mx11 !mxE.
Qed.
Variables (p : nat) (S : 'M[K]_p.+1) (x : 'cV[K]_p.+1).
Hypothesis pS : pd S.
Local Notation q := (maha S x).
Lemma outer_inv_outer : outer x *m invmx S *m outer x = ofR q *: outer x.
Proof.
have e : x^H *m (invmx S *m x) = (qf (invmx S) x)%:M.
  by apply/matrixP => i j; rewrite !ord1 [RHS]mxE eqxx mulr1n /qf mulmxA.
by rewrite ofR_maha // /outer -!mulmxA (mulmxA (invmx S)) (mulmxA x^H) e mul_scalar_mx -scalemxAr.
Qed.
Lemma retr_rank1 t : hretr1 S (ofR t *: gauss_move x S) = ofR (phi t) *: S + ofR (2%:R^-1 * (t * t) * q - t - t * t) *: outer x.
Proof.
have uS := pd_unit pS.
have e : gauss_move x S *m (invmx S *m gauss_move x S) = S - ofR 2%:R *: outer x + ofR q *: outer x.
  rewrite /gauss_move mulmxBr mulVmx // mulmxBl mulmxBr mulmx1 mulmxA mulmxV // mul1mx mulmxBr mulmx1 mulmxA outer_inv_outer.
  by rewrite ofR_nat scaler_nat mulr2n opprB addrA opprD !addrA addrAC.
rewrite /hretr1 /solve -scalemxAr scalerA -scalemxAl -scalemxAr scalerA e /gauss_move.
have -> : 2%:R^-1 * ofR t * ofR t = ofR (2%:R^-1 * (t * t)) by rewrite !rmorphM fmorphV ofR_nat mulrA.
rewrite scalerBr !scalerDr !scalerN !scalerA -!rmorphM.
have -> : ofR (phi t) = 1 + ofR t + ofR (2%:R^-1 * (t * t)) by rewrite !rmorphD rmorph1.
have -> : ofR (2%:R^-1 * (t * t) * q - t - t * t) = ofR (2%:R^-1 * (t * t) * q) - ofR t - ofR (2%:R^-1 * (t * t) * 2%:R).
  by rewrite -!rmorphB; congr (ofR _); rfield.
rewrite !scalerDl scale1r !scaleNr; move: (ofR t *: S) (ofR t *: outer x) (ofR (2%:R^-1 * (t * t)) *: S) (_ *: outer x) (_ *: outer x) => a b c d g.
by rewrite !addrA [LHS]addrAC; congr (_ - _); rewrite (addrAC _ (- g) c) (addrAC _ (- g) d).
Qed.
Lemma rank1_total t : phi t + (2%:R^-1 * (t * t) * q - t - t * t) * q = phi (t * (1 - q)).
Proof. by rewrite /phi; rfield. Qed.
Lemma det_moved a b : 0 < a -> \det (ofR a *: S + ofR b *: outer x) = ofR (a ^+ p * (a + b * q)) * \det S.
Proof.
move=> a0; have uS := pd_unit pS; have a1 : ofR a != 0 by rewrite gt_eqF // ofR_gt0.
have -> : ofR a *: S + ofR b *: outer x = ofR a *: (S *m (1%:M + (ofR (b / a) *: (invmx S *m x)) *m x^H)).
  rewrite mulmxDr mulmx1 -scalemxAl -scalemxAr -mulmxA mulKVmx // scalerDr scalerA -rmorphM [a * _]mulrC divfK // gt_eqF //.
rewrite detZ det_mulmx det_1rank -scalemxAr [X in 1 + X]mxE mulmxA -[(x^H *m _ *m x) 0 0]/(qf (invmx S) x) -ofR_maha // -rmorphM mulrCA mulrC.
have -> : 1 = ofR 1 by rewrite rmorph1.
rewrite -rmorphD -rmorphX -rmorphM; congr (ofR _ * _); rewrite exprSr -[LHS]mulrA; congr (_ * _).
by rewrite mulrDr mulr1 mulrA [a * _]mulrC divfK // gt_eqF.
Qed.
Lemma moved_unit a b : 0 < a -> 0 < a + b * q -> ofR a *: S + ofR b *: outer x \in unitmx.
Proof.
move=> a0 t0; rewrite unitmxE det_moved // unitfE mulf_neq0 //; last by rewrite gt_eqF // det_pd.
by rewrite gt_eqF // ofR_gt0 mulr_gt0 // exprn_gt0.
Qed.
Lemma maha_moved a b : 0 < a -> 0 < a + b * q -> maha (ofR a *: S + ofR b *: outer x) x = q / (a + b * q).
Proof.
move=> a0 t0; have uS := pd_unit pS; have uM := moved_unit a0 t0; set M := _ + _ in uM *.
have e : M *m (invmx S *m x) = ofR (a + b * q) *: x.
  rewrite /M mulmxDl -!scalemxAl mulKVmx // /outer -mulmxA.
  have -> : x^H *m (invmx S *m x) = (ofR q)%:M.
    by apply/matrixP => i j; rewrite !ord1 [RHS]mxE eqxx mulr1n ofR_maha // /qf mulmxA.
  by rewrite mul_mx_scalar scalerA -rmorphM -scalerDl -rmorphD.
have t1 : ofR (a + b * q) != 0 by rewrite gt_eqF // ofR_gt0.
have e' : invmx M *m x = ofR (a + b * q)^-1 *: (invmx S *m x).
  by rewrite -[invmx S *m x](mulKmx uM) e -scalemxAr scalerA -rmorphM mulVf ?gt_eqF // rmorph1 scale1r.
by rewrite /maha -mulmxA e' -scalemxAr mulmxA mxE toRZ mulrC.
Qed.
Lemma cost_moved t : let f := phi (t * (1 - q)) in
  gauss_cost x (hretr1 S (ofR t *: gauss_move x S)) = p%:R * ln (phi t) + (ln (toR (\det S)) + (ln f + q / f)).
Proof.
move=> f; have f0 := phi_gt0 (t * (1 - q)); have a0 := phi_gt0 t; have d0 := det_pd pS.
rewrite retr_rank1 /gauss_cost det_moved // rank1_total -/f toRZ lnM ?mulr_gt0 ?exprn_gt0 ?toR_gt0 // lnM ?exprn_gt0 // lnX //.
by rewrite maha_moved ?rank1_total // -/f -!addrA; congr (_ + _); rewrite addrCA.
Qed.
Lemma cost_here : gauss_cost x S = ln (toR (\det S)) + q. Proof. by []. Qed.
Lemma ascends t : 0 < t -> t * (q - 1) < 2%:R -> (0 < p)%N || (q != 1) -> gauss_cost x S < gauss_cost x (hretr1 S (ofR t *: gauss_move x S)).
Proof.
move=> t0 h ne; rewrite cost_moved cost_here.
have ph : 1 < phi t by rewrite /phi; rnra2.
have l0 : 0 < ln (phi t) by rewrite -ln1; apply: ln_lt; rewrite ?ltr01.
have h1 : q <= ln (phi (t * (1 - q))) + q / phi (t * (1 - q)).
  case: (phi_ascent t0 h) => [|->]; first by move=> /(ln_ascent (phi_gt0 _))/ltW.
  by rewrite subrr mulr0 /phi !mulr0 !addr0 ln1 add0r divr1.
case/orP: ne => [p0|q1]; first by apply: shift_lt h1; rewrite mulr_gt0 ?ltr0n.
apply: shift_lt'; first by rewrite mulr_ge0 ?ler0n // ltW.
by case: (phi_ascent t0 h) => [|e]; [move/(ln_ascent (phi_gt0 _))|rewrite e eqxx in q1].
Qed.
Lemma descends t : 0 < t -> t <= 1 -> t + 2%:R^-1 * (t * t) * (q - 1) <= 1 -> (0 < p)%N || (q != 1) ->
  gauss_cost x (hretr1 S (ofR t *: - gauss_move x S)) < gauss_cost x S.
Proof.
move=> t0 t1 h ne; rewrite scalerN -scaleNr -rmorphN cost_moved cost_here.
have ph : phi (- t) < 1 by rewrite /phi; rnra2.
have l0 : ln (phi (- t)) < 0 by rewrite -ln1; apply: ln_lt => //; exact: phi_gt0.
have q0 : 0 <= q by apply: maha_ge0.
have -> : - t * (1 - q) = t * (q - 1) by rewrite mulNr -mulrN opprB.
have f0 := phi_gt0 (t * (q - 1)).
have h1 : ln (phi (t * (q - 1))) + q / phi (t * (q - 1)) <= q.
  case: (phi_descent t0 t1 h q0) => [->|]; last by move/(ln_descent f0)/ltW.
  by rewrite subrr mulr0 /phi !mulr0 !addr0 ln1 add0r divr1.
case/orP: ne => [p0|q1]; first by apply: shift_gt h1; rewrite pmulr_rlt0 ?ltr0n.
apply: shift_gt'; first by rewrite mulr_ge0_le0 ?ler0n // ltW.
by case: (phi_descent t0 t1 h q0) => [e|/(ln_descent f0)//]; rewrite e eqxx in q1.
Qed.

(* ------------------------------------------------------------------ C116: the gradient *)
Lemma gauss_derivative (H : 'M[K]_p.+1) : herm H ->
  derivative_at0 (fun s v => pd (line S H s) /\ v = gauss_cost x (line S H s)) (toR (\tr (invmx S *m gauss_move x S *m invmx S *m H))).
Proof.
move=> hH; have uS := pd_unit pS; have [h [eps [e0 pL dL tH hT]]] := along pS hH.
have [c [hc1 hc2]] := hT (outer x).
exists (fun s => (ln (toR (\det S)) + \sum_j ln (1 + s * h j)) + \sum_j c j * Rinv (1 + s * h j)), eps; split=> //.
  move=> s hs; split; first exact: pL.
  by rewrite /gauss_cost dL // (maha_tr _ (pL s hs)) hc1.
have -> : toR (\tr (invmx S *m gauss_move x S *m invmx S *m H)) = toR (\tr (invmx S *m H)) + - toR (\tr (invmx S *m H *m invmx S *m outer x)).
  rewrite /gauss_move mulmxBr mulVmx // !mulmxBl mul1mx !raddfB /=; congr (_ - toR _).
  by have := mxtrace_mulC (invmx S *m outer x) (invmx S *m H); rewrite !mulmxA => ->.
apply: d_add; last by rewrite hc2 -sumrN; apply: d_sum => j; exact: d_frac.
by rewrite tH -[\sum_j h j]add0r; apply/d_add; [exact: d_const|apply: d_sum => j; exact: d_ln1].
Qed.
(* the conversion of the manifold, applied to the Euclidean gradient of the cost, gives gauss_move; it
   represents the derivative in the inner product of the manifold *)
Theorem C116_gradient (H : 'M[K]_p.+1) : herm H ->
  [/\ hegrad1 S (invmx S - invmx S *m outer x *m invmx S) = gauss_move x S,
      derivative_at0 (fun s v => v = gauss_cost x (S + ofR s *: H)) (toR (\tr ((invmx S - invmx S *m outer x *m invmx S)^H *m H))) &
      derivative_at0 (fun s v => v = gauss_cost x (S + ofR s *: H)) (toR (inner1 S (gauss_move x S) H))].
Proof.
move=> hH; have uS := pd_unit pS; have hS := pd_herm pS.
have hG : herm (invmx S - invmx S *m outer x *m invmx S).
  rewrite /herm adjB adjV hS; congr (_ - _); by rewrite !adjM adjV hS adjK !mulmxA.
have e1 : hegrad1 S (invmx S - invmx S *m outer x *m invmx S) = gauss_move x S.
  rewrite /hegrad1 multiherm_id // mulmxBr mulmxV // mulmxBl mul1mx /gauss_move; congr (_ - _).
  by rewrite !mulmxA mulmxV // mul1mx mulmxKV.
have d0 := derivative_imp (fun s v => @proj2 _ _) (gauss_derivative hH).
have e2 : inner1 S (gauss_move x S) H = \tr (invmx S *m gauss_move x S *m invmx S *m H) by rewrite inner1E !mulmxA.
by split=> //; [rewrite -(@gradient1 K p.+1 S) // e1 e2|rewrite e2].
Qed.
End RankOne.

(* ------------------------------------------------------------------ C116: the updates *)
Section Updates.
Variable p : nat.
Local Notation M := 'M[complex_sf]_p.+1.
Local Notation ofR := (@ofR complex_sf).
(* the sample passed to update, as a column *)
Definition the_sample (X : arr) : 'cV[complex_sf]_p.+1 := \col_j (at_ X [:: 0%N; j : nat] : C).
Definition step_size (s : online M) lr := current_lr s lr (on_iteration s).
Lemma updated rgrad pinvh (s : online M) X lr e g : on_est s = Some e -> pd e -> rgrad X e = Ok g ->
  on_est (update (@hretr p) rgrad (@hscale p) (@as_cplx p) None pinvh s X lr).1 = Some (hretr1 e (ofR (step_size s lr) *: g)).
Proof. by move=> es pe eg; rewrite /update es eg /= /hretr pd_unit //= set_est. Qed.

(* Violated: given the gradient of the cost, an update adds a multiple of it, and the cost of the sample
   increases, whatever the state, the sample, and the step below 2/(q-1). *)
Theorem C116_update_ascends_refuted rgrad pinvh (s : online M) X lr e : let x := the_sample X in
  on_est s = Some e -> pd e -> rgrad X e = Ok (gauss_move x e) -> 0 < step_size s lr -> step_size s lr * (maha e x - 1) < 2%:R ->
  (0 < p)%N || (maha e x != 1) ->
  exists2 e', on_est (update (@hretr p) rgrad (@hscale p) (@as_cplx p) None pinvh s X lr).1 = Some e' &
    pd e' /\ gauss_cost x e < gauss_cost x e'.
Proof.
move=> x es pe eg t0 h ne; rewrite (updated _ _ es pe eg); eexists; first by [].
split; last exact: ascends.
have hg : herm (ofR (step_size s lr) *: gauss_move x e) by rewrite /herm adjZR /gauss_move adjB (pd_herm pe) adjM adjK.
exact: (@C48_retr_positive_definite complex_sf p.+1 1 (fun _ => e) (fun _ => _) (fun _ => pe) (fun _ => hg) 0).
Qed.
(* For any cost whose derivative in the direction of its own gradient is positive: small steps increase it,
   and steps against the gradient decrease it. *)
Theorem C116_any_cost_refuted (f : M -> R) (e g : M) d : pd e -> derivative_at0 (fun u v => v = f (hretr1 e (ofR u *: g))) d -> 0 < d ->
  exists2 dl, 0 < dl & forall rgrad pinvh (s : online M) X lr, on_est s = Some e -> 0 < step_size s lr -> step_size s lr < dl ->
    let new := on_est (update (@hretr p) rgrad (@hscale p) (@as_cplx p) None pinvh s X lr).1 in
    (rgrad X e = Ok g -> exists2 e', new = Some e' & f e < f e') /\
    (rgrad X e = Ok (- g) -> exists2 e', new = Some e' & f e' < f e).
Proof.
move=> pe [h [eps [e0 hh hd]]] /RltP d0; have [dl [/RltP dl0 hdl]] := increases_at _ _ hd d0.
have z : h 0 = f e by rewrite hh ?normr0 // rmorph0 scale0r /hretr1 /solve mulmx0 !mulmx0 ?scaler0 !addr0.
exists (Num.min dl eps); first by rewrite lt_minr dl0.
move=> rgrad pinvh s X lr es t0; rewrite lt_minr => /andP[t1 t2] new.
move/RltP: (t0) => r0; move/RltP: (t1) => r1.
have [/RltP i1 /RltP i2] := hdl _ (conj r0 r1).
have n1 : `|step_size s lr| < eps by rewrite gtr0_norm.
have n2 : `|- step_size s lr| < eps by rewrite normrN.
split=> eg; rewrite /new (updated _ _ es pe eg); eexists; try by [].
  by move: i1; rewrite z hh.
by move: i2; rewrite z RoppE hh // rmorphN scaleNr scalerN.
Qed.
(* What holds: with the opposite of the gradient, the cost of the sample decreases for moderate steps. *)
Theorem C116_opposite_partial rgrad pinvh (s : online M) X lr e : let x := the_sample X in let t := step_size s lr in
  on_est s = Some e -> pd e -> rgrad X e = Ok (- gauss_move x e) -> 0 < t -> t <= 1 -> t + 2%:R^-1 * (t * t) * (maha e x - 1) <= 1 ->
  (0 < p)%N || (maha e x != 1) ->
  exists2 e', on_est (update (@hretr p) rgrad (@hscale p) (@as_cplx p) None pinvh s X lr).1 = Some e' & gauss_cost x e' < gauss_cost x e.
Proof. by move=> x t es pe eg t0 t1 h ne; rewrite (updated _ _ es pe eg); eexists; [by []|exact: descends]. Qed.
End Updates.

(* ------------------------------------------------------------------ C116: witness and examples *)
(* fit of the sample (1, 0) from the identity, constant step 1: the estimate becomes diag(1, 5/2) and the cost of
   the sample goes from 1 to 1 + ln(5/2) *)
Definition grad_of p (X : arr) (e : 'M[complex_sf]_p.+1) : res 'M[complex_sf]_p.+1 := Ok (gauss_move (the_sample p X) e).
Lemma toR1 : @toR complex_sf 1 = 1. Proof. by rewrite -(rmorph1 (@ofR complex_sf)) toRK. Qed.
Definition ex_sample : arr := Arr KCplx [:: 1%N; 2%N] (fun idx => if nth 0%N idx 1 == 0%N then 1 else 0).
Lemma ex_maha : maha (1%:M : 'M[complex_sf]_2) (the_sample 1 ex_sample) = 1.
Proof. by rewrite maha1 big_ord_recl big_ord1 !mxE /= /sq mul0r raddf0 addr0 rmorph1 mulr1 -(rmorph1 (@ofR complex_sf)) toRK. Qed.
Lemma ex_same : the_sample 1 (sample ex_sample 0) = the_sample 1 ex_sample.
Proof. by apply/matrixP => i j; rewrite !mxE. Qed.
Theorem C116_witness_refuted :
  let s := on_fit (@hretr 1) (@grad_of 1) (@hscale 1) (@as_cplx 1) None (@Ok arr) (on_new _ 1) ex_sample (Some 1%:M) "constant" in
  let x := the_sample 1 ex_sample in
  [/\ s.2 = Ok tt, gauss_cost x 1%:M = 1 & exists2 e', on_est s.1 = Some e' & pd e' /\ gauss_cost x e' = 1 + ln (5%:R / 2%:R)].
Proof.
move=> s x; have p1 : pd (1%:M : 'M[complex_sf]_2) by exact: pd1.
have ok : s.2 = Ok tt.
  apply: fit_cplx => //; first by move=> c; exists c.
  move=> X e pe; exists (gauss_move (the_sample 1 X) e) => //.
  by rewrite /herm /gauss_move adjB (pd_herm pe) adjM adjK.
have c1 : gauss_cost x 1%:M = 1.
  by rewrite /gauss_cost det1 -(rmorph1 (@ofR complex_sf)) toRK ln1 add0r rmorph1 ex_maha.
split=> //.
have hg : herm (@ofR complex_sf 1 *: gauss_move x (1%:M : 'M[complex_sf]_2)) by rewrite /herm adjZR /gauss_move adjB (pd_herm p1) adjM adjK.
exists (hretr1 1%:M (@ofR complex_sf 1 *: gauss_move x 1%:M)).
  have := set_est (@as_cplx 1) None (@Ok arr) (on_new _ 1) (Some (1%:M : 'M[complex_sf]_2)).
  have := set_lrate (@as_cplx 1) None (@Ok arr) (on_new _ 1) (Some (1%:M : 'M[complex_sf]_2)).
  move: ok; rewrite /s /on_fit; case: (set_estimate _ _ _ _ _) => s1 [[]|y] //= ok [l1 i1] e1; move: ok; rewrite e1 /=.
  have := updated (rgrad := @grad_of 1) (@Ok arr) (X := sample ex_sample 0) "constant" e1 p1 erefl.
  rewrite ex_same /step_size /current_lr /= l1.
  by case: (update _ _ _ _ _ _ _ _ _) => s2 [[]|y] //=.
split; first exact: (@C48_retr_positive_definite complex_sf 2 1 (fun _ => 1%:M) (fun _ => _) (fun _ => p1) (fun _ => hg) 0).
rewrite cost_moved // ex_maha subrr mulr0 det1 toR1.
have -> : phi 0 = 1 by rewrite /phi !mulr0 !addr0.
have -> : phi 1 = 5%:R / 2%:R by rewrite /phi; rfield.
by rewrite ln1 !add0r divr1 mul1r addrC.
Qed.
(* a state meeting the hypotheses of C116_update_ascends_refuted and, with the opposite gradient, of C116_opposite_partial *)
Theorem C116_hypotheses : let s := (set_estimate (@as_cplx 1) None (@Ok arr) (on_new _ 1) (Some 1%:M)).1 in let x := the_sample 1 ex_sample in
  [/\ on_est s = Some 1%:M, 0 < step_size s "constant" <= 1, step_size s "constant" * (maha (1%:M : 'M[complex_sf]_2) x - 1) < 2%:R &
     step_size s "constant" + 2%:R^-1 * (step_size s "constant" * step_size s "constant") * (maha (1%:M : 'M[complex_sf]_2) x - 1) <= 1].
Proof.
move=> s x; have -> : step_size s "constant" = 1 by have [] := set_lrate (@as_cplx 1) None (@Ok arr) (on_new _ 1) (Some (1%:M : 'M[complex_sf]_2)).
by rewrite ex_maha subrr !mulr0 addr0 ltr01 lexx ltr0n; split=> //; exact: set_est.
Qed.
(* the derivative of the cost along the retraction, as assumed by C116_any_cost_refuted, is positive in the example *)
Theorem C116_any_cost_ex : let x := the_sample 1 ex_sample in
  derivative_at0 (fun u v => v = gauss_cost x (hretr1 1%:M (@ofR complex_sf u *: gauss_move x 1%:M))) 1.
Proof.
move=> x; exists (fun u => ln (phi u) + 1), 1; split; first exact: ltr01.
  move=> u _; rewrite cost_moved ?ex_maha ?subrr ?mulr0 ?det1; last exact: pd1.
  have -> : phi 0 = 1 by rewrite /phi !mulr0 !addr0.
  by rewrite toR1 ln1 !add0r divr1 mul1r.
apply: (is_derive_ext _ _ _ _ _ d_lnphi_std) => u; rewrite /phi.
by rewrite -Rinv_E.
Qed.

Print Assumptions C116_gradient.
Print Assumptions C116_update_ascends_refuted.
Print Assumptions C116_any_cost_refuted.
Print Assumptions C116_opposite_partial.
Print Assumptions C116_witness_refuted.
Print Assumptions C116_hypotheses.
Print Assumptions C116_any_cost_ex.
