(* Theorems about the fixed-point estimators of covariance.py: C28-C34, C38. *)
From Coq Require Import Reals String.
From mathcomp Require Import all_ssreflect all_fingroup all_algebra.
From Verif Require Import RealsMC Star StarInst FunCalc Model_featurearray Model_linalg Proofs_linalg Props_linalg.
From Verif Require Import Model_covariance Spec_covariance Model_estimators Proofs_mest Proofs_loop Proofs_covariance Proofs_estimators.
Set Implicit Arguments.
Unset Strict Implicit.
Unset Printing Implicit Defensive.
Local Open Scope ring_scope.
Import GRing.Theory Num.Theory Order.TTheory.

(* ------------------------------------------------------------------ C28 *)
Theorem C28_normalisation_constraint (K : starField) p (S : 'M[K]_p.+1) : pd S ->
  [/\ \tr (normalised "trace" S) = p.+1%:R,
      \det (normalised "determinant" S) = 1,
      normalised "element" S 0 0 = 1 &
      forall nrm, exists2 c : K, 0 < c & normalised nrm S = c *: S].
Proof.
move=> pS; split.
- rewrite /normalised /= linearZ /= /norm_trace; have t0 := pd_tr_gt0 pS.
  rewrite -[X in _ * X](toR_ofR_gt0 t0) -fmorphV -rmorphM invfM invrK -mulrA mulrC -mulrA mulfV ?mulr1 ?ofR_nat //.
  by rewrite gt_eqF // toR_gt0.
- rewrite /normalised /= detZ exprVn norm_detE // mulVf // gt_eqF //; exact: det_pd.
- by rewrite /normalised /= /norm_element mxE mulVf // gt_eqF // pd_diag_gt0.
- by move=> nrm; exists (get_normalisation_function nrm S)^-1; rewrite // invr_gt0 norm_gt0.
Qed.
Theorem C28_unknown_or_None_unscaled (K : starField) p nrm (S : 'M[K]_p.+1) :
  ~ scaling_norm nrm -> normalised nrm S = S.
Proof.
move=> h; rewrite /normalised /get_normalisation_function.
case: eqb_spec => [e|_]; first by case: h; left.
case: eqb_spec => [e|_]; first by case: h; right; left.
case: eqb_spec => [e|_]; first by case: h; right; right.
by case: ifP => _; rewrite invr1 scale1r.
Qed.
Theorem C28_scale_invariant (K : starField) p nrm c (S : 'M[K]_p.+1) : scaling_norm nrm ->
  pd S -> 0 < c -> normalised nrm (@ofR K c *: S) = normalised nrm S.
Proof.
move=> hn pS c0; rewrite /normalised norm_scale // scalerA invfM -mulrA mulrCA mulVf ?mulr1 //.
by rewrite fmorph_eq0 gt_eqF.
Qed.
Theorem C28_idempotent (K : starField) p nrm (S : 'M[K]_p.+1) : pd S ->
  normalised nrm (normalised nrm S) = normalised nrm S.
Proof.
move=> pS; case: (Classical_Prop.classic (scaling_norm nrm)) => h; last by rewrite !C28_unknown_or_None_unscaled.
have n0 := norm_gt0 nrm pS; have e := toR_ofR_gt0 n0.
rewrite {2}/normalised -e -fmorphV C28_scale_invariant // invr_gt0; exact: toR_gt0.
Qed.
(* the Tyler functions return the normalised last iterate *)
Theorem C28_returned_by_tyler : forall N p nrm tol m,
  (forall eigh (X : 'M[real_sf]_(N, p.+1)) init s d k,
     tyler_shape_matrix_fixedpoint eigh X init tol m nrm = Some (Ok (s, d, k)) ->
     exists2 s', s = normalised nrm s' & tyler_shape_matrix_fixedpoint eigh X init tol m "None" = Some (Ok (s', d, k))) /\
  (forall eigh (X : 'M[complex_sf]_(N, p.+1)) init s d k,
     complex_tyler_shape_matrix_fixedpoint eigh X init tol m nrm = Some (Ok (s, d, k)) ->
     exists2 s', s = normalised nrm s' & complex_tyler_shape_matrix_fixedpoint eigh X init tol m "None" = Some (Ok (s', d, k))).
Proof.
move=> N p nrm tol m; split=> eigh X init s d k;
  rewrite /tyler_shape_matrix_fixedpoint /complex_tyler_shape_matrix_fixedpoint;
  case: (fp_loop _ _ _ _) => [[[[s' d'] k']|]|] //= [<- <- <-]; exists s' => //;
  rewrite (C28_unknown_or_None_unscaled (nrm := "None")) // => -[|[|]]; by [].
Qed.

(* ------------------------------------------------------------------ C29 *)
(* For any type of matrices and of floats (with any comparison, in particular IEEE
   comparison where nan > tol is false), any update (possibly raising) and any error measure:
   the loop terminates; it returns what [stops_with] says, which determines the result; or
   it raises what the first raising update raises. *)
Theorem C29_stopping_contract (St D : Type) (gt : D -> D -> bool) (inf : D) step change tol iter_max (s0 : St) :
  (exists s d k, loop gt inf step change tol iter_max s0 = Some (Ok (s, d, k))
     /\ stops_with gt inf step change tol iter_max s0 s d k
     /\ forall s' d' k', stops_with gt inf step change tol iter_max s0 s' d' k' -> [/\ s = s', d = d' & k = k']) \/
  (exists e j, loop gt inf step change tol iter_max s0 = Some (Err e)
     /\ [/\ updates step j s0 = Err e, (0 < j <= iter_max)%N &
            forall j' d', (j' < j)%N -> reported inf step change s0 j' d' -> gt d' tol]).
Proof.
case: (loop_spec gt inf step change tol iter_max s0) => [[s [d [k [e h]]]]|H]; last by right.
left; exists s, d, k; split=> //; split=> // s' d' k'; exact: stops_with_unique.
Qed.

(* C29: the six functions run this loop with their update rule and the relative Frobenius
   change, from the given initial point or the (uncentred) empirical covariance. *)
Theorem C29_estimators_follow_contract ppf cdf N p a tol m :
  (forall eigh (X : 'M[real_sf]_(N, p.+1)) init, real_valid ppf cdf p a ->
    exists s d k, real_fixed_point eigh ppf cdf a X init tol m = Some (Ok (algo_post a s, d, k)) /\
      stops_with gtf PInf (real_step eigh ppf cdf a X) (@rel_change _ _) tol m (real_init X init) s d k) /\
  (forall eigh (X : 'M[complex_sf]_(N, p.+1)) init, complex_valid ppf cdf p a ->
    exists s d k, complex_fixed_point eigh ppf cdf a X init tol m = Some (Ok (algo_post a s, d, k)) /\
      stops_with gtf PInf (complex_step eigh ppf cdf a X) (@rel_change _ _) tol m (complex_init X init) s d k).
Proof.
split=> eigh X init va.
  rewrite real_fixed_pointE // /fp_loop.
  case: (loop_spec gtf PInf (real_step eigh ppf cdf a X) (@rel_change _ _) tol m (real_init X init)) =>
     [[s [d [k [-> h]]]]|[e [j [_ [u _ _]]]]]; first by exists s, d, k.
  by elim: j u => [//|j IH] /=; case: (updates _ _ _) IH => [x|] //= _; rewrite real_stepE.
rewrite complex_fixed_pointE // /fp_loop.
case: (loop_spec gtf PInf (complex_step eigh ppf cdf a X) (@rel_change _ _) tol m (complex_init X init)) =>
   [[s [d [k [-> h]]]]|[e [j [_ [u _ _]]]]]; first by exists s, d, k.
by elim: j u => [//|j IH] /=; case: (updates _ _ _) IH => [x|] //= _; rewrite complex_stepE.
Qed.

(* C29: invalid parameters are rejected: AttributeError (df <= 0), AssertionError (Huber) at
   the first iteration *)
Theorem C29_invalid_parameters_raise ppf cdf N p tol rtol m :
  (forall eigh (X : 'M[real_sf]_(N, p)) init df, df <= 0 ->
     student_t_mle_fixed_point eigh X df init tol m = Some (Err AttributeErr)) /\
  (forall eigh (X : 'M[complex_sf]_(N, p)) init df, df <= 0 ->
     complex_student_t_mle_fixed_point eigh X df init tol m = Some (Err AttributeErr)) /\
  (forall eigh (X : 'M[real_sf]_(N, p)) init q, huber_lbda ppf q p <= 0 ->
     huber_m_estimator_fixed_point eigh ppf cdf X q init (Fin rtol) m.+1 = Some (Err AssertionErr)) /\
  (forall eigh (X : 'M[complex_sf]_(N, p)) init q, complex_huber_lbda ppf q p <= 0 ->
     complex_huber_m_estimator_fixed_point eigh ppf cdf X q init (Fin rtol) m.+1 = Some (Err AssertionErr)).
Proof.
split; last split; last split; move=> eigh X init d h.
- by rewrite /student_t_mle_fixed_point h.
- by rewrite /complex_student_t_mle_fixed_point h.
- by rewrite /huber_m_estimator_fixed_point /fp_loop /loop /= huber_stepE h.
- by rewrite /complex_huber_m_estimator_fixed_point /fp_loop /loop /= complex_huber_stepE h.
Qed.

(* C29: with a real tol, stopping early means that the error is at most tol, or that the error
   is not a number *)
Theorem C29_early_stop_partial (K : starField) p (step : 'M[K]_p -> res 'M[K]_p) tol m s0 s d k :
  stops_with gtf PInf step (@rel_change K p) (Fin tol) m s0 s d k -> (k < m)%N ->
  (exists2 e, d = Fin e & e <= tol) \/ d = NaN.
Proof.
move=> [_ rep _ st _] km; case: d rep st => [e||] rep st.
- left; exists e => //; rewrite leNgt; apply/negP => h; by rewrite (st h) ltnn in km.
- by rewrite (st isT) ltnn in km.
- by right.
Qed.
(* ... the latter does happen, and is reported as success (err nan after one iteration, no
   warning): data set of zeros.  (The estimate itself is an array of nan, which the model does
   not represent, hence the existential.) *)
Theorem C29_nan_reported_as_success_refuted eigh :
  exists s, tyler_shape_matrix_fixedpoint eigh (0 : 'M[real_sf]_(2, 2)) None (Fin 1) 10 "None" = Some (Ok (s, NaN, 1%N)).
Proof.
have st s : tyler_step eigh (0 : 'M[real_sf]_(2, 2)) s = 0.
  rewrite tyler_stepE /wsum big1 // => i _; rewrite /outer /samp row0 trmx0 mul0mx scaler0 //.
have e0 : empirical_covariance_centered (0 : 'M[real_sf]_(2, 2)) = 0 :> 'M_2.
  by rewrite /empirical_covariance_centered mulmx0 scaler0.
exists 0; rewrite /tyler_shape_matrix_fixedpoint e0 /fp_loop /loop /= st.
rewrite /rel_change subrr fro0 /divf eqxx /=.
by rewrite (C28_unknown_or_None_unscaled (nrm := "None")) // => -[|[|]].
Qed.

(* ------------------------------------------------------------------ C30 *)
(* after at least one update, whatever the data and the starting point: PSD *)
Theorem C30_iterates_psd ppf cdf N p a :
  (forall eigh (X : 'M[real_sf]_(N, p.+1)) s0 k s, real_valid ppf cdf p a ->
     updates (real_step eigh ppf cdf a X) k.+1 s0 = Ok s -> psd s) /\
  (forall eigh (X : 'M[complex_sf]_(N, p.+1)) s0 k s, complex_valid ppf cdf p a ->
     updates (complex_step eigh ppf cdf a X) k.+1 s0 = Ok s -> psd s).
Proof.
split=> eigh X s0 k s va /=; case: (updates _ _ _) => [s'|] //=.
  rewrite real_stepE // => -[<-]; apply: cstep_psd => q; exact: real_weight_ge0.
rewrite complex_stepE // => -[<-]; apply: cstep_psd => q; exact: complex_weight_ge0.
Qed.
(* with data spanning the space and no zero sample: PD at every iteration, so that no inverse
   square root or division ever fails *)
Theorem C30_iterates_pd ppf cdf N p a :
  (forall eigh (X : 'M[real_sf]_(N, p.+1)) s0 k s, real_valid ppf cdf p a -> eigh_ok eigh ->
     \rank X = p.+1 -> (forall i, row i X != 0) -> pd s0 ->
     updates (real_step eigh ppf cdf a X) k s0 = Ok s -> pd s) /\
  (forall eigh (X : 'M[complex_sf]_(N, p.+1)) s0 k s, complex_valid ppf cdf p a -> eigh_ok eigh ->
     \rank X = p.+1 -> (forall i, row i X != 0) -> pd s0 ->
     updates (complex_step eigh ppf cdf a X) k s0 = Ok s -> pd s).
Proof.
split=> eigh X s0 k s va ok rX X0 p0 u.
  apply: (@updates_inv _ (real_step eigh ppf cdf a X) (@pd real_sf p.+1) k s0 s p0 _ u).
  move=> {s u} s s' ps; rewrite real_stepE // => -[<-].
  apply: cstep_pd => //; first exact: spanning_rank.
  move=> i; apply: real_weight_gt0 => //; first by apply: leq_ltn_trans (ltn_ord i).
  by apply: maha_gt0; rewrite // /samp trmx_eq0.
apply: (@updates_inv _ (complex_step eigh ppf cdf a X) (@pd complex_sf p.+1) k s0 s p0 _ u).
move=> {s u} s s' ps; rewrite complex_stepE // => -[<-].
apply: cstep_pd => //; first exact: spanning_rank.
move=> i; apply: complex_weight_gt0 => //; first by apply: leq_ltn_trans (ltn_ord i).
by apply: maha_gt0; rewrite // /samp trmx_eq0.
Qed.

Lemma rank_N (K : starField) N p (X : 'M[K]_(N, p.+1)) : \rank X = p.+1 -> (0 < N)%N.
Proof. by move=> r; have := rank_leq_row X; rewrite r; case: N X r. Qed.
Lemma init_pd (K : starField) N p (X : 'M[K]_(N, p.+1)) : \rank X = p.+1 -> pd (wsum (fun=> N%:R^-1) X).
Proof. by move=> r; apply: wsum_pd (spanning_rank r) => i; rewrite invr_gt0 ltr0n (rank_N r). Qed.

(* the returned estimate, also with the default initial point *)
Theorem C30_returned_pd ppf cdf N p a tol m :
  (forall eigh (X : 'M[real_sf]_(N, p.+1)) init s d k, real_valid ppf cdf p a -> eigh_ok eigh ->
     \rank X = p.+1 -> (forall i, row i X != 0) -> (forall s0, init = Some s0 -> pd s0) ->
     real_fixed_point eigh ppf cdf a X init tol m = Some (Ok (s, d, k)) -> pd s) /\
  (forall eigh (X : 'M[complex_sf]_(N, p.+1)) init s d k, complex_valid ppf cdf p a -> eigh_ok eigh ->
     \rank X = p.+1 -> (forall i, row i X != 0) -> (forall s0, init = Some s0 -> pd s0) ->
     complex_fixed_point eigh ppf cdf a X init tol m = Some (Ok (s, d, k)) -> pd s).
Proof.
split=> eigh X init s d k va ok rX X0 pi h.
  have [s' [d' [k' [e [u _ _ _ _]]]]] := (C29_estimators_follow_contract ppf cdf N p a tol m).1 eigh X init va.
  move: h; rewrite e => -[<- _ _]; apply: algo_post_pd.
  apply: ((C30_iterates_pd ppf cdf N p a).1 eigh X _ _ _ va ok rX X0 _ u).
  by case: init pi {e u} => [s0 /(_ _ erefl)|_] //=; rewrite real_init_none; exact: init_pd.
have [s' [d' [k' [e [u _ _ _ _]]]]] := (C29_estimators_follow_contract ppf cdf N p a tol m).2 eigh X init va.
move: h; rewrite e => -[<- _ _]; apply: algo_post_pd.
apply: ((C30_iterates_pd ppf cdf N p a).2 eigh X _ _ _ va ok rX X0 _ u).
by case: init pi {e u} => [s0 /(_ _ erefl)|_] //; rewrite /complex_init complex_init_none; exact: init_pd.
Qed.

(* C29, C30: in that case the error is never nan or infinite, so that stopping early does
   mean that the last relative change is at most tol. *)
Lemma pd_fro (K : starField) p (S : 'M[K]_p.+1) : pd S -> fro S != 0.
Proof.
move=> pS; apply/eqP => /fro_eq0 e; have := pd_diag_gt0 0 pS; by rewrite e mxE ltxx.
Qed.
Theorem C29_early_stop ppf cdf N p a tol m :
  (forall eigh (X : 'M[real_sf]_(N, p.+1)) init s d k, real_valid ppf cdf p a -> eigh_ok eigh ->
     \rank X = p.+1 -> (forall i, row i X != 0) -> (forall s0, init = Some s0 -> pd s0) ->
     real_fixed_point eigh ppf cdf a X init (Fin tol) m = Some (Ok (s, d, k)) -> (k < m)%N ->
     exists2 e, d = Fin e & e <= tol) /\
  (forall eigh (X : 'M[complex_sf]_(N, p.+1)) init s d k, complex_valid ppf cdf p a -> eigh_ok eigh ->
     \rank X = p.+1 -> (forall i, row i X != 0) -> (forall s0, init = Some s0 -> pd s0) ->
     complex_fixed_point eigh ppf cdf a X init (Fin tol) m = Some (Ok (s, d, k)) -> (k < m)%N ->
     exists2 e, d = Fin e & e <= tol).
Proof.
split=> eigh X init s d k va ok rX X0 pi h.
  have [s' [d' [k' [e sw]]]] := (C29_estimators_follow_contract ppf cdf N p a (Fin tol) m).1 eigh X init va.
  move: h; rewrite e => -[_ <- <-] km; case: (C29_early_stop_partial sw km) => // dN.
  case: sw => _ rep _ _ _; case: k' rep {e km} => [|j] /=; first by rewrite dN.
  case=> [u [v [e1 e2 e3]]]; move: e3; rewrite dN /rel_change /divf.
  rewrite (negbTE (pd_fro _)) //; apply: ((C30_iterates_pd ppf cdf N p a).1 eigh X _ _ _ va ok rX X0 _ e1).
  by case: init pi {e1 e2} => [s0 /(_ _ erefl)|_] //=; rewrite real_init_none; exact: init_pd.
have [s' [d' [k' [e sw]]]] := (C29_estimators_follow_contract ppf cdf N p a (Fin tol) m).2 eigh X init va.
move: h; rewrite e => -[_ <- <-] km; case: (C29_early_stop_partial sw km) => // dN.
case: sw => _ rep _ _ _; case: k' rep {e km} => [|j] /=; first by rewrite dN.
case=> [u [v [e1 e2 e3]]]; move: e3; rewrite dN /rel_change /divf.
rewrite (negbTE (pd_fro _)) //; apply: ((C30_iterates_pd ppf cdf N p a).2 eigh X _ _ _ va ok rX X0 _ e1).
by case: init pi {e1 e2} => [s0 /(_ _ erefl)|_] //; rewrite /complex_init complex_init_none; exact: init_pd.
Qed.

(* ------------------------------------------------------------------ C31 *)
Lemma fp_loop_ext (K : starField) p (f g : 'M[K]_p -> res 'M[K]_p) tol m s0 : f =1 g ->
  fp_loop f tol m s0 = fp_loop g tol m s0.
Proof. by move=> /FunctionalExtensionality.functional_extensionality ->. Qed.
Theorem C31_sample_norms_irrelevant N p nrm tol m :
  (forall eigh (X : 'M[real_sf]_(N, p.+1)) c s0, (forall i, c i != 0) ->
     tyler_shape_matrix_fixedpoint eigh (scale_samples c X) (Some s0) tol m nrm =
     tyler_shape_matrix_fixedpoint eigh X (Some s0) tol m nrm) /\
  (forall eigh (X : 'M[complex_sf]_(N, p.+1)) c s0, (forall i, c i != 0) ->
     complex_tyler_shape_matrix_fixedpoint eigh (scale_samples c X) (Some s0) tol m nrm =
     complex_tyler_shape_matrix_fixedpoint eigh X (Some s0) tol m nrm).
Proof.
split=> eigh X c s0 c0.
  have H : (fun s => Ok (tyler_step eigh (scale_samples c X) s)) =1 (fun s => Ok (tyler_step eigh X s)).
    by move=> s; rewrite !tyler_stepE; apply: congr1; apply: (@cstep_tyler_scale real_sf eigh N p.+1 (p.+1%:R / N%:R) c X s c0).
  exact: (congr1 (omap _) (fp_loop_ext tol m s0 H)).
have H : (fun s => Ok (complex_tyler_step eigh (scale_samples c X) s)) =1 (fun s => Ok (complex_tyler_step eigh X s)).
  by move=> s; rewrite !complex_tyler_stepE; apply: congr1; apply: (@cstep_tyler_scale complex_sf eigh N p.+1 (p.+1%:R / N%:R) c X s c0).
exact: (congr1 (omap _) (fp_loop_ext tol m s0 H)).
Qed.

(* ------------------------------------------------------------------ C32 *)
Theorem C32_affine_equivariance ppf cdf N p a :
  (forall eigh (X : 'M[real_sf]_(N, p.+1)) A s0 k s, real_valid ppf cdf p a -> eigh_ok eigh ->
     \rank X = p.+1 -> (forall i, row i X != 0) -> A \in unitmx -> pd s0 ->
     updates (real_step eigh ppf cdf a X) k s0 = Ok s ->
     updates (real_step eigh ppf cdf a (X *m A^T)) k (A *m s0 *m A^H) = Ok (A *m s *m A^H)) /\
  (forall eigh (X : 'M[complex_sf]_(N, p.+1)) A s0 k s, complex_valid ppf cdf p a -> eigh_ok eigh ->
     \rank X = p.+1 -> (forall i, row i X != 0) -> A \in unitmx -> pd s0 ->
     updates (complex_step eigh ppf cdf a X) k s0 = Ok s ->
     updates (complex_step eigh ppf cdf a (X *m A^T)) k (A *m s0 *m A^H) = Ok (A *m s *m A^H)).
Proof.
split=> eigh X A s0 k s va ok rX X0 uA p0.
  have P1 j s' := (C30_iterates_pd ppf cdf N p a).1 eigh X s0 j s' va ok rX X0 p0.
  have E s' : real_step eigh ppf cdf a X s' = Ok (cstep eigh (real_weight ppf cdf N p a) X s') by apply: real_stepE.
  have E' s' : pd s' -> real_step eigh ppf cdf a (X *m A^T) (A *m s' *m A^H) = Ok (A *m cstep eigh (real_weight ppf cdf N p a) X s' *m A^H).
    by move=> ps; rewrite real_stepE // cstep_congr.
  move: (real_step _ _ _ _ X) (real_step _ _ _ _ (X *m A^T)) P1 E E' => f g P1 E E'.
  elim: k s => [|k IH] s /=; first by case=> ->.
  by case Ek: (updates f k s0) => [s'|] //=; rewrite (IH _ Ek) E => -[<-] /=; rewrite E' //; apply: P1 Ek.
have P1 j s' := (C30_iterates_pd ppf cdf N p a).2 eigh X s0 j s' va ok rX X0 p0.
have E s' : complex_step eigh ppf cdf a X s' = Ok (cstep eigh (complex_weight ppf cdf N p a) X s') by apply: complex_stepE.
have E' s' : pd s' -> complex_step eigh ppf cdf a (X *m A^T) (A *m s' *m A^H) = Ok (A *m cstep eigh (complex_weight ppf cdf N p a) X s' *m A^H).
  by move=> ps; rewrite complex_stepE // cstep_congr.
move: (complex_step _ _ _ _ X) (complex_step _ _ _ _ (X *m A^T)) P1 E E' => f g P1 E E'.
elim: k s => [|k IH] s /=; first by case=> ->.
by case Ek: (updates f k s0) => [s'|] //=; rewrite (IH _ Ek) E => -[<-] /=; rewrite E' //; apply: P1 Ek.
Qed.
(* one update needs neither spanning nor non-zero samples *)
Theorem C32_one_update ppf cdf N p a :
  (forall eigh (X : 'M[real_sf]_(N, p.+1)) A S, real_valid ppf cdf p a -> eigh_ok eigh -> A \in unitmx -> pd S ->
     exists2 T, real_step eigh ppf cdf a X S = Ok T &
       real_step eigh ppf cdf a (X *m A^T) (A *m S *m A^H) = Ok (A *m T *m A^H)) /\
  (forall eigh (X : 'M[complex_sf]_(N, p.+1)) A S, complex_valid ppf cdf p a -> eigh_ok eigh -> A \in unitmx -> pd S ->
     exists2 T, complex_step eigh ppf cdf a X S = Ok T &
       complex_step eigh ppf cdf a (X *m A^T) (A *m S *m A^H) = Ok (A *m T *m A^H)).
Proof.
split=> eigh X A S va ok uA pS.
  by eexists; first exact: real_stepE; rewrite real_stepE // cstep_congr.
by eexists; first exact: complex_stepE; rewrite complex_stepE // cstep_congr.
Qed.
(* for unitary (orthogonal) maps the Frobenius norms agree, so that the whole run does:
   same error, same iteration count, transformed estimate *)
Lemma fro_congr (K : starField) p (A S : 'M[K]_p) : unitary A -> fro (A *m S *m A^H) = fro S.
Proof. by move=> uA; apply: fro_unitary => //; apply: unitary_adj. Qed.
Lemma loop_ok (K : starField) p (f : 'M[K]_p -> res 'M[K]_p) (h : 'M[K]_p -> 'M[K]_p) tol m s0 : (forall s, f s = Ok (h s)) ->
  exists s d k, fp_loop f tol m s0 = Some (Ok (s, d, k)).
Proof.
move=> E; rewrite /fp_loop.
have [[s [d [k [-> _]]]]|[e [j [_ [u _ _]]]]] := loop_spec gtf PInf f (@rel_change _ _) tol m s0; first by exists s, d, k.
by elim: j u => [//|j IH] /=; case: (updates _ _ _) IH => [x|] //= _; rewrite E.
Qed.
Lemma related_runs (K : starField) p (f g : 'M[K]_p -> res 'M[K]_p) (h T : 'M[K]_p -> 'M[K]_p) tol m s0 :
  (forall s, f s = Ok (h s)) -> (forall s, pd s -> pd (h s)) -> (forall s, pd s -> g (T s) = Ok (T (h s))) ->
  (forall s s', pd s -> rel_change (T s') (T s) = rel_change s' s) -> pd s0 ->
  exists s d k, [/\ fp_loop f tol m s0 = Some (Ok (s, d, k)), fp_loop g tol m (T s0) = Some (Ok (T s, d, k)) & pd s].
Proof.
move=> Ef Ph Eg Ech p0.
have [s [d [k e]]] := loop_ok tol m s0 Ef; exists s, d, k; rewrite e.
have H1 a b : pd a /\ b = T a -> rres (fun s t => pd s /\ t = T s) (f a) (g b).
  by move=> [pa ->]; rewrite Ef Eg //=; split=> //; apply: Ph.
have H2 a b a' b' : pd a /\ b = T a -> f a = Ok a' -> g b = Ok b' -> pd a' /\ b' = T a' -> rel_change a' a = rel_change b' b.
  by move=> [pa ->] _ _ [_ ->]; rewrite Ech.
have := @loop_sim _ _ _ gtf PInf f g (@rel_change _ _) (@rel_change _ _) (fun s t => pd s /\ t = T s) H1 H2 tol m s0 (T s0) (conj p0 erefl).
rewrite -/(fp_loop f _ _ _) -/(fp_loop g _ _ _) e /rout; case: (fp_loop g _ _ _) => [[[[t d'] k']|]|] //.
by case=> [[ps ->] <- <-].
Qed.
Lemma rel_change_unitary (K : starField) p (A s s' : 'M[K]_p) : unitary A ->
  rel_change (A *m s' *m A^H) (A *m s *m A^H) = rel_change s' s.
Proof. by move=> uA; rewrite /rel_change -mulmxBl -mulmxBr !fro_congr. Qed.
Lemma real_step_pd eigh ppf cdf N p a (X : 'M[real_sf]_(N, p.+1)) s : real_valid ppf cdf p a -> eigh_ok eigh ->
  \rank X = p.+1 -> (forall i, row i X != 0) -> pd s -> pd (cstep eigh (real_weight ppf cdf N p a) X s).
Proof.
move=> va ok rX X0 ps.
apply: ((C30_iterates_pd ppf cdf N p a).1 eigh X s 1%N _ va ok rX X0 ps _).
by rewrite /= real_stepE.
Qed.
Lemma complex_step_pd eigh ppf cdf N p a (X : 'M[complex_sf]_(N, p.+1)) s : complex_valid ppf cdf p a -> eigh_ok eigh ->
  \rank X = p.+1 -> (forall i, row i X != 0) -> pd s -> pd (cstep eigh (complex_weight ppf cdf N p a) X s).
Proof.
move=> va ok rX X0 ps.
apply: ((C30_iterates_pd ppf cdf N p a).2 eigh X s 1%N _ va ok rX X0 ps _).
by rewrite /= complex_stepE.
Qed.
Theorem C32_unitary_run ppf cdf N p a tol m :
  (forall eigh (X : 'M[real_sf]_(N, p.+1)) A s0, real_valid ppf cdf p a -> eigh_ok eigh ->
     \rank X = p.+1 -> (forall i, row i X != 0) -> unitary A -> pd s0 ->
     exists s d k, fp_loop (real_step eigh ppf cdf a X) tol m s0 = Some (Ok (s, d, k)) /\
       fp_loop (real_step eigh ppf cdf a (X *m A^T)) tol m (A *m s0 *m A^H) = Some (Ok (A *m s *m A^H, d, k))) /\
  (forall eigh (X : 'M[complex_sf]_(N, p.+1)) A s0, complex_valid ppf cdf p a -> eigh_ok eigh ->
     \rank X = p.+1 -> (forall i, row i X != 0) -> unitary A -> pd s0 ->
     exists s d k, fp_loop (complex_step eigh ppf cdf a X) tol m s0 = Some (Ok (s, d, k)) /\
       fp_loop (complex_step eigh ppf cdf a (X *m A^T)) tol m (A *m s0 *m A^H) = Some (Ok (A *m s *m A^H, d, k))).
Proof.
split=> eigh X A s0 va ok rX X0 uA p0; have uA' := unitary_unit uA.
  have [s [d [k [e1 e2 _]]]] := @related_runs _ _ (real_step eigh ppf cdf a X) (real_step eigh ppf cdf a (X *m A^T)) _
    (fun s => A *m s *m A^H) tol m s0 (fun s => real_stepE _ _ _ va) (fun s => real_step_pd va ok rX X0)
    (fun s ps => etrans (real_stepE _ _ _ va) (congr1 _ (cstep_congr _ _ ok uA' ps)))
    (fun s s' _ => rel_change_unitary _ _ uA) p0.
  by exists s, d, k.
have [s [d [k [e1 e2 _]]]] := @related_runs _ _ (complex_step eigh ppf cdf a X) (complex_step eigh ppf cdf a (X *m A^T)) _
    (fun s => A *m s *m A^H) tol m s0 (fun s => complex_stepE _ _ _ va) (fun s => complex_step_pd va ok rX X0)
    (fun s ps => etrans (complex_stepE _ _ _ va) (congr1 _ (cstep_congr _ _ ok uA' ps)))
    (fun s s' _ => rel_change_unitary _ _ uA) p0.
by exists s, d, k.
Qed.

(* ------------------------------------------------------------------ C33 *)
Theorem C33_sample_order_irrelevant ppf cdf N p a tol m (s : 'S_N) :
  (forall eigh (X : 'M[real_sf]_(N, p.+1)) init, real_valid ppf cdf p a ->
     real_fixed_point eigh ppf cdf a (row_perm s X) init tol m = real_fixed_point eigh ppf cdf a X init tol m) /\
  (forall eigh (X : 'M[complex_sf]_(N, p.+1)) init, complex_valid ppf cdf p a ->
     complex_fixed_point eigh ppf cdf a (row_perm s X) init tol m = complex_fixed_point eigh ppf cdf a X init tol m).
Proof.
split=> eigh X init va.
  have H : real_step eigh ppf cdf a (row_perm s X) =1 real_step eigh ppf cdf a X.
    by move=> S; rewrite !(real_stepE _ _ _ va) cstep_perm.
  rewrite !real_fixed_pointE //.
  have -> : real_init (row_perm s X) init = real_init X init.
    by case: init => //=; rewrite !real_init_none -[RHS](@wsum_perm _ _ _ _ _ s).
  exact: (congr1 (omap _) (fp_loop_ext tol m _ H)).
have H : complex_step eigh ppf cdf a (row_perm s X) =1 complex_step eigh ppf cdf a X.
  by move=> S; rewrite !(complex_stepE _ _ _ va) cstep_perm.
rewrite !complex_fixed_pointE //.
have -> : complex_init (row_perm s X) init = complex_init X init.
  by case: init => //; rewrite /complex_init !complex_init_none -[RHS](@wsum_perm _ _ _ _ _ s).
exact: (congr1 (omap _) (fp_loop_ext tol m _ H)).
Qed.

(* ------------------------------------------------------------------ C34 *)
Theorem C34_initial_scale_irrelevant N p nrm tol m :
  (forall eigh (X : 'M[real_sf]_(N, p.+1)) c s0, eigh_ok eigh -> \rank X = p.+1 -> (forall i, row i X != 0) ->
     pd s0 -> 0 < c ->
     exists s d k, tyler_shape_matrix_fixedpoint eigh X (Some s0) tol m "None" = Some (Ok (s, d, k)) /\
       tyler_shape_matrix_fixedpoint eigh X (Some (@ofR real_sf c *: s0)) tol m "None" = Some (Ok (@ofR real_sf c *: s, d, k)) /\
       (scaling_norm nrm ->
         tyler_shape_matrix_fixedpoint eigh X (Some (@ofR real_sf c *: s0)) tol m nrm =
         tyler_shape_matrix_fixedpoint eigh X (Some s0) tol m nrm)) /\
  (forall eigh (X : 'M[complex_sf]_(N, p.+1)) c s0, eigh_ok eigh -> \rank X = p.+1 -> (forall i, row i X != 0) ->
     pd s0 -> 0 < c ->
     exists s d k, complex_tyler_shape_matrix_fixedpoint eigh X (Some s0) tol m "None" = Some (Ok (s, d, k)) /\
       complex_tyler_shape_matrix_fixedpoint eigh X (Some (@ofR complex_sf c *: s0)) tol m "None" = Some (Ok (@ofR complex_sf c *: s, d, k)) /\
       (scaling_norm nrm ->
         complex_tyler_shape_matrix_fixedpoint eigh X (Some (@ofR complex_sf c *: s0)) tol m nrm =
         complex_tyler_shape_matrix_fixedpoint eigh X (Some s0) tol m nrm)).
Proof.
have nn : ~ scaling_norm "None" by move=> [|[|]].
have rc (K : starField) c (s s' : 'M[K]_p.+1) : 0 < c ->
  rel_change (@ofR K c *: s') (@ofR K c *: s) = rel_change s' s.
  move=> c0; rewrite /rel_change -scalerBr !froZ ?ltW // /divf !mulf_eq0 gt_eqF //=.
  by rewrite -mulf_div divff ?mul1r // gt_eqF.
split=> eigh X c s0 ok rX X0 p0 c0.
  have [s [d [k [e1 e2 ps]]]] := @related_runs _ _ (fun s => Ok (tyler_step eigh X s)) (fun s => Ok (tyler_step eigh X s)) _
    (fun s => @ofR real_sf c *: s) tol m s0 (fun s => erefl _)
    (fun s ps => eq_ind_r (fun M => pd M) (real_step_pd (ppf := fun _ _ => 0) (cdf := fun _ _ => 0) (a := TylerFP "") I ok rX X0 ps) (tyler_stepE eigh X s))
    (fun s ps => congr1 (@Ok _) (etrans (tyler_stepE eigh X _) (etrans (@cstep_tyler_init real_sf eigh N p.+1 (p.+1%:R / N%:R) c X s ok c0 ps)
         (congr1 _ (esym (tyler_stepE eigh X s))))))
    (fun s s' _ => rc _ c s s' c0) p0.
  exists s, d, k; rewrite /tyler_shape_matrix_fixedpoint e1 e2 /= !(C28_unknown_or_None_unscaled _ nn); split=> //; split=> // hn.
  by rewrite C28_scale_invariant.
have [s [d [k [e1 e2 ps]]]] := @related_runs _ _ (fun s => Ok (complex_tyler_step eigh X s)) (fun s => Ok (complex_tyler_step eigh X s)) _
    (fun s => @ofR complex_sf c *: s) tol m s0 (fun s => erefl _)
    (fun s ps => eq_ind_r (fun M => pd M) (complex_step_pd (ppf := fun _ _ => 0) (cdf := fun _ _ => 0) (a := TylerFP "") I ok rX X0 ps) (complex_tyler_stepE eigh X s))
    (fun s ps => congr1 (@Ok _) (etrans (complex_tyler_stepE eigh X _) (etrans (@cstep_tyler_init complex_sf eigh N p.+1 (p.+1%:R / N%:R) c X s ok c0 ps)
         (congr1 _ (esym (complex_tyler_stepE eigh X s))))))
    (fun s s' _ => rc _ c s s' c0) p0.
exists s, d, k; rewrite /complex_tyler_shape_matrix_fixedpoint e1 e2 /= !(C28_unknown_or_None_unscaled _ nn); split=> //; split=> // hn.
by rewrite C28_scale_invariant.
Qed.

(* ------------------------------------------------------------------ examples *)
(* a complex data set meeting the hypotheses of C29-C34 (three samples, none zero, spanning),
   a non-diagonal starting point, an eigensolver, parameters *)
Lemma unit_data (K : starField) p (X : 'M[K]_p) : X \in unitmx -> \rank X = p /\ forall i, row i X != 0.
Proof.
move=> uX; split=> [|i]; first by apply: mxrank_unit.
apply/eqP => e; have := congr1 (mulmx (row i X)) (mulmxV uX).
rewrite e mul0mx mulmx1 => e1; have : row i (X *m invmx X) = 0 by rewrite row_mul e mul0mx.
rewrite mulmxV // => /rowP /(_ i); rewrite !mxE eqxx => /eqP; by rewrite oner_eq0.
Qed.
Definition ex_data : 'M[complex_sf]_3 := ToeplitzMatrix (complex.Complex 0 2%:R^-1 : complex_sf) 3.
Definition ex_real : 'M[real_sf]_3 := ToeplitzMatrix (2%:R^-1 : real_sf) 3.
Lemma ex_data_pd : pd ex_data. Proof. exact: C61_ex. Qed.
Lemma ex_real_pd : pd ex_real.
Proof.
apply: toeplitz_pd => /=; rewrite -invfM -natrM.
by rewrite invf_lt1 ?(ltr_nat _ 1 4) // ltr0n.
Qed.
Example C28_C34_hypotheses : exists (eigh : eigsolver complex_sf) (X : 'M[complex_sf]_(3, 3)) (s0 A : 'M[complex_sf]_3),
  [/\ eigh_ok eigh, \rank X = 3%N, (forall i, row i X != 0) & pd s0 /\ A \in unitmx]
  /\ s0 != 1%:M /\ complex_valid (fun _ _ => 2%:R) (fun _ _ => 1) 2 (HuberM (1 / 2%:R)).
Proof.
have [eigh ok] := C61_eigensolver_exists complex_sf.
have [r n0] := unit_data (pd_unit ex_data_pd).
exists eigh, ex_data, ex_data, ex_data; split; first by split=> //; split; [exact: ex_data_pd | exact/pd_unit/ex_data_pd].
split.
  by apply/eqP => /matrixP /(_ 0 1); rewrite !mxE /= => -[]; rewrite ?expr1 => /eqP; rewrite ?oppr_eq0 ?invr_eq0 ?pnatr_eq0.
have e q p : complex_huber_lbda (fun _ _ => 2%:R) q p = 1 by rewrite /complex_huber_lbda divff // pnatr_eq0.
split; rewrite ?/complex_huber_beta e; first exact: ltr01.
rewrite mul1r; apply: ltr_spaddl; first exact: ltr01.
apply: divr_ge0; last by rewrite ler0n.
by rewrite subr_ge0 ler_pdivr_mulr ?ltr0n // mul1r (ler_nat _ 1 2).
Qed.
Print Assumptions C28_normalisation_constraint.
Print Assumptions C28_unknown_or_None_unscaled.
Print Assumptions C28_scale_invariant.
Print Assumptions C28_idempotent.
Print Assumptions C28_returned_by_tyler.
Print Assumptions C29_stopping_contract.
Print Assumptions C29_estimators_follow_contract.
Print Assumptions C29_invalid_parameters_raise.
Print Assumptions C29_early_stop_partial.
Print Assumptions C29_nan_reported_as_success_refuted.
Print Assumptions C30_iterates_psd.
Print Assumptions C30_iterates_pd.
Print Assumptions C30_returned_pd.
Print Assumptions C29_early_stop.
Print Assumptions C31_sample_norms_irrelevant.
Print Assumptions C32_affine_equivariance.
Print Assumptions C32_one_update.
Print Assumptions C32_unitary_run.
Print Assumptions C33_sample_order_irrelevant.
Print Assumptions C34_initial_scale_irrelevant.
