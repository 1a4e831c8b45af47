(* The distance of the Hermitian positive definite manifolds is a metric, and exp follows the shortest paths: C87. *)
From Coq Require Import Reals.
From mathcomp Require Import all_ssreflect all_algebra.
From Verif Require Import RealsMC RealTac RealTac2 Star StarInst FunCalc Model_linalg Proofs_linalg Props_linalg Proofs_cost Model_manifolds Proofs_hpd
  Props_spv Props_hpd Props_shpd Props_product Props_more Proofs_major.
Set Implicit Arguments.
Unset Strict Implicit.
Unset Printing Implicit Defensive.
Local Open Scope ring_scope.
Import GRing.Theory Num.Theory Order.TTheory.
Local Notation sqrt := R_sqrt.sqrt.
Local Notation ln := Rpower.ln.

Section Props.
Variables (K : starField) (eigh : eigsolver K) (cholesky : forall n, 'M[K]_n -> 'M[K]_n).
Hypotheses (eighP : eigh_ok eigh) (cholP : chol_ok cholesky).
Local Notation ofR := (@ofR K).
Local Notation toR := (@toR K).
Section Stack.
Variables n k : nat.
Implicit Types x y z u v : stack K n k.
Local Notation norm := (@hpd_norm K cholesky n k).
Local Notation exp := (@hpd_exp K eigh n k).
Local Notation log := (@hpd_log K eigh n k).
Local Notation dist := (@hpd_dist K eigh cholesky n k).

(* one matrix *)
Lemma triangle1 (x y z A B : 'M[K]_n) : factor A x -> factor B y -> pd y -> pd z ->
  sqrt (fro2 (fmx ln (wh A z))) <= sqrt (fro2 (fmx ln (wh A y))) + sqrt (fro2 (fmx ln (wh B z))).
Proof.
move=> fA fB py pz; have [uA eA] := fA.
have py' : pd (wh A y) := wh_pd uA py; have pz' : pd (wh A z) := wh_pd uA pz.
have [uS eS] := factor_sqrt eighP py'; have hS : herm (fmx sqrt (wh A y)) := fmx_herm _ _.
set S := fmx sqrt (wh A y) in uS eS hS *.
have fAS : factor (A *m S) y by rewrite -(whK y uA) -eS; split; [rewrite unitmx_mul uA|rewrite adjM !mulmxA].
rewrite (fro2_fln_wh ln (pd_herm pz) fB fAS).
have -> : wh (A *m S) z = wh S (wh A z).
  by rewrite /wh (invmxM' uA uS) adjM !mulmxA.
apply: (log_product (S := S) py' (wh_pd uS pz') hS).
- by rewrite -{2}hS eS.
- by have := whK (wh A z) uS; rewrite hS => ->.
- by [].
Qed.
(* dist is a metric on the manifold (non-negative, zero exactly on equal points, symmetric: C55) *)
Theorem C87_triangle x y z : all_pd x -> all_pd y -> all_pd z -> dist x z <= dist x y + dist y z.
Proof.
move=> px py pz; have fx i := factor_sqrt eighP (px i); have fy i := factor_sqrt eighP (py i).
rewrite (distE eighP cholP (fun i => pd_herm (pz i)) fx) (distE eighP cholP (fun i => pd_herm (py i)) fx)
        (distE eighP cholP (fun i => pd_herm (pz i)) fy).
have sq (F : 'I_k -> 'M[K]_n) : \sum_i fro2 (F i) = \sum_i sqrt (fro2 (F i)) ^+ 2.
  by apply: eq_bigr => i _; rewrite sqrtR_sqr' // fro2_ge0.
rewrite !sq; apply: le_trans (norm_triangle _ _); apply: sqrtR_mono; apply: ler_sum => i _.
rewrite ler_pexpn2r ?nnegrE ?addr_ge0 ?sqrtR_ge0 //; exact: triangle1 (fx i) (fy i) (py i) (pz i).
Qed.

(* t -> exp(x, t u) *)
Definition geodesic x u (t : R) : stack K n k := exp x (fun i => ofR t *: u i).
Lemma scaled_herm u t : all_herm u -> all_herm (fun i => ofR t *: u i).
Proof. by move=> hu i; apply: hermZR. Qed.
Lemma expD (a b : R) : Rtrigo_def.exp (a + b) = Rtrigo_def.exp a * Rtrigo_def.exp b. Proof. by rewrite -RplusE exp_plus. Qed.
Lemma cancel (S F T : 'M[K]_n) : S \in unitmx -> T *m invmx S *m (S *m F *m S) *m (invmx S *m T) = T *m F *m T.
Proof. by move=> uS; rewrite -!mulmxA (mulKVmx uS) (mulKmx uS). Qed.
Definition gfac (x u : 'M[K]_n) (s : R) := fmx sqrt x *m fmx (fun a => Rtrigo_def.exp (s / 2%:R * a)) (wh (fmx sqrt x) u).
Lemma geodesic1 (x u : 'M[K]_n) s t : pd x -> herm u ->
  factor (gfac x u s) (hexp1 eigh x (ofR s *: u)) /\
  fro2 (fmx ln (wh (gfac x u s) (hexp1 eigh x (ofR t *: u)))) = (t - s) ^+ 2 * fro2 (wh (fmx sqrt x) u).
Proof.
move=> px hu; have [uS eS] := factor_sqrt eighP px; have hS : herm (fmx sqrt x) := fmx_herm _ _.
set S := fmx sqrt x in uS eS hS *; set w := wh S u; have hw : herm w := wh_herm S hu.
have eE r : hexp1 eigh x (ofR r *: u) = S *m fmx (fun a => Rtrigo_def.exp (r * a)) w *m S.
  by rewrite (hexpE eighP px (hermZR _ hu)) -/S whZ -/w fmx_scale.
pose T := fmx (fun a => Rtrigo_def.exp (s / 2%:R * a)) w.
have pT : pd T by apply: fmx_pd => // r _; exact: expR_gt0.
have hT := pd_herm pT; have uT := pd_unit pT.
have iT : invmx T = fmx (fun a => Rtrigo_def.exp (- (s / 2%:R) * a)) w.
  rewrite -[RHS]mul1mx -(mulVmx uT) -mulmxA fmxM // (@eq_in_fmx _ _ _ (fun=> 1)) ?fmx_const ?rmorph1 ?mulmx1 // => r _.
  by rewrite -expD mulNr addrN; exact: Rtrigo_def.exp_0.
rewrite /gfac -/S -/w -/T; split.
  split; first by rewrite unitmx_mul uS.
  rewrite eE adjM hT hS mulmxA -[S *m T *m T]mulmxA /T fmxM //; congr (S *m _ *m S); apply: eq_in_fmx => // r _.
  by rewrite -expD -mulrDl -splitr.
have -> : wh (S *m T) (hexp1 eigh x (ofR t *: u)) = invmx T *m fmx (fun a => Rtrigo_def.exp (t * a)) w *m invmx T.
  rewrite /wh (invmxM' uS uT) adjM eE; have -> : (invmx S)^H = invmx S by exact: pd_herm (pd_inv (fsqrt_pd px)).
  have -> : (invmx T)^H = invmx T by exact: pd_herm (pd_inv pT).
  exact: cancel.
rewrite iT !fmxM // fmx_comp //.
rewrite (@eq_in_fmx _ _ _ (fun r => (t - s) * id r)) // -?fmxZ ?fmx_id ?fro2Z // => r _ /=.
rewrite -!expD expRK -!mulrDl; congr (_ * _).
by rewrite addrAC -opprD -splitr addrC.
Qed.
Theorem C87_geodesic x u s t : all_pd x -> all_herm u -> dist (geodesic x u s) (geodesic x u t) = `|t - s| * norm x u.
Proof.
move=> px hu; have h i := geodesic1 s t (px i) (hu i).
have ph : all_herm (geodesic x u t).
  by move=> i; apply: pd_herm; apply: hexp_pd => //; exact: hermZR.
rewrite (distE eighP cholP ph (fun i => (h i).1)) (normE eighP cholP u px).
rewrite -[`|_|]sqrtR_sq // -sqrtRM ?sqr_ge0 //; last by apply: sumr_ge0 => i _; exact: fro2_ge0.
congr sqrt; rewrite mulr_sumr; apply: eq_bigr => i _; rewrite (h i).2; congr (_ * _).
by rewrite real_normK ?num_real.
Qed.
Lemma geodesic_ends x u i : all_pd x -> all_herm u -> geodesic x u 0 i = x i /\ geodesic x u 1 i = exp x u i.
Proof.
move=> px hu; rewrite /geodesic /hpd_exp rmorph0 rmorph1 scale0r scale1r; split=> //.
have h0 : herm (0 : 'M[K]_n) := herm0 _ _.
have [uS eS] := factor_sqrt eighP (px i); rewrite (hexpE eighP (px i) h0) /wh mulmx0 mul0mx.
have -> : fmx Rtrigo_def.exp (0 : 'M[K]_n) = 1%:M.
  rewrite -(rmorph1 (@Star.ofR K)) -(fmx_const 1 (herm0 _ _)); apply: eq_in_fmx; first exact: herm0.
  by move=> r [v v0]; rewrite mul0mx => /esym/eqP; rewrite scaler_eq0 (negbTE v0) orbF fmorph_eq0 => /eqP ->; exact: Rtrigo_def.exp_0.
by rewrite mulmx1 (fsqrt_sqr eighP).
Qed.
Theorem C87_dist_exp x u : all_pd x -> all_herm u -> dist x (exp x u) = norm x u.
Proof.
move=> px hu; have pE := C49_exp_positive_definite eighP px hu.
by rewrite (C55_norm_of_log eighP cholP px pE) !(normE eighP cholP _ px); congr sqrt; apply: eq_bigr => i _; rewrite (C49_log_exp eighP).
Qed.

Lemma eq_dist x y z : (forall i, y i = z i) -> dist x y = dist x z.
Proof. by move=> e; congr (dist x _); apply: FunctionalExtensionality.functional_extensionality. Qed.
(* Length of a path made of steps from each point to the next *)
Fixpoint path_length x (l : seq (stack K n k)) : R := if l is y :: l' then dist x y + path_length y l' else 0.
Fixpoint all_points (l : seq (stack K n k)) : Prop := if l is y :: l' then all_pd y /\ all_points l' else True.
(* no path from x to exp(x, u) is shorter than norm(x, u), the length of the path that follows exp(x, t u) *)
Lemma path_dist x l : all_pd x -> all_points l -> dist x (last x l) <= path_length x l.
Proof.
elim: l x => [|y l IH] x px /=; first by rewrite (_ : dist x x = 0) //; apply/(C55_separates eighP cholP px px).
move=> [py pl]; apply: le_trans (ler_add (lexx _) (IH y py pl)); apply: C87_triangle => //.
by elim: l y py pl {IH} => //= z l IH y py [pz pl]; exact: IH.
Qed.
Theorem C87_shortest x u l : all_pd x -> all_herm u -> all_points l -> (forall i, last x l i = exp x u i) ->
  norm x u <= path_length x l.
Proof.
move=> px hu pl e; rewrite -(C87_dist_exp px hu).
have -> : dist x (exp x u) = dist x (last x l) by apply: eq_dist => i; rewrite e.
exact: path_dist.
Qed.
(* ... and following exp(x, t u) at the times t1 <= t2 <= ... it is the last time times norm(x, u) *)
Fixpoint increasing (s : R) (l : seq R) : Prop := if l is t :: l' then s <= t /\ increasing t l' else True.
Theorem C87_geodesic_length x u l s : all_pd x -> all_herm u -> increasing s l ->
  path_length (geodesic x u s) [seq geodesic x u t | t <- l] = (last s l - s) * norm x u.
Proof.
move=> px hu; elim: l s => [|t l IH] s /=; first by rewrite subrr mul0r.
move=> [st il]; rewrite C87_geodesic // IH // ger0_norm ?subr_ge0 // -mulrDl; congr (_ * _).
by rewrite addrC addrA subrK.
Qed.
End Stack.

(* the unit-determinant manifold: its own exp follows the same curves *)
Theorem C87_special_triangle n k (x y z : stack K n k) : special x -> special y -> special z ->
  shpd_dist eigh cholesky x z <= shpd_dist eigh cholesky x y + shpd_dist eigh cholesky y z.
Proof. by move=> sx sy sz; apply: C87_triangle => i; [case: (sx i)|case: (sy i)|case: (sz i)]. Qed.
Theorem C87_special_dist_exp n k (x u : stack K n k) : special x -> tangent x u ->
  shpd_dist eigh cholesky x (shpd_exp eigh x u) = shpd_norm cholesky x u.
Proof.
move=> sx tu; have px : all_pd x by move=> i; case: (sx i).
have hu : all_herm u by move=> i; case: (tu i).
rewrite -[RHS](C87_dist_exp px hu); apply: eq_dist => i; by apply: C52_exp_geodesic.
Qed.

(* products of Hermitian manifolds of different sizes with positive weights *)
Theorem C87_product_triangle p (n k : 'I_p -> nat) (w : 'I_p -> R) :
  let M i := hpd_man eigh cholesky (n i) (k i) in
  (forall i, 0 < w i) -> forall X Y Z : ppt M, (forall i, all_pd (X i : stack K (n i) (k i))) ->
  (forall i, all_pd (Y i : stack K (n i) (k i))) -> (forall i, all_pd (Z i : stack K (n i) (k i))) ->
  wp_dist w X Z <= wp_dist w X Y + wp_dist w Y Z.
Proof.
move=> M w0 X Y Z pX pY pZ; rewrite !(wE w0); apply: le_trans (norm_triangle _ _); apply: sqrtR_mono; apply: ler_sum => i _.
have d0 : 0 <= sqrt (w i) := sqrtR_ge0 _.
rewrite -mulrDr ler_pexpn2r ?nnegrE ?mulr_ge0 ?addr_ge0 ?sqrtR_ge0 //; apply: ler_wpmul2l => //.
exact: C87_triangle (pX i) (pY i) (pZ i).
Qed.
End Props.
(* From I along t I: exp(I, s t I) = e^(s t) I.  The straight path to e^t I has length |t|; the detour by e^(2t) I is three
   times as long. *)
Example C87_ex (K : starField) eigh cholesky (t : R) : eigh_ok eigh -> chol_ok cholesky ->
  let x : stack K 1 1 := fun _ => 1%:M in let u : stack K 1 1 := fun _ => @ofR K t *: 1%:M in
  let g := geodesic eigh x u in
  [/\ all_pd x /\ all_herm u, all_points [:: g 2%:R; g 1] /\ (forall i, last x [:: g 2%:R; g 1] i = hpd_exp eigh x u i),
      hpd_norm cholesky x u = `|t|, hpd_dist eigh cholesky x (g 1) = `|t| & path_length eigh cholesky x [:: g 2%:R; g 1] = 3%:R * `|t|].
Proof.
move=> he hc x u g.
have px : all_pd x by move=> i; exact: pd1.
have hu : all_herm u by move=> i; apply: hermZR; exact: herm1.
have pg s : all_pd (g s) by move=> i; apply: hexp_pd => //; exact: hermZR.
have g0 : x = g 0 by apply: FunctionalExtensionality.functional_extensionality => i; have [e _] := geodesic_ends he i px hu; rewrite /g e.
have nE : hpd_norm cholesky x u = `|t|.
  rewrite (normE he hc u px) big_ord1; have -> : wh (fmx sqrt (x ord0)) (u ord0) = u ord0.
    have -> : fmx sqrt (x ord0) = 1%:M.
      have := fmx_scalar K 1 sqrt 1; rewrite rmorph1 scale1r => ->; rewrite (_ : sqrt 1 = 1) ?rmorph1 ?scale1r //; exact: sqrt_1.
    by rewrite /wh invmx1 adj1 mul1mx mulmx1.
  rewrite fro2Z; have -> : fro2 (1%:M : 'M[K]_1) = 1.
    by apply: (@ofR_inj K); rewrite fro2_tr adj1 mulmx1 mxtrace1 rmorph1.
  by rewrite mulr1 -real_normK ?num_real // sqrtR_sq.
split=> //.
- by split; [split; [|split]|move=> i /=; have [_ e] := geodesic_ends he i px hu; rewrite /g e].
- by rewrite g0 (C87_geodesic he hc) // nE subr0 normr1 mul1r.
rewrite /= g0 !(C87_geodesic he hc) // nE subr0 addr0 -mulrDl; congr (_ * _).
by rewrite {2}(natrD _ 1 1) opprD addrA subrr add0r normrN normr1 ger0_norm ?ler0n // -(natrD _ 2 1).
Qed.

Print Assumptions C87_triangle.
Print Assumptions C87_geodesic.
Print Assumptions C87_dist_exp.
Print Assumptions C87_shortest.
Print Assumptions C87_geodesic_length.
Print Assumptions C87_special_triangle.
Print Assumptions C87_special_dist_exp.
Print Assumptions C87_product_triangle.
