(* Theorems about the mappings: C01-C05, C07. *)
From Coq Require Import Reals.
From mathcomp Require Import all_ssreflect all_algebra.
From mathcomp Require Import complex zify.
From Verif Require Import RealsMC RealTac Star StarInst FunCalc RealRep Model_featurearray Model_linalg Props_linalg NpArray Proofs_numpy Model_mappings
  Proofs_mappings.
Set Implicit Arguments.
Unset Strict Implicit.
Unset Printing Implicit Defensive.
Local Open Scope ring_scope.
Import GRing.Theory Num.Theory Order.TTheory.
Local Notation Re := (@complex.Re R).
Local Notation Im := (@complex.Im R).

(* ------------------------------------------------------------------ C01 *)
Theorem C01_round_trip a : kd a = KCplx -> ndim a = 1%N \/ (ndim a = 2%N /\ (0 < len a)%N) ->
  same_res (bindr (arraytoreal a) arraytocomplex) (Ok a).
Proof.
move=> k [/sh1 [n s]|[/sh2 [m [n s]]]].
  have [b [-> [kb sb hb]]] := toreal_1 k s; rewrite [bindr _ _]/=.
  have [|c [-> [kc sc hc]]] := @tocomplex_1 b n _ sb; first by rewrite kb.
  split; rewrite ?k ?sc // => idx /inb1 [j -> jn]; rewrite hc // !hb jn ltnNge leq_addr /= addKn; exact: re_im.
rewrite /len s => m0; case: m s m0 => // m s _; rewrite /=.
have [b [-> [kb sb hb]]] := toreal_2 k s; rewrite [bindr _ _]/=.
have [|c [-> [kc sc hc]]] := @tocomplex_2 b m n _ sb; first by rewrite kb.
split; rewrite ?k ?sc // => idx /inb2 [i [j [-> im jn]]]; rewrite hc // !hb jn ltnNge leq_addr /= addKn; exact: re_im.
Qed.
Theorem C01_other_ranks_rejected a : kd a = KCplx -> ndim a <> 1%N -> ndim a <> 2%N -> arraytoreal a = Err AttributeErr.
Proof. by move=> k n1 n2; rewrite /arraytoreal /iscomplexobj k /=; case: eqP => //; case: eqP. Qed.
Theorem C01_real_unchanged a : kd a <> KCplx -> arraytoreal a = Ok a.
Proof. by move=> k; rewrite /arraytoreal; case: iscomplexP. Qed.
(* The property says nothing of arrays without rows: the way back raises ValueError (np.vstack). *)
Theorem C01_zero_rows a n : kd a = KCplx -> sh a = [:: 0%N; n] ->
  bindr (arraytoreal a) arraytocomplex = Err ValueErr.
Proof.
move=> k s; have [b [-> [kb sb hb]]] := toreal_2 k s; rewrite [bindr _ _]/=.
rewrite /arraytocomplex /iscomplexobj kb /ndim sb /= half_dbl.
have [|c [-> [kc sc hc]]] := @add_same (slice 1 0 n b) (smul KCplx ii (slice 1 n (n + n) b)).
  by rewrite /slice /= sb /=; congr [:: _; _]; lia.
by apply: (@vstack0 c (minn n (n + n) - minn 0 (n + n))%N); rewrite sc /slice /= sb.
Qed.
(* the sizes of the result, for 1-D and 2-D arrays *)
Theorem C01_shapes a b : kd a = KCplx -> arraytoreal a = Ok b ->
  kd b = KReal /\ sh b = rcons (behead (belast 0%N (sh a))) (last 0%N (sh a)).*2.
Proof.
move=> k e; have [n1|n1] := eqVneq (ndim a) 1%N.
  have [n s] := sh1 n1; have [b' [e' [kb sb _]]] := toreal_1 k s.
  by move: e; rewrite e' => -[<-]; rewrite kb sb s /= addnn.
have [n2|n2] := eqVneq (ndim a) 2%N.
  have [m [n s]] := sh2 n2; have [b' [e' [kb sb _]]] := toreal_2 k s.
  by move: e; rewrite e' => -[<-]; rewrite kb sb s /= addnn.
by move: e; rewrite C01_other_ranks_rejected //; apply/eqP.
Qed.

(* ------------------------------------------------------------------ C02 *)
(* number of features *)
Definition nfeat (a : arr) := last 0%N (sh a).
(* same shape and entries (the dtype of integers becomes float) *)
Definition same_values (b a : arr) := sh b = sh a /\ forall idx, inb (sh a) idx -> at_ b idx = at_ a idx.
Theorem C02_even_round_trip r : kd r <> KCplx -> wf r -> ndim r = 1%N \/ (ndim r = 2%N /\ (0 < len r)%N) -> ~~ odd (nfeat r) ->
  exists b, [/\ bindr (arraytocomplex r) arraytoreal = Ok b, kd b = KReal & same_values b r].
Proof.
move=> k w rk; rewrite /nfeat => ev; have ev2 := odd_double_half (last 0%N (sh r)); rewrite (negbTE ev) add0n -addnn in ev2.
set n := (last _ _)./2 in ev2.
case: rk => [/sh1 [n' s]|[/sh2 [m [n' s]]]]; rewrite s [last _ _]/= in ev2.
  rewrite -ev2 in s.
  have [b [-> [kb sb hb]]] := tocomplex_1 k s; rewrite [bindr _ _]/=.
  have [c [-> [kc sc hc]]] := toreal_1 kb sb.
  have wr j : (j < n + n)%N -> Im (at_ r [:: j]) = 0 by move=> h; apply: (w k); rewrite s inb_cons inb_nil h.
  exists c; split=> //; split; rewrite ?s // => idx /inb1 [j -> jn]; rewrite hc; case: ifP => jn'.
    by rewrite hb // Re_ri ?re_real ?wr //; lia.
  rewrite hb; last by lia.
  by rewrite Im_ri; [|apply: wr; lia|apply: wr; lia]; rewrite subnKC 1?leqNgt ?jn' // re_real // wr.
rewrite /len s /= => m0; case: m s m0 => // m s _; rewrite -ev2 in s.
have [b [-> [kb sb hb]]] := tocomplex_2 k s; rewrite [bindr _ _]/=.
have [c [-> [kc sc hc]]] := toreal_2 kb sb.
have wr i j : (i < m.+1)%N -> (j < n + n)%N -> Im (at_ r [:: i; j]) = 0.
  by move=> hi h; apply: (w k); rewrite s !inb_cons inb_nil h hi.
exists c; split=> //; split; rewrite ?s // => idx /inb2 [i [j [-> im jn]]]; rewrite hc; case: ifP => jn'.
  by rewrite hb // Re_ri ?re_real ?wr //; lia.
rewrite hb; [|by lia|by lia].
by rewrite Im_ri; [|apply: wr; lia|apply: wr; lia]; rewrite subnKC 1?leqNgt ?jn' // re_real // wr.
Qed.
(* results of arraytoreal on complex arrays have an even number of features *)
Theorem C02_image_is_even a b : kd a = KCplx -> arraytoreal a = Ok b -> ~~ odd (nfeat b).
Proof. by move=> k /(C01_shapes k) [_ e]; rewrite /nfeat e last_rcons odd_double. Qed.
(* odd feature counts other than 1 and 3 are rejected *)
Theorem C02_odd_rejected_partial r : kd r <> KCplx -> ndim r = 1%N \/ ndim r = 2%N -> odd (nfeat r) -> nfeat r <> 1%N -> nfeat r <> 3%N ->
  arraytocomplex r = Err ValueErr.
Proof.
move=> k rk; rewrite /arraytocomplex; case: iscomplexP => // _; rewrite [~~ _]/=.
case: rk => [/sh1 [n s]|/sh2 [m [n s]]]; rewrite /nfeat /ndim /len s [last _ _]/= [size _]/= => od n1 n3.
  rewrite eqxx /add /broadcast2 /= s /= /bshape /pad /= /bdim.
  by have -> : (minn n./2 n - minn 0 n == minn n n - minn n./2 n)%N = false; [lia|];
     have -> : (minn n./2 n - minn 0 n == 1)%N = false; [lia|];
     have -> : (minn n n - minn n./2 n == 1)%N = false; [lia|].
rewrite /= /add /broadcast2 /= s /= /bshape /pad /= bdimxx /bdim.
by have -> : (minn n./2 n - minn 0 n == minn n n - minn n./2 n)%N = false; [lia|];
   have -> : (minn n./2 n - minn 0 n == 1)%N = false; [lia|];
   have -> : (minn n n - minn n./2 n == 1)%N = false; [lia|].
Qed.
(* 3 features: silently reinterpreted as 2 complex features; 1 feature: as 0 *)
Theorem C02_odd_accepted_refuted :
  (forall x y z : R, exists b, [/\ arraytocomplex (of_cv KReal (\col_(i < 3) R2C (nth 0 [:: x; y; z] i))) = Ok b,
     sh b = [:: 2%N], at_ b [:: 0%N] = Complex x y & at_ b [:: 1%N] = Complex x z]) /\
  (forall x : R, exists b, arraytocomplex (of_cv KReal (\col_(i < 1) R2C x)) = Ok b /\ sh b = [:: 0%N]) /\
  (forall m (X : 'M[C]_(m.+1, 3)), exists b, arraytocomplex (of_mx KReal X) = Ok b /\ sh b = [:: m.+1; 2%N]).
Proof.
have ri (a b : R) : R2C a + ii * R2C b = Complex a b := re_im (Complex a b).
split=> [x y z|]; last split=> [x|m X].
- by eexists; split; [reflexivity| |rewrite -[RHS]ri|rewrite -[RHS]ri]; rewrite //= !insubT //= !mxE.
- by eexists; split; [reflexivity|].
- rewrite /arraytocomplex /= /add /broadcast2 /= /bshape /pad /= bdimxx /=.
  by set c := Arr _ _ _; have [//|b [-> [_ sb _]]] := @vstackS c m 2; exists b.
Qed.

(* ------------------------------------------------------------------ C03 *)
Lemma half2 : (2%:R^-1 : R) * 2%:R = 1. Proof. by rewrite mulVf // pnatr_eq0. Qed.
Lemma cov_back (z : C) : R2C 2%:R * (R2C 2%:R^-1 * R2C (Re z)) + Complex 0 2%:R * (R2C 2%:R^-1 * R2C (Im z)) = z.
Proof.
move: half2; move: (2%:R^-1 : R) (2%:R : R) => h t e; case: z => a b; rewrite /R2C /GRing.mul /= /GRing.add /=.
by congr Complex; rewrite -[RHS]mul1r -[in RHS]e; rring.
Qed.
Theorem C03_complex_round_trip a p : kd a = KCplx -> sh a = [:: p; p] ->
  same_res (bindr (covariancetoreal a) covariancetocomplex) (Ok a).
Proof.
move=> k s; have [b [-> [kb sb hb]]] := covtoreal k s; rewrite [bindr _ _]/=.
have [|c [-> [kc sc hc]]] := @covtocomplex b p _ sb; first by rewrite kb.
split; rewrite ?k ?sc ?s // => idx /inb2 [i [j [-> im jn]]]; rewrite hc // !hb; [|by lia..].
rewrite im jn ltnNge leq_addr /= addKn; exact: cov_back.
Qed.
(* [[P, -Q], [Q, P]] with p x p blocks *)
Definition block_form p (a : arr) := forall i j, (i < p)%N -> (j < p)%N ->
  at_ a [:: (p + i)%N; (p + j)%N] = at_ a [:: i; j] /\ at_ a [:: i; (p + j)%N] = - at_ a [:: (p + i)%N; j].
Lemma half_re (x y : C) : Im x = 0 -> Im y = 0 -> R2C 2%:R^-1 * R2C (Re (R2C 2%:R * x + Complex 0 2%:R * y)) = x.
Proof.
move: half2; move: (2%:R^-1 : R) (2%:R : R) => h t e; case: x => a b; case: y => c d /= -> ->; rewrite /R2C /GRing.mul /= /GRing.add /=.
by congr Complex; [rewrite -[RHS]mul1r -[in RHS]e|]; rring.
Qed.
Lemma half_im (x y : C) : Im x = 0 -> Im y = 0 -> R2C 2%:R^-1 * R2C (Im (R2C 2%:R * x + Complex 0 2%:R * y)) = y.
Proof.
move: half2; move: (2%:R^-1 : R) (2%:R : R) => h t e; case: x => a b; case: y => c d /= -> ->; rewrite /R2C /GRing.mul /= /GRing.add /=.
by congr Complex; [rewrite -[RHS]mul1r -[in RHS]e|]; rring.
Qed.
Theorem C03_real_round_trip a p : kd a = KReal -> wf a -> sh a = [:: (p + p)%N; (p + p)%N] ->
  (same_res (bindr (covariancetocomplex a) covariancetoreal) (Ok a) <-> block_form p a).
Proof.
move=> k w s; have [|b [-> [kb sb hb]]] := @covtocomplex a p _ s; first by rewrite k.
have [c [ec [kc sc hc]]] := covtoreal kb sb; rewrite [bindr _ _]/= ec.
have wr i j : (i < p + p)%N -> (j < p + p)%N -> Im (at_ a [:: i; j]) = 0.
  by move=> hi hj; apply: w; rewrite ?k // s !inb_cons inb_nil hi hj.
have c1 i j : (i < p)%N -> (j < p)%N -> at_ c [:: i; j] = at_ a [:: i; j].
  by move=> ip jp; rewrite hc ?ip ?jp ?hb ?half_re ?wr //; lia.
have c2 i j : (i < p)%N -> (j < p)%N -> at_ c [:: (p + i)%N; j] = at_ a [:: (p + i)%N; j].
  by move=> ip jp; rewrite hc ?jp ltnNge ?leq_addr ?addKn /= ?hb ?half_im ?wr //; lia.
have c3 i j : (i < p)%N -> (j < p)%N -> at_ c [:: i; (p + j)%N] = - at_ a [:: (p + i)%N; j].
  by move=> ip jp; rewrite hc ?ip ?[(p + j < p)%N]ltnNge ?leq_addr ?addKn /= ?mulrN ?hb ?half_im ?wr //; lia.
have c4 i j : (i < p)%N -> (j < p)%N -> at_ c [:: (p + i)%N; (p + j)%N] = at_ a [:: i; j].
  by move=> ip jp; rewrite hc ?[(p + _ < p)%N]ltnNge ?leq_addr ?addKn /= ?hb ?half_re ?wr //; lia.
split=> [[_ _ h] i j ip jp|bf].
  split; [rewrite -(c4 _ _ ip jp) | rewrite -(c3 _ _ ip jp)]; rewrite h // sc !inb_cons inb_nil eqxx; lia.
split; rewrite ?k ?kc ?sc ?s // => idx /inb2 [i [j [-> ip jp]]].
have [ip'|ip'] := ltnP i p; have [jp'|jp'] := ltnP j p.
- exact: c1.
- rewrite -(subnKC jp'); have [|_ ->] := bf i (j - p)%N ip'; first lia; apply: c3; lia.
- rewrite -(subnKC ip'); apply: c2; lia.
- rewrite -(subnKC ip') -(subnKC jp'); have [||-> _] := bf (i - p)%N (j - p)%N; [lia..|]; apply: c4; lia.
Qed.
Theorem C03_unchanged a : (kd a <> KCplx -> covariancetoreal a = Ok a) /\ (kd a = KCplx -> covariancetocomplex a = Ok a).
Proof.
by split=> k; rewrite /covariancetoreal /covariancetocomplex; case: iscomplexP.
Qed.
Theorem C03_rejected a :
  (kd a = KCplx -> ~ (exists p, sh a = [:: p; p]) -> covariancetoreal a = Err AttributeErr) /\
  (kd a <> KCplx -> ~ (exists p, sh a = [:: (p + p)%N; (p + p)%N]) -> covariancetocomplex a = Err AttributeErr).
Proof.
split=> k n; rewrite /covariancetoreal /covariancetocomplex; case: iscomplexP => // _ /=; rewrite /iscovariance /ndim /len.
  case: eqP => // e; have [m [m' s]] := sh2 e; rewrite s /=; case: eqP => // mm; case: n; exists m; by rewrite s -mm.
case: eqP => // e; have [m [m' s]] := sh2 e; rewrite s /=; case: eqP => // mm; case: ifP => //= ev; case: n; exists m./2.
by rewrite s -mm; congr [:: _; _]; lia.
Qed.

(* ------------------------------------------------------------------ C04 *)
(* Rm = covariancetoreal(S), z = arraytoreal(x), as matrices *)
Definition real_cov p (S : 'M[C]_p) (Rm : 'M[R]_(p + p)) :=
  same_res (covariancetoreal (of_mx KCplx S)) (Ok (of_mx KReal (map_mx R2C Rm))).
Definition real_vec p (x : 'cV[C]_p) (z : 'cV[R]_(p + p)) :=
  same_res (arraytoreal (of_cv KCplx x)) (Ok (of_cv KReal (map_mx R2C z))).
Lemma ord_inb2 m n (i : 'I_m) (j : 'I_n) : inb [:: m; n] [:: nat_of_ord i; nat_of_ord j].
Proof. by rewrite !inb_cons inb_nil eqxx !ltn_ord. Qed.
Lemma R2C_inj : injective R2C. Proof. by move=> x y []. Qed.
Lemma R2CM (x y : R) : R2C x * R2C y = R2C (x * y).
Proof. by rewrite /R2C /GRing.mul /=; congr Complex; rring. Qed.
Lemma R2CN (x : R) : - R2C x = R2C (- x).
Proof. by rewrite /R2C /GRing.opp /=; congr Complex; rewrite -RoppE; rring. Qed.
Lemma real_cov_half p (S : 'M[C]_p) : real_cov S (2%:R^-1 *: rep (S : 'M[complex_sf]_p)).
Proof.
have [b [e [kb sb hb]]] := @covtoreal (of_mx KCplx S) p erefl erefl; rewrite /real_cov e.
split; rewrite ?kb ?sb // => idx /inb2 [i [j [-> ip jp]]]; rewrite hb //.
have atS (k : kind) (u v : 'I_p) : at_ (of_mx k S) [:: nat_of_ord u; nat_of_ord v] = S u v by exact: at_of_mx.
rewrite (at_of_mx _ _ (Ordinal ip) (Ordinal jp)) !mxE -R2CM; congr (_ * _); move: (atS KCplx); move: (of_mx KCplx S) => aS {}atS.
case: splitP => /= u eu; rewrite mxE; case: splitP => /= v ev; rewrite eu ev ?ltn_ord; rewrite ?[(p + _ < p)%N]ltnNge ?leq_addr ?addKn /=; rewrite !atS !mxE //.
exact: R2CN.
Qed.
Lemma real_covE p (S : 'M[C]_p) Rm : real_cov S Rm -> Rm = 2%:R^-1 *: rep (S : 'M[complex_sf]_p).
Proof.
have := real_cov_half S; rewrite /real_cov; case: (covariancetoreal _) => // b [_ sb hb] [_ _ hb'].
apply/matrixP => i j; apply: R2C_inj; have I : inb (sh b) [:: nat_of_ord i; nat_of_ord j] by rewrite sb; exact: ord_inb2.
by have := hb _ I; rewrite hb' // !at_of_mx !mxE.
Qed.
Lemma real_vec_rvec p (x : 'cV[C]_p) : real_vec x (rvec (x : 'cV[complex_sf]_p)).
Proof.
have [b [e [kb sb hb]]] := @toreal_1 (of_cv KCplx x) p erefl erefl; rewrite /real_vec e.
split; rewrite ?kb ?sb // => idx /inb1 [i -> ip]; rewrite hb (at_of_cv _ _ (Ordinal ip)) !mxE.
case: splitP => /= u eu; rewrite eu ?ltn_ord; rewrite ?[(p + _ < p)%N]ltnNge ?leq_addr ?addKn /=; by rewrite valK !mxE.
Qed.
Lemma real_vecE p (x : 'cV[C]_p) z : real_vec x z -> z = rvec (x : 'cV[complex_sf]_p).
Proof.
have := real_vec_rvec x; rewrite /real_vec; case: (arraytoreal _) => // b [_ sb hb] [_ _ hb'].
apply/matrixP => i j; rewrite (ord1 j); apply: R2C_inj; have I : inb (sh b) [:: nat_of_ord i].
  by rewrite sb inb_cons inb_nil eqxx andbT; exact: ltn_ord.
by have := hb _ I; rewrite hb' // !at_of_cv !mxE.
Qed.

Theorem C04_defined p (S : 'M[C]_p) (x : 'cV[C]_p) : (exists Rm, real_cov S Rm) /\ (exists z, real_vec x z).
Proof. by split; [exists (2%:R^-1 *: rep (S : 'M[complex_sf]_p)); apply: real_cov_half | exists (rvec (x : 'cV[complex_sf]_p)); apply: real_vec_rvec]. Qed.
Lemma half_gt0 : 0 < (2%:R^-1 : R). Proof. by rewrite invr_gt0 ltr0n. Qed.
Lemma half_neq0 : (2%:R^-1 : R) != 0. Proof. by rewrite gt_eqF ?half_gt0. Qed.
Lemma pdZ' (K : starField) n c (A : 'M[K]_n) : 0 < c -> (pd (c *: A) <-> pd A).
Proof.
move=> c0; split=> [h|]; last exact: pdZ.
have e : A = c^-1 *: (c *: A) by rewrite scalerA mulVf ?scale1r // gt_eqF.
by rewrite e; apply: pdZ; rewrite ?invr_gt0.
Qed.

Lemma cabs2 (z : C) : cabs z ^+ 2 = @toR complex_sf (z * @cj complex_sf z).
Proof.
rewrite expr2 /cabs sqrtR_sqr; last by rewrite addr_ge0 // -expr2 sqr_ge0.
case: z => a b /=; rewrite /GRing.mul /=; rring.
Qed.
Section C04.
Variable p : nat.
Implicit Types (S : 'M[C]_p) (x : 'cV[C]_p) (Rm : 'M[R]_(p + p)) (z : 'cV[R]_(p + p)).
Let cpx n m (A : 'M[C]_(n, m)) : 'M[complex_sf]_(n, m) := A.
Let rl n m (A : 'M[R]_(n, m)) : 'M[real_sf]_(n, m) := A.
Theorem C04_symmetric_iff_hermitian S Rm : real_cov S Rm -> (Rm^T = Rm <-> herm (cpx S)).
Proof.
move=> /real_covE ->; have -> : (2%:R^-1 *: rep (cpx S))^T = 2%:R^-1 *: (rep (cpx S))^T by rewrite linearZ.
by rewrite -(rep_herm (cpx S)) /herm adj_real; split=> [/(scalerI half_neq0) //|->].
Qed.
Theorem C04_quadratic_form S Rm x z : real_cov S Rm -> real_vec x z ->
  (z^T *m Rm *m z) 0 0 = 2%:R^-1 * Re (qf (cpx S) (cpx x)).
Proof. by move=> /real_covE -> /real_vecE ->; rewrite -scalemxAr -scalemxAl mxE rvec_qf mxE. Qed.
Theorem C04_definite_iff S Rm : real_cov S Rm -> (pd (rl Rm) <-> pd (cpx S)) /\ (psd (rl Rm) <-> psd (cpx S)).
Proof.
move=> /real_covE ->; split; first by rewrite -(rep_pd (cpx S)); apply: pdZ'; exact: half_gt0.
rewrite -(rep_psd (cpx S)); split=> h; last by apply: psdZ => //; exact: (ltW half_gt0).
have e : rep (cpx S) = 2%:R *: (2%:R^-1 *: rep (cpx S)) by rewrite scalerA mulrC half2 scale1r.
by rewrite e; apply: (@psdZ real_sf) => //; exact: ler0n.
Qed.
Theorem C04_linear S T Rm Tm (c : R) : real_cov S Rm -> real_cov T Tm ->
  real_cov (S + T) (Rm + Tm) /\ real_cov (R2C c *: S) (c *: Rm).
Proof.
move=> /real_covE -> /real_covE ->; split.
  by rewrite -scalerDr -repD; apply: real_cov_half.
have := real_cov_half (R2C c *: S); rewrite (repZ c (cpx S)) scalerA mulrC -scalerA; apply.
Qed.
Theorem C04_determinant S Rm : real_cov S Rm -> \det Rm = 2%:R ^- (2 * p) * cabs (\det (cpx S)) ^+ 2.
Proof. by move=> /real_covE ->; rewrite detZ det_rep addnn mul2n -exprVn cabs2. Qed.
Theorem C04_inverse S Rm x z : real_cov S Rm -> real_vec x z -> cpx S \in unitmx ->
  Rm \in unitmx /\ (z^T *m invmx Rm *m z) 0 0 = 2%:R * Re (qf (invmx (cpx S)) (cpx x)).
Proof.
move=> /real_covE -> /real_vecE -> uS; have uR := rep_unit uS.
split; first by rewrite unitmxZ // unitfE half_neq0.
rewrite invmxZ ?unitmxZ ?unitfE ?half_neq0 // invrK rep_inv // -scalemxAr -scalemxAl mxE rvec_qf mxE //.
Qed.
End C04.

(* ------------------------------------------------------------------ C05 *)
Lemma fill_ok f a s n out k m : sh out = n :: s -> (k + m <= n)%N ->
  (forall i, (k <= i < k + m)%N -> exists v, [/\ f (sub a i) = Ok v, sh v = s &
     forall idx, inb s idx -> cast (kd out) (kd v) (at_ v idx) = at_ v idx]) ->
  exists b, [/\ fill f a (iota k m) out = Ok b, kd b = kd out, sh b = n :: s,
    forall i v idx, (k <= i < k + m)%N -> f (sub a i) = Ok v -> inb s idx -> at_ b (i :: idx) = at_ v idx &
    forall i idx, (i < k)%N -> at_ b (i :: idx) = at_ out (i :: idx)].
Proof.
elim: m k out => [|m IH] k out so km H; first by exists out; split=> // i v idx; lia.
have [|v [ev sv cv]] := H k; first lia.
rewrite /= ev /= /set_sub so /= sv bshapexx eqxx.
set out' := Arr _ _ _; have [|||b [eb kb sb hb1 hb2]] := IH k.+1 out'.
- by [].
- by lia.
- move=> i ki; have [|w [ew sw cw]] := H i; [lia | exists w; split=> //].
exists b; split=> //.
- move=> i w idx ki ew ii; have [ik|ik] := eqVneq i k; last by apply: hb1 => //; lia.
  rewrite hb2 ?ik // /out' /= eqxx; move: ew; rewrite ik ev => -[<-].
  by rewrite bidx_id ?sv // cv.
- by move=> i idx ik; rewrite hb2 /out' /=; [case: eqP => //; lia|lia].
Qed.
Lemma covtoreal_real a p b idx : kd a = KCplx -> sh a = [:: p; p] -> covariancetoreal a = Ok b ->
  inb [:: (p + p)%N; (p + p)%N] idx -> R2C (Re (at_ b idx)) = at_ b idx.
Proof.
move=> k s e /inb2 [i [j [-> ip jp]]]; have [c [e' [_ _ hc]]] := covtoreal k s; move: e; rewrite e' => -[<-].
rewrite hc // re_real //; do 2 case: ifP => _; rewrite ?R2CN R2CM //.
Qed.
Theorem C05_stack_toreal a n p : kd a = KCplx -> sh a = [:: n; p; p] ->
  exists b, [/\ covariancestoreal a = Ok b, kd b = KReal, sh b = [:: n; (p + p)%N; (p + p)%N] &
    forall i, (i < n)%N -> same_res (covariancetoreal (sub a i)) (Ok (sub b i))].
Proof.
move=> k s; rewrite /covariancestoreal /iscomplexobj k /= /ndim s /= mul2n -addnn.
have ks i : kd (sub a i) = KCplx by [].
have ss i : sh (sub a i) = [:: p; p] by rewrite /= s.
have [|||b [-> kb sb hb _]] := @fill_ok covariancetoreal a [:: (p + p)%N; (p + p)%N] n (np_zeros KReal [:: n; p + p; p + p]%N) 0 n.
- by [].
- by [].
- move=> i _; have [v [ev [kv sv hv]]] := covtoreal (ks i) (ss i); exists v; split=> // idx; exact: (covtoreal_real (ks i) (ss i) ev).
exists b; split=> // i ni; have [v [ev [kv sv hv]]] := covtoreal (ks i) (ss i); rewrite ev.
by split; rewrite /= ?kb ?sb // sv => idx ii; rewrite (hb _ _ _ _ ev).
Qed.
Theorem C05_stack_tocomplex a n p : kd a <> KCplx -> sh a = [:: n; (p + p)%N; (p + p)%N] ->
  exists b, [/\ covariancestocomplex a = Ok b, kd b = KCplx, sh b = [:: n; p; p] &
    forall i, (i < n)%N -> same_res (covariancetocomplex (sub a i)) (Ok (sub b i))].
Proof.
move=> k s; rewrite /covariancestocomplex; case: iscomplexP => // _; rewrite /ndim s [size _]/= [nth _ _ _]/= half_dbl.
have -> : (3 == 3)%N && ((p + p) %% 2 == 0)%N by rewrite addnn -mul2n modnMr.
have ks i : kd (sub a i) <> KCplx by [].
have ss i : sh (sub a i) = [:: (p + p)%N; (p + p)%N] by rewrite /= s.
rewrite [nth _ _ _]/=.
have [|||b [-> kb sb hb _]] := @fill_ok covariancetocomplex a [:: p; p] n (np_zeros KCplx [:: n; p; p]%N) 0 n.
- by [].
- by [].
- by move=> i _; have [v [ev [kv sv hv]]] := covtocomplex (ks i) (ss i); exists v; split=> // idx.
exists b; split=> // i ni; have [v [ev [kv sv hv]]] := covtocomplex (ks i) (ss i); rewrite ev.
by split; rewrite /= ?kb ?sb // sv => idx ii; rewrite (hb _ _ _ _ ev).
Qed.
Theorem C05_stack_round_trip a n p : kd a = KCplx -> sh a = [:: n; p; p] ->
  same_res (bindr (covariancestoreal a) covariancestocomplex) (Ok a).
Proof.
move=> k s; have [b [-> kb sb hb]] := C05_stack_toreal k s; rewrite [bindr _ _]/=.
have kb' : kd b <> KCplx by rewrite kb.
have [c [-> kc sc hc]] := C05_stack_tocomplex kb' sb.
split; rewrite ?k ?sc ?s // => idx /inb3 [m [i [j [-> mn ip jp]]]].
have ib u v : (u < p)%N -> (v < p)%N -> inb [:: p; p] [:: u; v] by move=> h1 h2; rewrite !inb_cons inb_nil h1 h2.
have ib2 u v : (u < p + p)%N -> (v < p + p)%N -> inb [:: (p + p)%N; (p + p)%N] [:: u; v] by move=> h1 h2; rewrite !inb_cons inb_nil h1 h2.
have := hc m mn; have [|v [-> [_ sv hv]]] := @covtocomplex (sub b m) p kb'; first by rewrite /= sb.
case=> _ _ /(_ [:: i; j]); rewrite sv ib // => /(_ isT) /= <-; rewrite hv //=.
have := hb m mn; have [||w [-> [_ sw hw]]] := @covtoreal (sub a m) p; rewrite /= ?s //.
case=> _ _ h; have hh u t : (u < p + p)%N -> (t < p + p)%N -> at_ b [:: m; u; t] = at_ w [:: u; t].
  by move=> h1 h2; rewrite h ?sw ?ib2.
rewrite !hh ?hw; try lia.
rewrite ip jp ltnNge leq_addr /= addKn; exact: cov_back.
Qed.
Theorem C05_unchanged a : (kd a <> KCplx -> covariancestoreal a = Ok a) /\ (kd a = KCplx -> covariancestocomplex a = Ok a).
Proof. by split=> k; rewrite /covariancestoreal /covariancestocomplex; case: iscomplexP. Qed.
Theorem C05_other_ranks_rejected a : ndim a <> 3%N ->
  (kd a = KCplx -> covariancestoreal a = Err AttributeErr) /\ (kd a <> KCplx -> covariancestocomplex a = Err AttributeErr).
Proof. by move=> n; split=> k; rewrite /covariancestoreal /covariancestocomplex; case: iscomplexP => //=; case: eqP. Qed.
(* stacks of non-square (or odd-size real) matrices, with at least one matrix *)
Theorem C05_bad_matrices_rejected a n p q : sh a = [:: n.+1; p; q] ->
  (kd a = KCplx -> p <> q -> covariancestoreal a = Err AttributeErr) /\
  (kd a <> KCplx -> p <> q \/ odd p -> covariancestocomplex a = Err AttributeErr).
Proof.
move=> s; split=> k h; rewrite /covariancestoreal /covariancestocomplex; case: iscomplexP => //= _; rewrite /ndim s /=.
  by rewrite /covariancetoreal /iscomplexobj /= k /= /iscovariance /ndim /= s /=; case: eqP.
case: ifP => // ev; rewrite /= /covariancetocomplex; case: iscomplexP => //= _.
by rewrite /iscovariance /ndim /= s /=; case: eqP => //= pq; case: h => // h; lia.
Qed.

(* ------------------------------------------------------------------ C07 *)
Lemma cabs_ge0 z : 0 <= cabs z. Proof. exact: sqrtR_ge0. Qed.
Lemma cabs_cj z : cabs (conjc z) = cabs z.
Proof. by case: z => a b; rewrite /cabs /= mulrNN. Qed.
Lemma cabs0 : cabs 0 = 0.
Proof. by rewrite /cabs /= mulr0 addr0; exact: sqrt_0. Qed.
Lemma allclose_same a b s rtol atol : sh a = s -> sh b = s ->
  allclose a b rtol atol = Ok (all_idx s (fun i => cabs (at_ a i - at_ b i) <= atol + rtol * cabs (at_ b i))).
Proof.
move=> sa sb; rewrite /allclose sa sb bshapexx; congr Ok.
by apply/idP/idP => /all_idxP h; apply/all_idxP => idx ib; have := h _ ib; rewrite ?(@bidx_id s).
Qed.
(* what the checks decide on square matrices *)
Theorem C07_square_matrices a n rtol atol : sh a = [:: n; n] ->
  (exists2 b, check_Hermitian a rtol atol = Ok b & (b <-> forall i j, (i < n)%N -> (j < n)%N ->
     cabs (at_ a [:: i; j] - conjc (at_ a [:: j; i])) <= atol + rtol * cabs (at_ a [:: j; i]))) /\
  (exists2 b, check_Symmetric a rtol atol = Ok b & (b <-> forall i j, (i < n)%N -> (j < n)%N ->
     cabs (at_ a [:: i; j] - at_ a [:: j; i]) <= atol + rtol * cabs (at_ a [:: j; i]))).
Proof.
move=> s; split; [rewrite /check_Hermitian | rewrite /check_Symmetric]; rewrite (@allclose_same _ _ [:: n; n]) ?s //; try (by rewrite /= s);
  eexists; try reflexivity; split=> [/all_idxP h i j im jn|h].
- by have := h [:: i; j]; rewrite /= !inb_cons inb_nil im jn cabs_cj; apply.
- by apply/all_idxP => idx /inb2 [i [j [-> im jn]]]; rewrite /= cabs_cj; apply: h.
- by have := h [:: i; j]; rewrite /= !inb_cons inb_nil im jn; apply.
- by apply/all_idxP => idx /inb2 [i [j [-> im jn]]]; apply: h.
Qed.
Theorem C07_exact_accepted a n rtol atol : sh a = [:: n; n] -> 0 <= rtol -> 0 <= atol ->
  ((forall i j, (i < n)%N -> (j < n)%N -> at_ a [:: i; j] = conjc (at_ a [:: j; i])) -> check_Hermitian a rtol atol = Ok true) /\
  ((forall i j, (i < n)%N -> (j < n)%N -> at_ a [:: i; j] = at_ a [:: j; i]) -> check_Symmetric a rtol atol = Ok true).
Proof.
move=> s r0 a0; have [[b -> hb] [c -> hc]] := C07_square_matrices rtol atol s.
by split=> h; congr Ok; [apply/hb | apply/hc] => i j im jn; rewrite -h // subrr cabs0 addr_ge0 // mulr_ge0 ?cabs_ge0.
Qed.
(* non-square matrices without a dimension of size 1 raise *)
Theorem C07_nonsquare_partial a m n rtol atol : sh a = [:: m; n] -> m <> n -> m <> 1%N -> n <> 1%N ->
  check_Hermitian a rtol atol = Err ValueErr /\ check_Symmetric a rtol atol = Err ValueErr.
Proof.
move=> s mn m1 n1; have b : bshape [:: m; n] [:: n; m] = None.
  by rewrite /bshape /pad /= /bdim; move/eqP/negbTE: mn => ->; move/eqP/negbTE: m1 => ->; move/eqP/negbTE: n1 => ->.
by split; rewrite /check_Hermitian /check_Symmetric /allclose /= s /= [rev _]/= b.
Qed.
(* a constant row passes both checks: it is broadcast against its transpose *)
Theorem C07_nonsquare_refuted n (x rtol atol : R) : 0 <= rtol -> 0 <= atol ->
  let a := of_mx KReal (const_mx (R2C x) : 'M[C]_(1, n)) in
  check_Hermitian a rtol atol = Ok true /\ check_Symmetric a rtol atol = Ok true.
Proof.
move=> r0 a0 a.
have ea i : (i < n)%N -> at_ a [:: 0%N; i] = R2C x.
  by move=> h; rewrite (at_of_mx _ _ (0 : 'I_1) (Ordinal h)) mxE.
have bs : bshape [:: 1%N; n] [:: n; 1%N] = Some [:: n; n].
  by have [->//|n1] := eqVneq n 1%N; rewrite /bshape /pad /= /bdim [1%N == n]eq_sym (negbTE n1).
have sa : sh a = [:: 1%N; n] by [].
clearbody a; split; rewrite /check_Hermitian /check_Symmetric /allclose /np_cj /npT [sh (Arr _ _ _)]/= sa [rev _]/= bs; congr Ok; apply/all_idxP => idx /inb2 [i [j [-> im jn]]].
  have -> : at_ a (bidx [:: 1%N; n] [:: i; j]) = R2C x by rewrite /bidx [map _ _]/=; case: eqP => [n1|_]; apply: ea; rewrite ?n1.
  set y := at_ (Arr _ _ _) _; have -> : y = R2C x.
    by rewrite /y /bidx /=; case: eqP => [n1|_]; rewrite /= /rev /= ea ?n1 // /R2C /= oppr0.
  by rewrite subrr cabs0 addr_ge0 // mulr_ge0 ?cabs_ge0.
have -> : at_ a (bidx [:: 1%N; n] [:: i; j]) = R2C x by rewrite /bidx [map _ _]/=; case: eqP => [n1|_]; apply: ea; rewrite ?n1.
set y := at_ (Arr _ _ _) _; have -> : y = R2C x.
  by rewrite /y /bidx /=; case: eqP => [n1|_]; rewrite /= /rev /= ea ?n1.
by rewrite subrr cabs0 addr_ge0 // mulr_ge0 ?cabs_ge0.
Qed.
(* one-dimensional arrays always pass the symmetry check *)
Theorem C07_vector_refuted a n rtol atol : sh a = [:: n] -> 0 <= rtol -> 0 <= atol -> check_Symmetric a rtol atol = Ok true.
Proof.
move=> s r0 a0; rewrite /check_Symmetric /allclose /= s bshapexx; congr Ok; apply/all_idxP => idx ib.
have [i -> _] := inb1 ib; rewrite /= subrr cabs0 addr_ge0 // mulr_ge0 ?cabs_ge0 //.
Qed.

(* ------------------------------------------------------------------ examples *)
Definition ex_S : 'M[C]_2 := \matrix_(i, j) (if i == j then R2C 2%:R else if (i < j)%N then Complex 1 1 else Complex 1 (- 1)).
(* complex data and stacks: C01, C05 *)
Example C01_ex : kd (of_mx KCplx ex_S) = KCplx /\ ndim (of_mx KCplx ex_S) = 2%N /\ (0 < len (of_mx KCplx ex_S))%N /\
  exists b, arraytoreal (of_mx KCplx ex_S) = Ok b /\ sh b = [:: 2; 4]%N /\ at_ b [:: 0; 3]%N = R2C 1.
Proof.
split=> //; split=> //; split=> //; have [b [-> [_ sb hb]]] := @toreal_2 (of_mx KCplx ex_S) 2 2 erefl erefl.
exists b; split=> //; split=> //; rewrite hb /= !insubT //= mxE //=.
Qed.
(* a real array of block form, from a complex matrix: C02, C03 *)
Example C03_ex : exists a, [/\ kd a = KReal, wf a, sh a = [:: 4; 4]%N, block_form 2 a & ~~ odd (nfeat a)].
Proof.
have [b [e [kb sb hb]]] := @covtoreal (of_mx KCplx ex_S) 2 erefl erefl.
have w : wf b by move=> _ idx; rewrite sb => ib; rewrite -(@covtoreal_real (of_mx KCplx ex_S) 2 b idx).
exists b; split=> //; last by rewrite /nfeat sb.
have kb' : kd b <> KCplx by rewrite kb.
apply/(C03_real_round_trip kb w sb).
have := @C03_complex_round_trip (of_mx KCplx ex_S) 2 erefl erefl.
rewrite e [bindr _ _]/=; have [c [-> [kc sc hc]]] := covtocomplex kb' sb; case=> k' s' hS.
have [d [ed [kd' sd hd]]] := covtoreal kc sc; rewrite [bindr _ _]/= ed; split; rewrite ?kd' ?sd ?sb // => idx /inb2 [i [j [-> ip jp]]].
have cS u v : (u < 2)%N -> (v < 2)%N -> at_ c [:: u; v] = at_ (of_mx KCplx ex_S) [:: u; v].
  by move=> h1 h2; apply: hS; rewrite sc !inb_cons inb_nil h1 h2.
by rewrite hd // hb //; do 2 case: ifP => ?; rewrite cS //; lia.
Qed.
(* a complex Hermitian positive definite matrix: C04, C07 *)
Example C04_ex : exists S : 'M[complex_sf]_3, [/\ pd S, map_mx (@cj complex_sf) S <> S &
  forall i j, (i < 3)%N -> (j < 3)%N -> at_ (of_mx KCplx S) [:: i; j] = conjc (at_ (of_mx KCplx S) [:: j; i])].
Proof.
exists (ToeplitzMatrix (Complex 0 2%:R^-1 : complex_sf) 3); split; first exact: C61_ex.
  move=> /matrixP /(_ 0 1); rewrite !mxE /= => -[]; rewrite ?mul1r ?mulr1 ?oppr0 => /eqP.
  by rewrite opprK -subr_eq0 opprK -mulr2n mulrn_eq0 invr_eq0 pnatr_eq0.
move=> i j ip jp; have [/matrixP /(_ (Ordinal ip) (Ordinal jp)) h _] := C61_ex; rewrite adjE in h.
by rewrite (at_of_mx _ _ (Ordinal ip) (Ordinal jp)) (at_of_mx _ _ (Ordinal jp) (Ordinal ip)) -h.
Qed.

Print Assumptions C01_round_trip.
Print Assumptions C01_other_ranks_rejected.
Print Assumptions C01_real_unchanged.
Print Assumptions C01_zero_rows.
Print Assumptions C01_shapes.
Print Assumptions C02_even_round_trip.
Print Assumptions C02_image_is_even.
Print Assumptions C02_odd_rejected_partial.
Print Assumptions C02_odd_accepted_refuted.
Print Assumptions C03_complex_round_trip.
Print Assumptions C03_real_round_trip.
Print Assumptions C03_unchanged.
Print Assumptions C03_rejected.
Print Assumptions C04_defined.
Print Assumptions C04_symmetric_iff_hermitian.
Print Assumptions C04_quadratic_form.
Print Assumptions C04_definite_iff.
Print Assumptions C04_linear.
Print Assumptions C04_determinant.
Print Assumptions C04_inverse.
Print Assumptions C05_stack_toreal.
Print Assumptions C05_stack_tocomplex.
Print Assumptions C05_stack_round_trip.
Print Assumptions C05_unchanged.
Print Assumptions C05_other_ranks_rejected.
Print Assumptions C05_bad_matrices_rejected.
Print Assumptions C07_square_matrices.
Print Assumptions C07_exact_accepted.
Print Assumptions C07_nonsquare_partial.
Print Assumptions C07_nonsquare_refuted.
Print Assumptions C07_vector_refuted.
