(* Lemmas on the models of SciPy's distributions and of probability.py. *)
From Coq Require Import Reals ClassicalEpsilon.
From mathcomp Require Import all_ssreflect all_algebra.
From mathcomp Require Import complex zify.
From Verif Require Import RealsMC RealTac Star StarInst FunCalc RealRep Model_featurearray Model_linalg Props_linalg Model_covariance Spec_covariance Proofs_cost
  NpArray Proofs_numpy Model_mappings Proofs_mappings Props_mappings Model_scipy Model_probability.
Set Implicit Arguments.
Unset Strict Implicit.
Unset Printing Implicit Defensive.
Local Open Scope ring_scope.
Import GRing.Theory Num.Theory Order.TTheory.
Local Notation Re := (@complex.Re R).
Local Notation Im := (@complex.Im R).

(* R2C is a ring morphism *)
Lemma R2C_0 : R2C 0 = 0. Proof. by []. Qed.
Lemma R2C_D a b : R2C (a + b) = R2C a + R2C b. Proof. by rewrite /R2C [RHS]/GRing.add /= addr0. Qed.
Lemma R2C_N a : R2C (- a) = - R2C a. Proof. by rewrite /R2C [RHS]/GRing.opp /= oppr0. Qed.
Lemma R2C_B a b : R2C (a - b) = R2C a - R2C b. Proof. by rewrite R2C_D R2C_N. Qed.
Lemma R2C_M a b : R2C (a * b) = R2C a * R2C b.
Proof. by rewrite /R2C [RHS]/GRing.mul /= mulr0 subr0 mul0r mulr0 addr0. Qed.
Lemma R2C_sum n (F : 'I_n -> R) : R2C (\sum_i F i) = \sum_i R2C (F i).
Proof. exact: (big_morph R2C R2C_D R2C_0). Qed.

(* a vector of n results as SciPy returns it *)
Definition vals_idx (n : nat) (i : nat) : seq nat := if n == 1%N then [::] else [:: i].
Definition values_of n (g : 'I_n -> R) (v : arr) : Prop :=
  [/\ kd v = KReal, sh v = (if n == 1%N then [::] else [:: n]) & forall i : 'I_n, at_ v (vals_idx n i) = R2C (g i)].
(* x holds the samples of Xr: rows, or one vector *)
Definition rows_of n d (Xr : 'M[R]_(n, d)) (x : arr) : Prop :=
  [/\ kd x = KReal, sh x = [:: n; d] & forall (i : 'I_n) (k : 'I_d), at_ x [:: nat_of_ord i; nat_of_ord k] = R2C (Xr i k)].
Definition vec_of d (m : 'cV[R]_d) (a : arr) : Prop :=
  [/\ kd a = KReal, sh a = [:: d] & forall k : 'I_d, at_ a [:: nat_of_ord k] = R2C (m k 0)].

Lemma mahalanobis_gen n d (P : 'M[R]_d) (Xr : 'M[R]_(n, d)) m x mean : sh x = [:: n; d] ->
  (forall (i : 'I_n) (k : 'I_d), at_ x [:: nat_of_ord i; nat_of_ord k] = R2C (Xr i k)) -> vec_of m mean ->
  exists q, mahalanobis P x mean = Ok q /\ [/\ kd q = kmax (kd x) KReal, sh q = [:: n] &
    forall i : 'I_n, at_ q [:: nat_of_ord i] = R2C ((((row i Xr)^T - m)^T *m P *m ((row i Xr)^T - m)) 0 0)].
Proof.
move=> sx hx [km sm hm]; rewrite /mahalanobis /broadcast2 sx sm km.
have -> : bshape [:: n; d] [:: d] = Some [:: n; d].
  by rewrite /bshape /= /bdim !eqxx /=; case: (n =P 1%N) => [->|].
rewrite [bindr _ _]/= eqxx; eexists; split; first reflexivity; split=> // i.
rewrite [at_ _ _]/=; set dv := dev_at _ _ _.
have -> : dv = map_mx R2C ((row i Xr)^T - m).
  apply/matrixP => k j; rewrite (ord1 j) !mxE /= R2C_B -hx -hm.
  rewrite /bidx /=; case: (n =P 1%N) => [n1|_]; case: (d =P 1%N) => [d1|_] //.
  - have -> : nat_of_ord i = 0%N by have := ltn_ord i; rewrite {2}n1; case: (nat_of_ord i).
    by have -> : nat_of_ord k = 0%N by have := ltn_ord k; rewrite {2}d1; case: (nat_of_ord k).
  - by have -> : nat_of_ord i = 0%N by have := ltn_ord i; rewrite {2}n1; case: (nat_of_ord i).
  - by have -> : nat_of_ord k = 0%N by have := ltn_ord k; rewrite {2}d1; case: (nat_of_ord k).
rewrite !mxE R2C_sum; apply: eq_bigr => k _; rewrite R2C_M !mxE R2C_sum; congr (_ * _).
by apply: eq_bigr => l _; rewrite R2C_M !mxE.
Qed.

Lemma mahalanobis_ok n d (P : 'M[R]_d) (Xr : 'M[R]_(n, d)) m x mean : rows_of Xr x -> vec_of m mean ->
  exists q, mahalanobis P x mean = Ok q /\ [/\ kd q = KReal, sh q = [:: n] &
    forall i : 'I_n, at_ q [:: nat_of_ord i] = R2C ((((row i Xr)^T - m)^T *m P *m ((row i Xr)^T - m)) 0 0)].
Proof. by case=> kx sx hx vm; have [q [e [kq sq hq]]] := mahalanobis_gen P sx hx vm; exists q; rewrite kx in kq. Qed.
Lemma squeeze_values n (g : 'I_n -> R) (q : arr) : kd q = KReal -> sh q = [:: n] ->
  (forall i : 'I_n, at_ q [:: nat_of_ord i] = R2C (g i)) -> values_of g (squeeze q).
Proof.
move=> kq sq hq; split=> //; rewrite /squeeze sq /=; first by case: eqP.
move=> i; rewrite /vals_idx; case: eqP => [n1|_] //=; rewrite -hq.
by have -> : nat_of_ord i = 0%N by have := ltn_ord i; rewrite {2}n1; case: (nat_of_ord i).
Qed.

Section Oracles.
Variables (psd_other : psd_oracle) (gammaln : R -> R) (clog : C -> C).

(* the mean and covariance SciPy works with *)
Lemma freeze_gen d (m : 'cV[R]_d) (S : 'M[R]_d) (a c : arr) : spd S -> sh a = [:: d] -> (forall k : 'I_d, Re (at_ a [:: nat_of_ord k]) = m k 0) ->
  sh c = [:: d; d] -> (forall i j : 'I_d, Re (at_ c [:: nat_of_ord i; nat_of_ord j]) = S i j) ->
  exists m', freeze psd_other (Parr a) (Parr c) = Ok (@Frozen d m' d (invmx S, ln (\det S), d)) /\ vec_of m m'.
Proof.
move=> pS sa ha sc hc; rewrite /freeze /process_parameters /params_dim /= /np_size sa big_seq1.
have step (m1 c1 : arr) : vec_of m m1 -> sh c1 = [:: d; d] -> (forall i j : 'I_d, Re (at_ c1 [:: nat_of_ord i; nat_of_ord j]) = S i j) ->
  exists m', bindr (psd_of psd_other (to_rmx (len c1) (len c1) c1)) (fun i => Ok (@Frozen d m1 (len c1) i)) =
    Ok (@Frozen d m' d (invmx S, ln (\det S), d)) /\ vec_of m m'.
  move=> v1 s1 h1; exists m1; split=> //; have l1 : len c1 = d by rewrite /len s1.
  move: (len c1) l1 => k ->; have -> : to_rmx d d c1 = S by apply/matrixP => i j; rewrite mxE h1.
  by rewrite /psd_of; case: excluded_middle_informative.
have va : vec_of m (asfloat a) by split=> // k; rewrite /asfloat /= ha.
case: (d =P 1%N) => [d1|_].
  subst d; rewrite /reshape1 /reshape11 /np_size /= sa sc !big_cons big_nil /=; apply: step => //=.
    by split=> //= k; rewrite (ord1 k); have := ha 0; rewrite /ndim /= sa /= => ->.
  by move=> i j; rewrite (ord1 i) (ord1 j); have := hc 0 0; rewrite /ndim /= sc.
by rewrite [bindr _ _]/= sa eqxx /ndim /= sc eqxx; apply: step.
Qed.
Lemma freeze_ok d (m : 'cV[R]_d) (S : 'M[R]_d) (a c : arr) : spd S -> vec_of m a ->
  sh c = [:: d; d] -> (forall i j : 'I_d, Re (at_ c [:: nat_of_ord i; nat_of_ord j]) = S i j) ->
  exists m', freeze psd_other (Parr a) (Parr c) = Ok (@Frozen d m' d (invmx S, ln (\det S), d)) /\ vec_of m m'.
Proof. by move=> pS [_ sa ha]; apply: freeze_gen => // k; rewrite ha. Qed.

(* SciPy's densities for real parameters and n samples *)
Definition rnormal d (m : 'cV[R]_d) (S : 'M[R]_d) (x : 'cV[R]_d) : R :=
  - 2%:R^-1 * (d%:R * ln (2%:R * PI) + ln (\det S) + ((x - m)^T *m invmx S *m (x - m)) 0 0).
Definition rstudent d (df : R) (m : 'cV[R]_d) (S : 'M[R]_d) (x : 'cV[R]_d) : R :=
  gammaln (2%:R^-1 * (df + d%:R)) - gammaln (2%:R^-1 * df) - d%:R / 2%:R * ln (df * PI) - 2%:R^-1 * ln (\det S)
  - 2%:R^-1 * (df + d%:R) * ln (1 + 1 / df * ((x - m)^T *m invmx S *m (x - m)) 0 0).
Lemma normal_core_ok n d (Xr : 'M[R]_(n, d)) m S m' x : rows_of Xr x -> vec_of m m' ->
  exists v, normal_logpdf_core (@Frozen d m' d (invmx S, ln (\det S), d)) x = Ok v /\ values_of (fun i => rnormal m S (row i Xr)^T) v.
Proof.
move=> rx vm; have [q [e [kq sq hq]]] := mahalanobis_ok (invmx S) rx vm.
rewrite /normal_logpdf_core; cbn [fr_psd fr_mean fr_d]; rewrite e [bindr _ _]/=; eexists; split; first reflexivity.
by apply: squeeze_values => //= i; rewrite hq /rnormal -R2C_N -!R2C_D -R2C_M.
Qed.
Lemma student_core_ok n d df (Xr : 'M[R]_(n, d)) m S m' x : rows_of Xr x -> vec_of m m' ->
  exists v, t_logpdf_core gammaln clog (@Frozen d m' d (invmx S, ln (\det S), d)) df x = Ok v /\ values_of (fun i => rstudent df m S (row i Xr)^T) v.
Proof.
move=> rx vm; have [q [e [kq sq hq]]] := mahalanobis_ok (invmx S) rx vm.
rewrite /t_logpdf_core; cbn [fr_psd fr_mean fr_d]; rewrite e [bindr _ _]/=; eexists; split; first reflexivity.
apply: squeeze_values => // i; rewrite [at_ _ _]/= hq /rstudent kq /np_log [kind_eqb _ _]/=.
have -> : (1 : C) = R2C 1 by [].
by rewrite -[R2C (1 / df) * _]R2C_M -[R2C 1 + _]R2C_D -R2C_M -R2C_B.
Qed.

Lemma values_re n (g : 'I_n -> R) v : values_of g v -> values_of g (np_re v).
Proof. by case=> k s h; split=> //=; rewrite ?k ?s // => i; rewrite h. Qed.
Lemma values_eq n (g h : 'I_n -> R) v : g =1 h -> values_of g v -> values_of h v.
Proof. by move=> e [k s ha]; split=> // i; rewrite ha e. Qed.
Lemma quantiles_2 keep n d (Xr : 'M[R]_(n, d)) x d' : rows_of Xr x -> rows_of Xr (process_quantiles keep x d').
Proof.
case=> k s h; rewrite /process_quantiles /iscomplexobj k andbF /ndim /= s /=; split=> //= i j; by rewrite h.
Qed.
Lemma quantiles_1 keep d (z : 'cV[R]_d) x : d != 1%N -> vec_of z x -> rows_of z^T (process_quantiles keep x d).
Proof.
move=> d1 [k s h]; rewrite /process_quantiles /iscomplexobj k andbF /ndim /= s /= (negbTE d1); split=> //=.
  by rewrite /len /= s.
by move=> i j; rewrite h mxE (ord1 i).
Qed.
End Oracles.
