(* C27: FeaturesEstimation on the covariance estimators of robuststats. *)
From Coq Require Import Reals String.
From mathcomp Require Import all_ssreflect all_algebra.
From mathcomp Require Import complex.
From Verif Require Import RealsMC Star StarInst FunCalc Model_featurearray Spec_featurearray Model_featest Props_featest Model_linalg NpArray Proofs_numpy
  Model_mappings Model_covariance Spec_covariance Model_estimators Model_scipy Model_probability Model_scores Model_sklearn Model_objects Proofs_objects Props_objects.
Set Implicit Arguments.
Unset Strict Implicit.
Unset Printing Implicit Defensive.
Local Open Scope ring_scope.
Import GRing.Theory Num.Theory Order.TTheory.

Lemma kind_eqP : Equality.axiom kind_eqb. Proof. by case; case; constructor. Qed.
Definition kind_eqMixin := EqMixin kind_eqP.
Canonical kind_eqType := EqType kind kind_eqMixin.

(* the indices of an array in row-major order *)
Fixpoint indices (s : seq nat) : seq (seq nat) := match s with
  | [::] => [:: [::]]
  | n :: s' => flatten [seq [seq i :: j | j <- indices s'] | i <- iota 0 n] end.
Definition aval_of (a : arr) : aval C kind_eqType := Aval (kd a : kind_eqType) (sh a) [seq at_ a i | i <- indices (sh a)].
Lemma size_indices s : size (indices s) = (\prod_(d <- s) d)%N.
Proof.
elim: s => [|n s IH]; first by rewrite big_nil.
rewrite big_cons /= size_flatten /shape -map_comp /=.
have -> : [seq (size \o (fun i : nat => [seq i :: j | j <- indices s])) i | i <- iota 0 n] = nseq n (size (indices s)).
  by elim: n 0%N => //= n IHn m; rewrite IHn size_map.
by rewrite sumn_nseq IH mulnC.
Qed.
Section S.
Variables (eigR : eigsolver real_sf) (eigC : eigsolver complex_sf) (ppf cdf : R -> R -> R) (pinvh : arr -> res arr).
Variable natgrad : bool -> string -> arr -> option arr -> res (arr * flt).
Variable other : bool -> algo -> arr -> option arr -> flt -> nat -> res (arr * flt * nat).
(* sklearn's TransformerMixin.fit_transform of the object at address a: self.fit(X).transform(X) *)
Definition cov_fit_transform a (h : oheap) (x : arr) : oheap * res (fval C kind_eqType) :=
  let: (h', r) := fit eigR eigC ppf cdf pinvh natgrad other h a x None in
  (h', bindr r (fun _ => fmapr (fun c => FArr (aval_of c)) (Model_objects.transform (get h' a)))).
End S.

(* Violated by Tyler's 'natural gradient', whose second fit raises (C18): in one process the same
   estimator is fitted on every trial, the deep copy being discarded, so transform raises TypeError on
   two trials; with worker processes it returns the two items. *)
Definition ex_natgrad : bool -> string -> arr -> option arr -> res (arr * flt) :=
  fun _ _ _ _ => Ok (of_mx KReal (rmx (1%:M : 'M[R]_1)), Fin 0).
Theorem C27_shared_estimator_refuted eigR eigC ppf cdf other :
  let ft := cov_fit_transform eigR eigC ppf cdf (@Ok arr) ex_natgrad other 0 in
  let h := (new [::] RTyler (Fin 0) "natural gradient" 5 "None").1 in
  (exists s m, Model_featest.transform (0 : C) ft false h [::] [:: ex_X; ex_X] = (s, m, Err TypeErr)) /\
  (exists s m f, Model_featest.transform (0 : C) ft true h [::] [:: ex_X; ex_X] = (s, m, Ok f) /\ fa_len f = 2%N).
Proof.
move=> ft h; have ok : fit eigR eigC ppf cdf (@Ok arr) ex_natgrad other h 0 ex_X None = ((fit eigR eigC ppf cdf (@Ok arr) ex_natgrad other h 0 ex_X None).1, Ok tt) by [].
have nt : natural h 0 by split=> //; exists "natural gradient"%string, 0%N.
have ok2 : (fit eigR eigC ppf cdf (@Ok arr) ex_natgrad other h 0 ex_X None).2 = Ok tt by [].
have bad := C18_natural_gradient_refit_refuted ex_X None nt ok2.
have val : (ft h ex_X).2 = Ok (FArr (aval_of (of_mx KReal (rmx (1%:M : 'M[R]_1))))) by [].
split.
  rewrite /Model_featest.transform /estimates.
  case e1: (ft h ex_X) => [s1 r1]; rewrite e1 /= in val; rewrite val.
  have -> : s1 = (fit eigR eigC ppf cdf (@Ok arr) ex_natgrad other h 0 ex_X None).1 by case: e1.
  rewrite /ft /cov_fit_transform bad.
  set a := aval_of _.
  have [m [g ->]] : exists m g, wrap (0 : C) [::] (FArr a) = (m, Ok g).
    have [|ds [e2 w2 s2 _ _]] := @allocsE C 0 kind_eqType [::] [:: a].
      by move=> b [<-|//]; rewrite /aval_ok size_map size_indices.
    rewrite /wrap /farrays e2 append_one //; last by case: (ds) s2.
    by do 2 eexists.
  by do 2 eexists.
have [//|//||l|s [m [f [e1 e2 _]]]] := @C27_one_item_per_trial C 0 kind_eqType oheap arr ft true h [::] [:: ex_X; ex_X] [:: [:: 1%N; 1%N]] [:: KReal]
  [:: [:: aval_of (of_mx KReal (rmx (1%:M : 'M[R]_1)))]; [:: aval_of (of_mx KReal (rmx (1%:M : 'M[R]_1)))]].
- have -> : values ft true h [:: ex_X; ex_X] = [:: (ft h ex_X).2; (ft h ex_X).2] by [].
  by rewrite val.
- by move=> [<-|[<-|//]]; split=> // a [<-|//]; rewrite /aval_ok size_map size_indices.
by exists s, m, f.
Qed.

Print Assumptions C27_shared_estimator_refuted.
