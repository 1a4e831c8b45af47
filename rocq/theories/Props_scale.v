(* Theorems about RealCovarianceScale: C95. *)
From Coq Require Import Reals.
From mathcomp Require Import all_ssreflect all_algebra.
From Verif Require Import RealsMC Model_featurearray NpArray Model_sklearn Model_scale.
Set Implicit Arguments.
Unset Strict Implicit.
Unset Printing Implicit Defensive.

(* what is accepted: real arrays with two dimensions, neither of them empty *)
Definition table_like (a : arr) : Prop := iscomplexobj a = false /\ exists n p, 0 < n /\ 0 < p /\ sh a = [:: n; p].
(* the last element that has a property *)
Definition last_such (P : arr -> Prop) (s : seq arr) (r : option arr) : Prop :=
  (r = None /\ (forall a, List.In a s -> ~ P a)) \/
  exists a s1 s2, [/\ r = Some a, s = s1 ++ a :: s2, P a & forall a', List.In a' s2 -> ~ P a'].
Definition covs (l : seq scale_op) : seq arr := pmap (fun q => if q is SetCovariance a then Some a else None) l.
Definition scales (l : seq scale_op) : seq arr := pmap (fun q => if q is SetScale a then Some a else None) l.

Lemma check_table a : (check_array a = Ok a /\ table_like a) \/ (check_array a = Err ValueErr /\ ~ table_like a).
Proof.
rewrite /check_array /table_like /ndim; case: iscomplexobj; first by right; split=> // -[].
case: (sh a) => [|n [|p [|q s]]] /=; try by right; split=> // -[_ [n' [p' [_ [_]]]]].
case: n => [|n]; first by right; split=> // -[_ [n' [p' [h [_ e]]]]]; case: e h => <-.
case: p => [|p]; first by right; split=> // -[_ [n' [p' [_ [h e]]]]]; case: e h => _ <-.
by left; split=> //; split=> //; exists n.+1, p.+1.
Qed.
Lemma last_cat P s a r : last_such P s r -> (P a -> last_such P (s ++ [:: a]) (Some a)) /\ (~ P a -> last_such P (s ++ [:: a]) r).
Proof.
move=> h; split=> [pa|npa]; first by right; exists a, s, [::].
case: h => [[-> no]|[b [s1 [s2 [-> -> pb no]]]]].
  by left; split=> // b h; case: (List.in_app_or _ _ _ h) => [h'|[e|[]]]; [exact: no|rewrite -e].
by right; exists b, s1, (s2 ++ [:: a]); rewrite -catA; split=> // c h; case: (List.in_app_or _ _ _ h) => [h'|[e|[]]]; [exact: no|rewrite -e].
Qed.
Section Scale.
Variable pinvh : arr -> res arr.
Local Notation execs := (scale_execs pinvh).
(* After any history the attributes are the last arrays that were accepted; transform and get_scale return them. *)
Theorem C95_history_partial store (l : seq scale_op) : let o := execs (scale_new store) l in
  last_such table_like (covs l) (so_cov o) /\ last_such table_like (scales l) (so_scale o) /\
  get_scale o = (if so_scale o is Some s then Ok s else Err AttributeErr) /\
  (forall c s, scale_transform o = Ok (c, s) <-> so_cov o = Some c /\ so_scale o = Some s).
Proof.
move=> o; have H : last_such table_like (covs l) (so_cov o) /\ last_such table_like (scales l) (so_scale o).
  rewrite /o {o}; elim/last_ind: l => [|l q [IH1 IH2]]; first by split; left.
  rewrite /scale_execs foldl_rcons -/(scale_execs _ _ _) /covs /scales -cats1 !pmap_cat -/(covs l) -/(scales l).
  move: IH1 IH2; move: (execs _ _) => o IH1 IH2; case: q => [a|s|] /=; rewrite ?cats0; last by [].
  - have [h1 h2] := last_cat a IH1; case: (check_table a) => -[-> t] /=; last by split=> //; exact: h2.
    by case: so_store => /=; [case: pinvh => ?|]; split=> //; exact: h1.
  - have [h1 h2] := last_cat s IH2; case: (check_table s) => -[-> t] /=; last by split=> //; exact: h2.
    by split=> //; exact: h1.
case: H => H1 H2; split=> //; split=> //; split=> // c s; rewrite /scale_transform.
by case: (so_cov o) => [x|]; case: (so_scale o) => [y|]; split=> //; [case=> -> -> | case=> -[->] [->] | case | case | case].
Qed.
(* One scale per sample, an array of one dimension such as generate_textures_* return, cannot be stored. *)
Theorem C95_vector_refuted o (s : arr) n : sh s = [:: n] -> scale_exec pinvh o (SetScale s) = (o, Err ValueErr).
Proof. by move=> e /=; rewrite /check_array /ndim e /=; case: iscomplexobj. Qed.
(* fit and fit_transform are never available, and change nothing *)
Theorem C95_no_fit o : scale_exec pinvh o FitScale = (o, Err NotImplementedErr) /\ scale_fit_transform pinvh o = (o, Err NotImplementedErr).
Proof. by []. Qed.
End Scale.
(* a covariance, a column of scales, then a vector of scales *)
Example C95_example : let one n p := np_zeros KReal [:: n; p] in
  scale_transform (scale_execs (fun a => Ok a) (scale_new true) [:: SetCovariance (one 2 2); SetScale (one 5 1); SetScale (np_zeros KReal [:: 5])]) = Ok (one 2 2, one 5 1).
Proof. by []. Qed.
Print Assumptions C95_history_partial.
Print Assumptions C95_vector_refuted.
Print Assumptions C95_no_fit.
