(* Model of robuststats/estimation/structured.py.  Definitions only, exact numbers; progress bars and
   logging are not modelled; sizes a, b >= 1 (check_array refuses data without features).
   Oracles: scipy.linalg.sqrtm (hypothesis in the theorems), pymanopt's ConjugateGradient. *)
From Coq Require Import Reals String.
From mathcomp Require Import all_ssreflect all_algebra.
From mathcomp Require Import complex mxtens.
From Verif Require Import RealsMC Star StarInst FunCalc Model_featurearray Model_linalg NpArray Model_mappings Model_covariance
  Spec_covariance Model_estimators Model_scipy Model_probability Model_scores Model_sklearn Model_objects.
Set Implicit Arguments.
Unset Strict Implicit.
Unset Printing Implicit Defensive.
Local Open Scope ring_scope.
Import GRing.Theory Num.Theory Order.TTheory.

(* np.linalg.inv *)
Definition np_inv (K : starField) n (A : 'M[K]_n) : res 'M[K]_n := if A \in unitmx then Ok (invmx A) else Err LinAlgErr.
(* X[i, k] *)
Definition entry (K : starField) N q (X : 'M[K]_(N, q)) (i : 'I_N) (k : nat) : K := if insub k is Some j then X i j else 0.
(* row i of X read column after column: Y.reshape((b, a, n_samples), order='F')[:, :, i] (74) and
   X[i, :].reshape((b, a), order='F') (278) *)
Definition cell (K : starField) N q (X : 'M[K]_(N, q)) a b (i : 'I_N) : 'M[K]_(b, a) := \matrix_(r, c) entry X i (r + b * c).
(* Python's max *)
Definition maxf (x y : flt) : flt := if gtf y x then y else x.

(* ---------- 29-132 estimation_cov_kronecker_MM ---------- *)
Section MM.
Variables (K : starField) (ssqrtm : forall n, 'M[K]_n -> 'M[K]_n).
Variables (N q a b : nat) (X : 'M[K]_(N, q)).
Local Notation M_i := (cell X a b).
(* the pass of the loop; the state is A, i_A, B.  A zero denominator gives nan, which sqrtm refuses. *)
Definition mm_numerator (i_B : 'M[K]_b) i : 'M[K]_a := (M_i i)^H *m i_B *m M_i i.
Definition mm_numerator_B (i_A : 'M[K]_a) i : 'M[K]_b := M_i i *m i_A *m (M_i i)^H.
Definition mm_denominator (i_A : 'M[K]_a) (i_B : 'M[K]_b) i : K := \tr (i_A *m mm_numerator i_B i).
Definition mm_M n (num : 'I_N -> 'M[K]_n) (den : 'I_N -> K) : 'M[K]_n :=
  \sum_i (n%:R / N%:R) *: ((den i)^-1 *: num i).
Definition mm_new n (A M : 'M[K]_n) (isqrtm : 'M[K]_n) : 'M[K]_n :=
  ssqrtm A *m ssqrtm (isqrtm *m M *m isqrtm) *m ssqrtm A.
Definition mm_state := ('M[K]_a * 'M[K]_a * 'M[K]_b)%type.
Definition mm_step (s : mm_state) : res mm_state := let: (A, i_A, B) := s in
  bindr (np_inv B) (fun i_B =>                                                  (* 90 *)
  bindr (np_inv (ssqrtm A)) (fun isqrtm_A =>                                    (* 91, 93 *)
  bindr (np_inv (ssqrtm B)) (fun isqrtm_B =>                                    (* 92, 94 *)
  if [exists i, mm_denominator i_A i_B i == 0] then Err ValueErr else           (* 97-102 *)
  let A_new := mm_new A (mm_M (mm_numerator i_B) (mm_denominator i_A i_B)) isqrtm_A in
  bindr (np_inv A_new) (fun i_A_new =>                                          (* 103, 106 *)
  if [exists i, mm_denominator i_A_new i_B i == 0] then Err ValueErr else       (* 109-113 *)
  let B_new := mm_new B (mm_M (mm_numerator_B i_A_new) (mm_denominator i_A_new i_B)) isqrtm_B in
  Ok (A_new, i_A_new, B_new))))).
(* 104, 115, 119 *)
Definition mm_change (s' s : mm_state) : flt :=
  let: (A', _, B') := s' in let: (A, _, B) := s in maxf (rel_change A' A) (rel_change B' B).
Definition mm_loop (tol : flt) (iter_max : nat) := loop gtf PInf mm_step mm_change tol iter_max (1%:M, invmx 1%:M, 1%:M).
(* 66-80, 88-132; Ok None is the value None *)
Definition estimation_cov_kronecker_MM (tol : flt) (iter_max : nat) : res (option ('M[K]_a * 'M[K]_b * flt * nat)) :=
  if (a * b)%N != q then Ok None
  else match mm_loop tol iter_max with
       | Some (Ok (A, _, B, delta, iteration)) => Ok (Some (A, B, tol, iteration))
       | Some (Err e) => Err e
       | None => Ok None (* not reached: Props_structured.v *) end.
End MM.

(* ---------- 135-208 KroneckerEllipticalMM ---------- *)
Section MMObject.
Variable ssqrtm : forall n, 'M[complex_sf]_n -> 'M[complex_sf]_n.
Variable pinvh : arr -> res arr.
Record kobj := KObj { k_obj : obj; k_A : option arr; k_B : option arr }.
(* the call of the function, on validated data, and the unpacking of what it returns *)
Definition kmm_run a b tol iter_max (Xv : arr) : res ('M[complex_sf]_a * 'M[complex_sf]_b) :=
  let N := nth 0%N (sh Xv) 0 in let q := nth 0%N (sh Xv) 1 in
  bindr (estimation_cov_kronecker_MM ssqrtm a b (to_mx N q Xv : 'M[complex_sf]_(N, q)) tol iter_max) (fun r =>
  if r is Some (A, B, _, _) then Ok (A, B) else Err TypeErr).
(* np.kron *)
Definition np_kron a b (A : 'M[complex_sf]_a) (B : 'M[complex_sf]_b) : arr := of_mx KCplx (A *t B : 'M[C]_(a * b)).
(* 176-178, 382-384: A_, B_, then covariance_ *)
Definition set_factors (k : kobj) a b (A : 'M[complex_sf]_a) (B : 'M[complex_sf]_b) : kobj * res unit :=
  let: (o, r) := set_covariance pinvh (k_obj k) (np_kron A B) in
  (KObj o (Some (of_mx KCplx (A : 'M[C]_a))) (Some (of_mx KCplx (B : 'M[C]_b))), r).
(* 146-180 fit; a, b, tol and iter_max are attributes of the object *)
Definition kmm_fit (k : kobj) (a b : nat) tol iter_max (X : arr) : kobj * res unit :=
  let k := KObj (note_nfeat (k_obj k) X) (k_A k) (k_B k) in
  match bindr (validate (o_cls (k_obj k)) X) (fun v => kmm_run a b tol iter_max v.1) with
  | Err e => (k, Err e)
  | Ok (A, B) => set_factors k A B end.
(* 182-208 score: the data are not validated *)
Definition kmm_score (a b : nat) tol iter_max (N q : nat) (X_test : 'M[complex_sf]_(N, q)) : res R :=
  bindr (estimation_cov_kronecker_MM ssqrtm a b X_test tol iter_max) (fun r =>
  if r is Some _ then Ok 0 else Err TypeErr).
End MMObject.

(* ---------- 211-237 _generate_cost_function_kronecker_student ---------- *)
Section Student.
Variables (psd_other : psd_oracle) (gammaln : R -> R) (clog : C -> C).
Definition kst_cost (X : arr) (df : R) (loc : param) a b (A : 'M[complex_sf]_a) (B : 'M[complex_sf]_b) : res C :=
  bindr (complex_freeze psd_other loc (Parr (np_kron A B))) (fun model =>
  bindr (ct_frozen_logpdf gammaln clog model df X) (fun logpdf => Ok (- np_sum logpdf))).
End Student.

(* ---------- 240-288 _generate_egrad_function_kronecker_student ----------
   The centred data Y (264-267) are not used by the function returned.
   Division by df + Q_i = 0 (inf in NumPy) is 0 in the model. *)
Section Egrad.
Variables (N q : nat) (X : 'M[complex_sf]_(N, q)) (a b : nat) (df : R) (loc : option 'cV[complex_sf]_q).
Local Notation K := complex_sf.
Definition kst_Y : 'M[K]_(N, q) := if loc is Some l then \matrix_(i, j) (X i j - l j 0) else X.
Definition kst_Q (i_A : 'M[K]_a) (i_B : 'M[K]_b) i : R :=
  let M_i := cell X a b i in @toR K (\tr (i_A *m M_i^T *m i_B *m M_i)).
Definition kst_w (Q : R) : K := @ofR K ((df + (a * b)%N%:R) / (df + Q)).
Definition kst_egrad (A : 'M[K]_a) (B : 'M[K]_b) : res ('M[K]_a * 'M[K]_b) :=
  bindr (np_inv A) (fun i_A => bindr (np_inv B) (fun i_B =>
  let w i := kst_w (kst_Q i_A i_B i) in
  let grad_A := - \sum_i w i *: (i_A *m ((cell X a b i)^H *m i_B *m cell X a b i) *m i_A) in
  let grad_B := - \sum_i w i *: (i_B *m (cell X a b i *m i_A *m (cell X a b i)^H) *m i_B) in
  let grad_A := N%:R^-1 *: grad_A + b%:R *: i_A in
  let grad_B := N%:R^-1 *: grad_B + a%:R *: i_B in
  Ok (grad_A^H, grad_B^H))).
End Egrad.

(* ---------- 291-417 _estimate_covariance_kronecker_t_gradient, KroneckerStudent ---------- *)
Section StudentObject.
Variables (psd_other : psd_oracle) (gammaln : R -> R) (clog : C -> C) (pinvh : arr -> res arr).
Variables (a b : nat).
Local Notation K := complex_sf.
(* ConjugateGradient().solve on the manifold of the estimator: cost, gradient, initial point *)
Variable solver : ('M[K]_a -> 'M[K]_b -> res C) -> ('M[K]_a -> 'M[K]_b -> res ('M[K]_a * 'M[K]_b)) ->
  'M[K]_a * 'M[K]_b -> res ('M[K]_a * 'M[K]_b).
(* 291-339; mean is always given by the callers *)
Definition kst_estimate (X : arr) (df : R) (mean : arr) (init : option ('M[K]_a * 'M[K]_b)) : res ('M[K]_a * 'M[K]_b) :=
  let N := nth 0%N (sh X) 0 in let q := nth 0%N (sh X) 1 in
  solver (kst_cost psd_other gammaln clog X df (Parr mean) (a := a) (b := b))
         (kst_egrad (to_mx N q X : 'M[K]_(N, q)) df (a := a) (b := b))
         (if init is Some t then t else (1%:M, 1%:M)).
(* 372-375: np.zeros of dtype float, X.mean(0) *)
Definition kst_location (assume_centered : bool) (Xv : arr) : arr :=
  let N := nth 0%N (sh Xv) 0 in let p := nth 0%N (sh Xv) 1 in
  if assume_centered then np_zeros KReal [:: p]
  else of_cv KCplx (\col_j (N%:R^-1 * \sum_(i < N) at_ Xv [:: nat_of_ord i; nat_of_ord j]) : 'cV[C]_p).
(* 355-386 fit *)
Definition kst_fit (k : kobj) (df : R) (assume_centered : bool) (X : arr) init : kobj * res unit :=
  let k := KObj (note_nfeat (k_obj k) X) (k_A k) (k_B k) in
  match validate (o_cls (k_obj k)) X with
  | Err e => (k, Err e)
  | Ok (Xv, _) =>
      let loc := kst_location assume_centered Xv in
      let k := KObj (with_loc (k_obj k) (Some loc)) (k_A k) (k_B k) in
      match kst_estimate Xv df loc init with
      | Err e => (k, Err e)
      | Ok (A, B) => set_factors pinvh k A B end end.
(* 388-417 score *)
Definition kst_score (k : kobj) (df : R) (X_test : arr) : res C :=
  if o_location (k_obj k) is Some loc then
    bindr (kst_estimate X_test df loc None) (fun t => kst_cost psd_other gammaln clog X_test df (Parr loc) t.1 t.2)
  else Err AttributeErr.
End StudentObject.
