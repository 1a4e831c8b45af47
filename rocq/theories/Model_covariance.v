(* Model of robuststats/estimation/covariance.py (functions), of complex_empirical_covariance
   in robuststats/estimation/base.py and of robuststats/models/cost.py.  Definitions only.

   Numbers are exact: entries in a star field K (real_sf for the real-valued functions,
   complex_sf for the complex ones), reals for the weights.  The real-valued functions are
   written with the plain transpose, as in the code.  Progress bars and logging are not
   modelled.  Division of an entry by zero (NumPy: inf/nan) is 0 in the model; the theorems
   have hypotheses excluding it, except for the stopping rule where inf and nan are kept. *)
From Coq Require Import Reals String.
From mathcomp Require Import all_ssreflect all_algebra.
From Verif Require Import RealsMC Star StarInst FunCalc Model_featurearray Model_linalg.
Set Implicit Arguments.
Unset Strict Implicit.
Unset Printing Implicit Defensive.
Local Open Scope ring_scope.
Import GRing.Theory Num.Theory Order.TTheory.

(* ---------- NumPy ---------- *)
(* the floats an error can be: np.linalg.norm(.)/np.linalg.norm(.), or np.inf *)
Inductive flt := Fin of R | PInf | NaN.
(* a > b : False when one is nan *)
Definition gtf (a b : flt) : bool := match a, b with
  | Fin x, Fin y => y < x
  | PInf, Fin _ => true
  | _, _ => false end.
(* a / b for a, b >= 0 *)
Definition divf (a b : R) : flt := if b == 0 then (if a == 0 then NaN else PInf) else Fin (a / b).

(* np.einsum('ij,ji->i', A, B) *)
Definition einsum_ij_ji_i (K : starField) N p (A : 'M[K]_(N, p)) (B : 'M[K]_(p, N)) : 'rV[K]_N :=
  \row_i \sum_j A i j * B j i.
(* A / t with t one-dimensional: column i is divided by t[i] *)
Definition divcols (K : starField) N p (A : 'M[K]_(p, N)) (t : 'rV[R]_N) : 'M[K]_(p, N) :=
  \matrix_(j, i) (A j i / @ofR K (t 0 i)).
(* np.real, .conj() *)
Definition np_real (K : starField) m n (A : 'M[K]_(m, n)) : 'M[R]_(m, n) := map_mx (@toR K) A.
Definition np_conj (K : starField) m n (A : 'M[K]_(m, n)) : 'M[K]_(m, n) := map_mx (@cj K) A.
(* np.sqrt of a float array *)
Definition np_sqrt n (t : 'rV[R]_n) : 'rV[R]_n := map_mx R_sqrt.sqrt t.

(* apply a function to the value returned *)
Definition fmapr (A B : Type) (f : A -> B) (r : res A) : res B := bindr r (fun a => Ok (f a)).

(* while cond: body — with exceptions; None would mean that the fuel does not suffice *)
Fixpoint while (St : Type) (fuel : nat) (cond : St -> bool) (body : St -> res St) (s : St) : option (res St) :=
  if cond s then
    match fuel with
    | 0 => None
    | f.+1 => match body s with Ok s' => while f cond body s' | Err e => Some (Err e) end
    end
  else Some (Ok s).

(* The loop common to all fixed-point functions, e.g. covariance.py:419-437:
     delta = np.inf; iteration = 0
     while (delta > tol) and (iteration < iter_max):
         sigma_new = ...; delta = ...; iteration += 1; sigma = sigma_new
   for any type of matrices, any type of floats [D] with comparison [gt]. *)
Section Loop.
Variables (St D : Type) (gt : D -> D -> bool) (np_inf : D).
Variable step : St -> res St.            (* sigma |-> sigma_new *)
Variable change : St -> St -> D.         (* sigma_new, sigma |-> delta *)
Definition loop_cond (tol : D) (iter_max : nat) (s : St * D * nat) :=
  let '(sigma, delta, iteration) := s in gt delta tol && (iteration < iter_max)%N.
Definition loop_body (s : St * D * nat) : res (St * D * nat) :=
  let '(sigma, delta, iteration) := s in
  bindr (step sigma) (fun sigma_new => Ok (sigma_new, change sigma_new sigma, iteration.+1)).
Definition loop (tol : D) (iter_max : nat) (init : St) : option (res (St * D * nat)) :=
  while iter_max.+1 (loop_cond tol iter_max) loop_body (init, np_inf, 0%N).
End Loop.

(* delta = la.norm(sigma_new - sigma) / la.norm(sigma)  (e.g. covariance.py:428) *)
Definition rel_change (K : starField) p (sigma_new sigma : 'M[K]_p) : flt :=
  divf (fro (sigma_new - sigma)) (fro sigma).
Definition fp_loop (K : starField) p (step : 'M[K]_p -> res 'M[K]_p) :=
  loop gtf PInf step (@rel_change K p).

(* ---------- covariance.py:40-80 get_normalisation_function ---------- *)
Local Open Scope string_scope.
Definition norm_trace (K : starField) p (covariance : 'M[K]_p) : K :=
  @ofR K (@toR K (\tr covariance) / p%:R).
(* np.real(la.det(covariance))**(1/p): only modelled for a positive determinant *)
Definition norm_determinant (K : starField) p (covariance : 'M[K]_p) : K :=
  @ofR K (Rpower (@toR K (\det covariance)) (1 / p%:R)).
Definition norm_element (K : starField) p (covariance : 'M[K]_p.+1) : K := covariance 0 0.
Definition get_normalisation_function (K : starField) p (normalisation : string) : 'M[K]_p.+1 -> K :=
  if (normalisation =? "trace") then @norm_trace K p.+1
  else if (normalisation =? "determinant") then @norm_determinant K p.+1
  else if (normalisation =? "element") then @norm_element K p
  else if (normalisation =? "None") then fun _ => 1
  else fun _ => 1.
Local Close Scope string_scope.
(* sigma / S(sigma) *)
Definition normalised (K : starField) p (normalisation : string) (sigma : 'M[K]_p.+1) : 'M[K]_p.+1 :=
  (get_normalisation_function normalisation sigma)^-1 *: sigma.

(* ---------- covariance.py:87-118 _huber_m_estimator_function ----------
   x >= 0; NumPy's lbda/0 is inf, so that np.minimum(1, lbda/0) = 1. *)
Definition huber_u (lbda beta x : R) : R := (1 / beta) * (if x == 0 then 1 else Num.min 1 (lbda / x)).
Definition _huber_m_estimator_function n (x : 'rV[R]_n) (lbda beta : R) : res 'rV[R]_n :=
  if (lbda <= 0) || (beta < 0) then Err AssertionErr else Ok (map_mx (huber_u lbda beta) x).

(* sklearn.covariance.empirical_covariance(X, assume_centered=True) *)
Definition empirical_covariance_centered N p (X : 'M[real_sf]_(N, p)) : 'M[real_sf]_p :=
  (N%:R^-1 : real_sf) *: (X^T *m X).
(* base.py:301-334 complex_empirical_covariance(X, assume_centered=True) *)
Definition complex_empirical_covariance_centered N p (X : 'M[complex_sf]_(N, p)) : 'M[complex_sf]_p :=
  (N%:R^-1 : complex_sf) *: (X^T *m np_conj X).
(* base.py:301-334, assume_centered=False: np.cov(X.T, bias=1) subtracts the mean of each
   variable and returns dot(Y, Y.conj().T) / N with Y = X.T - mean *)
Definition np_cov_bias N p (X : 'M[complex_sf]_(N, p)) : 'M[complex_sf]_p :=
  let avg : 'cV[complex_sf]_p := \col_j (N%:R^-1 * \sum_i X i j) in
  let Y : 'M[complex_sf]_(p, N) := \matrix_(j, i) (X^T j i - avg j 0) in
  (N%:R^-1 : complex_sf) *: (Y *m (np_conj Y)^T).
Definition complex_empirical_covariance N p (X : 'M[complex_sf]_(N, p)) (assume_centered : bool) :=
  if assume_centered then complex_empirical_covariance_centered X else np_cov_bias X.

(* ---------- real-valued estimators ---------- *)
Section RealFns.
Variable eigh : eigsolver real_sf.
Variables (chi2_ppf chi2_cdf : R -> R -> R).     (* scipy.stats.chi2.ppf, .cdf *)
Local Notation K := real_sf.

(* covariance.py:168-169, 247-248, 421-422 *)
Definition real_tau N p (X : 'M[K]_(N, p)) (sigma : 'M[K]_p) : 'rV[K]_N :=
  let temp := invsqrtm eigh sigma *m X^T in
  einsum_ij_ji_i temp^T temp.

(* covariance.py:157-158 *)
Definition huber_lbda (q : R) (p : nat) : R := chi2_ppf q p%:R / 2%:R.
Definition huber_beta (q : R) (p : nat) : R :=
  chi2_cdf (2%:R * huber_lbda q p) (p + 1)%:R + 2%:R * huber_lbda q p * (1 - q) / p%:R.
(* covariance.py:168-172 *)
Definition huber_step N p (X : 'M[K]_(N, p)) (lbda beta : R) (sigma : 'M[K]_p) : res 'M[K]_p :=
  let tau := real_tau X sigma in
  bindr (_huber_m_estimator_function (np_real tau) lbda beta) (fun tau =>
  let temp := divcols X^T (np_sqrt tau) in
  Ok (((1 / N%:R : R) : K) *: (temp *m temp^T))).
(* covariance.py:121-196 *)
Definition huber_m_estimator_fixed_point N p (X : 'M[K]_(N, p)) (q : R) (init : option 'M[K]_p) tol iter_max :=
  let sigma := if init is Some s then s else empirical_covariance_centered X in
  fp_loop (huber_step X (huber_lbda q p) (huber_beta q p)) tol iter_max sigma.

(* covariance.py:247-251 *)
Definition student_step N p (X : 'M[K]_(N, p)) (df : R) (sigma : 'M[K]_p) : 'M[K]_p :=
  let tau := real_tau X sigma in
  let tau := map_mx (fun t => df / 2%:R + t) (np_real tau) in
  let temp := divcols X^T (np_sqrt tau) in
  (((df / 2%:R + p%:R) / N%:R : R) : K) *: (temp *m temp^T).
(* covariance.py:200-271 *)
Definition student_t_mle_fixed_point N p (X : 'M[K]_(N, p)) (df : R) (init : option 'M[K]_p) tol iter_max :=
  if df <= 0 then Some (Err AttributeErr) else
  let sigma := if init is Some s then s else empirical_covariance_centered X in
  fp_loop (fun s => Ok (student_step X df s)) tol iter_max sigma.

(* covariance.py:421-425 *)
Definition tyler_step N p (X : 'M[K]_(N, p)) (sigma : 'M[K]_p) : 'M[K]_p :=
  let tau := real_tau X sigma in
  let tau := map_mx (fun t => (1 / p%:R) * t) tau in
  let temp := divcols X^T (np_sqrt tau) in
  ((1 / N%:R : R) : K) *: (temp *m temp^T).
(* covariance.py:374-446 *)
Definition tyler_shape_matrix_fixedpoint N p (X : 'M[K]_(N, p.+1)) (init : option 'M[K]_p.+1) tol iter_max
    (normalisation : string) :=
  let sigma := if init is Some s then s else empirical_covariance_centered X in
  omap (fmapr (fun r => let '(sigma, delta, iteration) := r in
                 (normalised normalisation sigma, delta, iteration)))
       (fp_loop (fun s => Ok (tyler_step X s)) tol iter_max sigma).
End RealFns.

(* ---------- complex-valued estimators ---------- *)
Section ComplexFns.
Variable eigh : eigsolver complex_sf.
Variables (chi2_ppf chi2_cdf : R -> R -> R).
Local Notation K := complex_sf.

(* covariance.py:760-761, 852-853, 994-995 *)
Definition complex_tau N p (X : 'M[K]_(N, p)) (sigma : 'M[K]_p) : 'rV[K]_N :=
  let temp := invsqrtm eigh sigma *m X^T in
  einsum_ij_ji_i (np_conj temp)^T temp.

(* covariance.py:749-750 *)
Definition complex_huber_lbda (q : R) (p : nat) : R := chi2_ppf q (2 * p)%:R / 2%:R.
Definition complex_huber_beta (q : R) (p : nat) : R :=
  chi2_cdf (2%:R * complex_huber_lbda q p) (2 * p + 2)%:R + complex_huber_lbda q p * (1 - q) / p%:R.
(* covariance.py:760-764 *)
Definition complex_huber_step N p (X : 'M[K]_(N, p)) (lbda beta : R) (sigma : 'M[K]_p) : res 'M[K]_p :=
  let tau := complex_tau X sigma in
  bindr (_huber_m_estimator_function (np_real tau) lbda beta) (fun tau =>
  let temp := divcols X^T (np_sqrt tau) in
  Ok (@ofR K (1 / N%:R) *: (temp *m (np_conj temp)^T))).
(* covariance.py:713-801 *)
Definition complex_huber_m_estimator_fixed_point N p (X : 'M[K]_(N, p)) (q : R) (init : option 'M[K]_p) tol iter_max :=
  let sigma := if init is Some s then s else complex_empirical_covariance X true in
  fp_loop (complex_huber_step X (complex_huber_lbda q p) (complex_huber_beta q p)) tol iter_max sigma.

(* covariance.py:852-856 *)
Definition complex_student_step N p (X : 'M[K]_(N, p)) (df : R) (sigma : 'M[K]_p) : 'M[K]_p :=
  let tau := complex_tau X sigma in
  let tau := map_mx (fun t => df + t) (np_real tau) in
  let temp := divcols X^T (np_sqrt tau) in
  @ofR K ((df + p%:R) / N%:R) *: (temp *m (np_conj temp)^T).
(* covariance.py:805-875 *)
Definition complex_student_t_mle_fixed_point N p (X : 'M[K]_(N, p)) (df : R) (init : option 'M[K]_p) tol iter_max :=
  if df <= 0 then Some (Err AttributeErr) else
  let sigma := if init is Some s then s else complex_empirical_covariance X true in
  fp_loop (fun s => Ok (complex_student_step X df s)) tol iter_max sigma.

(* covariance.py:994-998 *)
Definition complex_tyler_step N p (X : 'M[K]_(N, p)) (sigma : 'M[K]_p) : 'M[K]_p :=
  let tau := complex_tau X sigma in
  let tau := map_mx (fun t => (1 / p%:R) * t) (np_real tau) in
  let temp := divcols X^T (np_sqrt tau) in
  @ofR K (1 / N%:R) *: (temp *m (np_conj temp)^T).
(* covariance.py:946-1019 *)
Definition complex_tyler_shape_matrix_fixedpoint N p (X : 'M[K]_(N, p.+1)) (init : option 'M[K]_p.+1) tol iter_max
    (normalisation : string) :=
  let sigma := if init is Some s then s else complex_empirical_covariance X true in
  omap (fmapr (fun r => let '(sigma, delta, iteration) := r in
                 (normalised normalisation sigma, delta, iteration)))
       (fp_loop (fun s => Ok (complex_tyler_step X s)) tol iter_max sigma).
End ComplexFns.

(* ---------- cost.py:18-53 Tyler_cost_real, cost.py:56-91 Tyler_cost_complex ----------
   np.log is only modelled on positive reals.  q is the number of rows of Q. *)
Definition Tyler_cost_real (eigh : eigsolver real_sf) n p q (X : 'M[real_sf]_(n, p)) (Q : 'M[real_sf]_q) : res R :=
  match @eqP _ p q with
  | ReflectT e =>
      let Q : 'M[real_sf]_p := castmx (esym e, esym e) Q in
      let temp := invsqrtm eigh Q *m X^T in
      let r := einsum_ij_ji_i temp^T temp in
      Ok (p%:R * (\sum_i ln (r 0 i)) + n%:R * ln (\det Q))
  | ReflectF _ => Err AttributeErr
  end.
Definition Tyler_cost_complex (eigh : eigsolver complex_sf) n p q (X : 'M[complex_sf]_(n, p)) (Q : 'M[complex_sf]_q) : res R :=
  match @eqP _ p q with
  | ReflectT e =>
      let Q : 'M[complex_sf]_p := castmx (esym e, esym e) Q in
      let temp := invsqrtm eigh Q *m X^T in
      let r := einsum_ij_ji_i (np_conj temp^T) temp in
      Ok (p%:R * (\sum_i ln (@toR complex_sf (r 0 i))) + n%:R * ln (@toR complex_sf (\det Q)))
  | ReflectF _ => Err AttributeErr
  end.
