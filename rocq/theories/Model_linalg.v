(* Model of robuststats/utils/linalg.py, matrix functions and Toeplitz matrices.
   Definitions only.  Entries are exact numbers of a star field K (R for float arrays, R[i]
   for complex arrays).  The functions are written once for both because the code is
   (conjugation of a float array is the identity). *)
From Coq Require Import Reals.
From mathcomp Require Import all_ssreflect all_algebra.
From Verif Require Import RealsMC Star.
Set Implicit Arguments.
Unset Strict Implicit.
Unset Printing Implicit Defensive.
Local Open Scope ring_scope.
Import GRing.Theory Num.Theory Order.TTheory.

(* np.linalg.eigh: eigenvalues (1-D float array) and eigenvectors (columns) *)
Definition eigsolver (K : starField) := forall n, 'M[K]_n -> 'rV[R]_n * 'M[K]_n.

(* What an eigensolver promises (an assumption on NumPy/LAPACK, a hypothesis of the theorems): for a Hermitian matrix, a unitary matrix of eigenvectors and
   the real eigenvalues reconstructing it. *)
Definition eigh_ok (K : starField) (eigh : eigsolver K) :=
  forall n (A : 'M[K]_n), (map_mx (@cj K) A)^T = A ->
    let (d, V) := eigh n A in
    (map_mx (@cj K) V)^T *m V = 1%:M /\ A = V *m diag_mx (map_mx (@ofR K) d) *m (map_mx (@cj K) V)^T.

Section Linalg.
Variable K : starField.
Variable eigh : eigsolver K.

(* linalg.py:17-19 multihconj (one matrix): conjugate of the transpose *)
Definition multihconj m n (A : 'M[K]_(m, n)) : 'M[K]_(n, m) := map_mx (@cj K) A^T.

(* linalg.py:22-24 multiherm *)
Definition multiherm n (A : 'M[K]_n) : 'M[K]_n := 2%:R^-1 *: (A + multihconj A).

(* linalg.py:28-34 _matrix_operator *)
Definition _matrix_operator n (Ci : 'M[K]_n) (operator : R -> R) : 'M[K]_n :=
  let (eigvals, eigvects) := eigh Ci in
  let eigvals := diag_mx (map_mx (fun x => @ofR K (operator x)) eigvals) in
  eigvects *m eigvals *m (map_mx (@cj K) eigvects)^T.

(* linalg.py:37-52 *)
Definition sqrtm n (Ci : 'M[K]_n) := _matrix_operator Ci R_sqrt.sqrt.
(* linalg.py:55-69 *)
Definition logm n (Ci : 'M[K]_n) := _matrix_operator Ci Rpower.ln.
(* linalg.py:72-86 *)
Definition expm n (Ci : 'M[K]_n) := _matrix_operator Ci Rtrigo_def.exp.
(* linalg.py:89-106 *)
Definition invsqrtm n (Ci : 'M[K]_n) := _matrix_operator Ci (fun x => 1 / R_sqrt.sqrt x).
(* linalg.py:109-126; x**alpha is only modelled for x > 0 *)
Definition powm n (Ci : 'M[K]_n) (alpha : R) := _matrix_operator Ci (fun x => Rpower.Rpower x alpha).

(* linalg.py:129-131 hermitian *)
Definition hermitian n (X : 'M[K]_n) : 'M[K]_n := 2%:R^-1 *: (X + map_mx (@cj K) X^T).

(* linalg.py:134-143 ToeplitzMatrix.  scipy.linalg.toeplitz(c), with the first row omitted,
   has entries c[i-j] on and below the diagonal and conj(c[j-i]) above. *)
Definition toeplitz p (c : nat -> K) : 'M[K]_p :=
  \matrix_(i, j) if (j <= i)%N then c (i - j)%N else @cj K (c (j - i)%N).
Definition ToeplitzMatrix (rho : K) p : 'M[K]_p := toeplitz p (fun k => rho ^+ k).
End Linalg.
Arguments powm {K} eigh {n} Ci alpha : clear scopes.
