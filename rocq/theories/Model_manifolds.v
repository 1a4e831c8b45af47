(* Model of robuststats/models/manifolds.py.  Definitions only, exact numbers.

   Strictly positive vectors are (n, k) real matrices.  A point or tangent vector of the Hermitian
   manifolds is a stack of k matrices, written as a function of 'I_k; the branches k == 1 of the
   code (which work on one two-dimensional array) compute the same formulas as the branches k > 1
   (which loop over the first axis) and are both the functions below.  K is a star field: the code
   uses complex arrays (K = C).
   Oracles (arguments, see the hypotheses of the theorems): np.linalg.eigh, np.linalg.cholesky,
   scipy.linalg.sqrtm, and the random draws.
   pymanopt's multiprod, multihconj, multitransp and multilog (eigendecomposition, logarithm of the
   eigenvalues, conjugate transposition) are the matrix operations on each item of the stack;
   np.linalg.solve(x, u) is x^-1 u for an invertible x. *)
From Coq Require Import Reals.
From mathcomp Require Import all_ssreflect all_algebra.
From Verif Require Import RealsMC Star Model_linalg.
Set Implicit Arguments.
Unset Strict Implicit.
Unset Printing Implicit Defensive.
Local Open Scope ring_scope.
Import GRing.Theory Num.Theory Order.TTheory.

(* ---- manifolds.py:31-94 StrictlyPositiveVectors ---- *)
Section SPV.
Variables n k : nat.
Implicit Types x y u v d : 'M[R]_(n, k).
(* manifolds.py:47 *)
Definition spv_dim : nat := (k * n)%N.
(* manifolds.py:54-56, one value per column *)
Definition spv_inner x u v : 'rV[R]_k :=
  \row_j \sum_i ((x i j)^-1 * u i j * (x i j)^-1 * v i j).
(* manifolds.py:58-59 *)
Definition spv_proj x u : 'M[R]_(n, k) := u.
(* manifolds.py:61-62 *)
Definition spv_norm x u : 'rV[R]_k := map_mx R_sqrt.sqrt (spv_inner x u u).
(* manifolds.py:64-65; r : the draws in [0, 1) scaled by rnd.uniform *)
Definition spv_rand (r : 'M[R]_(n, k)) : 'M[R]_(n, k) := map_mx (fun t => 10%:R ^- 6 + (1 - 10%:R ^- 6) * t) r.
(* manifolds.py:67-69; u : the draws of rnd.randn *)
Definition spv_randvec x u : 'M[R]_(n, k) := \matrix_(i, j) (u i j / spv_norm x u 0 j).
(* manifolds.py:71-72 *)
Definition spv_zerovec x : 'M[R]_(n, k) := 0.
(* manifolds.py:74-75, one value per column *)
Definition spv_dist x y : 'rV[R]_k :=
  \row_j R_sqrt.sqrt (\sum_i (Rpower.ln (x i j) - Rpower.ln (y i j)) ^+ 2).
(* manifolds.py:77-78 *)
Definition spv_egrad2rgrad x u : 'M[R]_(n, k) := \matrix_(i, j) (u i j * x i j ^+ 2).
(* manifolds.py:80-81 *)
Definition spv_ehess2rhess x egrad ehess u : 'M[R]_(n, k) :=
  \matrix_(i, j) (ehess i j * x i j ^+ 2 + egrad i j * u i j * x i j).
(* manifolds.py:83-84 *)
Definition spv_exp x u : 'M[R]_(n, k) := \matrix_(i, j) (x i j * Rtrigo_def.exp ((x i j)^-1 * u i j)).
(* manifolds.py:86-87 *)
Definition spv_retr x u : 'M[R]_(n, k) :=
  \matrix_(i, j) (x i j + u i j + 2%:R^-1 * (x i j)^-1 * u i j ^+ 2).
(* manifolds.py:89-90 *)
Definition spv_log x y : 'M[R]_(n, k) := \matrix_(i, j) (x i j * Rpower.ln ((x i j)^-1 * y i j)).
(* manifolds.py:92-94 *)
Definition spv_transp x1 x2 d : 'M[R]_(n, k) :=
  spv_proj x2 (\matrix_(i, j) (x2 i j * ((x1 i j)^-1 * d i j))).
End SPV.

(* ---- manifolds.py:99-256 HermitianPositiveDefinite ---- *)
Section HPD.
Variable K : starField.
Local Notation ofR := (@ofR K).
Local Notation toR := (@toR K).
Variable eigh : eigsolver K.
(* np.linalg.cholesky, scipy.linalg.sqrtm *)
Variable cholesky : forall n, 'M[K]_n -> 'M[K]_n.
Variable ssqrtm : forall n, 'M[K]_n -> 'M[K]_n.

Definition solve n (x u : 'M[K]_n) : 'M[K]_n := invmx x *m u.
Definition diagf n (f : R -> R) (d : 'rV[R]_n) : 'M[K]_n := diag_mx (map_mx (fun t => ofR (f t)) d).

Section One.
Variable n : nat.
Implicit Types x y u v d : 'M[K]_n.
(* one matrix of the stack *)
(* manifolds.py:150-151 la.solve(x, u) and the transpose of la.solve(x, v), multiplied entrywise and summed *)
Definition inner1 x u v : K := \sum_i \sum_j solve x u i j * (solve x v)^T i j.
(* manifolds.py:157-160 c_inv u c_inv^H *)
Definition white1 x u : 'M[K]_n :=
  let c := cholesky x in let c_inv := invmx c in c_inv *m u *m multihconj c_inv.
(* squares of the moduli of the entries, summed (np.linalg.norm) *)
Definition sumsq1 u : K := \sum_i \sum_j u i j * @cj K (u i j).
(* manifolds.py:162-163 *)
Definition hproj1 x u : 'M[K]_n := multiherm u.
(* manifolds.py:165-166 *)
Definition hegrad1 x u : 'M[K]_n := x *m multiherm u *m x.
(* manifolds.py:168-172 *)
Definition hehess1 x egrad ehess u : 'M[K]_n :=
  let egrad := multiherm egrad in
  x *m multiherm ehess *m x + multiherm (u *m egrad *m x).
(* manifolds.py:174-203 *)
Definition hexp1 x u : 'M[K]_n :=
  let (d, q) := eigh x in
  let x_sqrt := q *m diagf R_sqrt.sqrt d *m multihconj q in
  let x_isqrt := q *m diagf (fun t => 1 / R_sqrt.sqrt t) d *m multihconj q in
  let (d, q) := eigh (x_isqrt *m u *m x_isqrt) in
  let e := q *m diagf Rtrigo_def.exp d *m multihconj q in
  let e := x_sqrt *m e *m x_sqrt in
  multiherm e.
(* manifolds.py:205-207 *)
Definition hretr1 x u : 'M[K]_n := x + u + (2%:R^-1 *: u) *m solve x u.
(* manifolds.py:209-238 *)
Definition hlog1 x y : 'M[K]_n :=
  let (d, q) := eigh x in
  let x_sqrt := q *m diagf R_sqrt.sqrt d *m multihconj q in
  let x_isqrt := q *m diagf (fun t => 1 / R_sqrt.sqrt t) d *m multihconj q in
  let (d, q) := eigh (x_isqrt *m y *m x_isqrt) in
  let log := q *m diagf Rpower.ln d *m multihconj q in
  let xi := x_sqrt *m log *m x_sqrt in
  multiherm xi.
(* manifolds.py:240-248 *)
Definition htransp1 x1 x2 d : 'M[K]_n :=
  let E := multihconj (solve (multihconj x1) (multihconj x2)) in
  let E := ssqrtm E in
  E *m d *m multihconj E.
(* manifolds.py:251-254 the logarithm whose norm is taken *)
Definition hdistlog1 x y : 'M[K]_n :=
  let (l, v) := eigh (white1 x y) in v *m diagf Rpower.ln l *m multihconj v.
(* manifolds.py:113-130 rand; r: draws of rnd.rand in [0, 1), u: the unitary factor returned by np.linalg.qr *)
Definition hrand1 (r : 'rV[R]_n) (u : 'M[K]_n) : 'M[K]_n :=
  u *m (diagf (fun t => 1 + t) r *m multihconj u).
End One.

Section Stack.
Variables n k : nat.
Definition stack := 'I_k -> 'M[K]_n.
Implicit Types x y u v d : stack.
(* manifolds.py:110 (1/2 times an even number) *)
Definition hpd_dim : nat := (2 * (k * n * (n + 1) %/ 2))%N.
(* manifolds.py:113-130 *)
Definition hpd_rand (r : 'I_k -> 'rV[R]_n) (u : stack) : stack := fun i => hrand1 (r i) (u i).
(* manifolds.py:148-151 *)
Definition hpd_inner x u v : R := toR (\sum_i inner1 (x i) (u i) (v i)).
(* manifolds.py:153-160 *)
Definition hpd_norm x u : R := R_sqrt.sqrt (toR (\sum_i sumsq1 (white1 (x i) (u i)))).
(* manifolds.py:132-139; r: the draws of rnd.randn + 1j * rnd.randn *)
Definition hpd_randvec x (r : stack) : stack :=
  let u := fun i => multiherm (r i) in fun i => ofR (hpd_norm x u)^-1 *: u i.
(* manifolds.py:141-146 *)
Definition hpd_zerovec x : stack := fun _ => 0.
Definition hpd_proj x u : stack := fun i => hproj1 (x i) (u i).
Definition hpd_egrad2rgrad x u : stack := fun i => hegrad1 (x i) (u i).
Definition hpd_ehess2rhess x egrad ehess u : stack := fun i => hehess1 (x i) (egrad i) (ehess i) (u i).
Definition hpd_exp x u : stack := fun i => hexp1 (x i) (u i).
Definition hpd_retr x u : stack := fun i => hretr1 (x i) (u i).
Definition hpd_log x y : stack := fun i => hlog1 (x i) (y i).
Definition hpd_transp x1 x2 d : stack := fun i => htransp1 (x1 i) (x2 i) (d i).
(* manifolds.py:250-256 *)
Definition hpd_dist x y : R := R_sqrt.sqrt (toR (\sum_i sumsq1 (hdistlog1 (x i) (y i)))).

(* ---- manifolds.py:259-367 SpecialHermitianPositiveDefinite ---- *)
(* manifolds.py:279 *)
Definition shpd_dim : nat := (k * (n * (n + 1) - 1))%N.
(* manifolds.py:286-289, 343-346, 353-356: x / real(det(x))**(1/n) *)
Definition normalize x : stack :=
  fun i => ofR (Rpower.Rpower (toR (\det (x i))) n%:R^-1)^-1 *: x i.
(* manifolds.py:282-291 *)
Definition shpd_rand (r : 'I_k -> 'rV[R]_n) (u : stack) : stack := normalize (hpd_rand r u).
(* manifolds.py:310-311, 313-314 *)
Definition shpd_inner x u v : R := hpd_inner x u v.
Definition shpd_norm x u : R := hpd_norm x u.
(* manifolds.py:316-330 *)
Definition shpd_proj x u : stack := fun i =>
  let u := multiherm (u i) in
  let t := \tr (solve (x i) u) in
  u - ofR (n%:R^-1 * toR t) *: x i.
(* manifolds.py:293-308; r: the draws of rnd.randn + 1j * rnd.randn *)
Definition shpd_randvec x (r : stack) : stack :=
  let u := shpd_proj x r in fun i => ofR (shpd_norm x u)^-1 *: u i.
(* manifolds.py:332-335 *)
Definition shpd_egrad2rgrad x u : stack := shpd_proj x (fun i => x i *m u i *m x i).
(* manifolds.py:337-346 *)
Definition shpd_exp x u : stack := normalize (hpd_exp x u).
(* manifolds.py:348-356 *)
Definition shpd_retr x u : stack := normalize (hpd_retr x u).
(* manifolds.py:358-359 *)
Definition shpd_log x y : stack := hpd_log x y.
(* manifolds.py:361-362 *)
Definition shpd_transp x1 x2 d : stack := shpd_proj x2 (hpd_transp x1 x2 d).
(* manifolds.py:364-365 *)
Definition shpd_dist x y : R := hpd_dist x y.
End Stack.
End HPD.

(* ---- manifolds.py:373-418 WeightedProduct ---- *)
(* the operations of a factor used by the product (a factor whose inner product is one number) *)
Record manifold := Manifold {
  m_pt : Type; m_tv : Type;
  m_inner : m_pt -> m_tv -> m_tv -> R;
  m_dist : m_pt -> m_pt -> R;
  m_egrad2rgrad : m_pt -> m_tv -> m_tv;
  m_ehess2rhess : m_pt -> m_tv -> m_tv -> m_tv -> m_tv;
  m_scale : R -> m_tv -> m_tv }.
Section Product.
Variable p : nat.
Variable M : 'I_p -> manifold.
Variable weights : 'I_p -> R.
Definition ppt := forall i, m_pt (M i).
Definition ptv := forall i, m_tv (M i).
(* manifolds.py:376-380: weights=None means ones *)
Definition default_weights : 'I_p -> R := fun _ => 1.
(* manifolds.py:386-389 *)
Definition wp_inner (X : ppt) (G H : ptv) : R := \sum_i weights i * m_inner (X i) (G i) (H i).
(* pymanopt Product.norm *)
Definition wp_norm (X : ppt) (G : ptv) : R := R_sqrt.sqrt (wp_inner X G G).
(* manifolds.py:391-394 *)
Definition wp_dist (X Y : ppt) : R := R_sqrt.sqrt (\sum_i weights i * m_dist (X i) (Y i) ^+ 2).
(* manifolds.py:396-400 *)
Definition wp_egrad2rgrad (X : ppt) (U : ptv) : ptv :=
  fun i => m_scale (1 / weights i) (m_egrad2rgrad (X i) (U i)).
(* manifolds.py:402-411 *)
Definition wp_ehess2rhess (X : ppt) (egrad ehess H : ptv) : ptv :=
  fun i => m_scale (1 / weights i) (m_ehess2rhess (X i) (egrad i) (ehess i) (H i)).
(* manifolds.py:413-418; u: the factors' random tangent vectors *)
Definition wp_randvec (u : ptv) : ptv :=
  let scale := Rpower.Rpower p%:R (- 2%:R^-1) in
  fun i => m_scale (scale * (1 / Rpower.Rpower (weights i) (- 2%:R^-1))) (u i).
End Product.

(* ---- manifolds.py:421-479 KroneckerHermitianPositiveElliptical, k = 1 ---- *)
Section Kron.
Variable K : starField.
Local Notation toR := (@toR K).
Local Notation ofR := (@ofR K).
Variables (a b : nat) (alpha : R).
Definition kpt := ('M[K]_a * 'M[K]_b)%type.
(* manifolds.py:446 *)
Definition kron_wA : R := alpha * b%:R.
Definition kron_wB : R := alpha * a%:R.
(* manifolds.py:450-479 *)
Definition kron_inner (theta xi eta : kpt) : R :=
  let _part_A := kron_wA * toR (inner1 theta.1 xi.1 eta.1) in
  let _part_B_xi := solve theta.2 xi.2 in
  let _part_B_eta := solve theta.2 eta.2 in
  let _part_B := kron_wB * toR (\sum_i \sum_j _part_B_xi i j * _part_B_eta^T i j)
    + (alpha - 1) * a%:R ^+ 2 * toR (\tr _part_B_xi * \tr _part_B_eta) in
  _part_A + _part_B.
(* inherited from WeightedProduct, manifolds.py:396-400 *)
Definition kron_egrad2rgrad (theta u : kpt) : kpt :=
  (ofR (1 / kron_wA) *: @shpd_egrad2rgrad K a 1 (fun _ => theta.1) (fun _ => u.1) ord0,
   ofR (1 / kron_wB) *: hegrad1 theta.2 u.2).
End Kron.
