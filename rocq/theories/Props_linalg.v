(* Theorems about robuststats/utils/linalg.py: C61 (matrix functions), C62 (Toeplitz). *)
From Coq Require Import Reals.
From mathcomp Require Import all_ssreflect all_algebra.
From mathcomp Require Import complex.
From Verif Require Import RealsMC Star StarInst FunCalc Model_linalg Proofs_linalg.
Set Implicit Arguments.
Unset Strict Implicit.
Unset Printing Implicit Defensive.
Local Open Scope ring_scope.
Import GRing.Theory Num.Theory Order.TTheory.

(* An eigensolver meeting [eigh_ok] exists over every star field (non-vacuity of the
   hypothesis on eigh in every theorem below). *)
Theorem C61_eigensolver_exists (K : starField) : exists eigh : eigsolver K, eigh_ok eigh.
Proof.
exists (fun n A => specdec A) => n A hA.
by have [uV e] := specdecP hA; case: (specdec A) uV e.
Qed.

Lemma fmx_eigvec (K : starField) n (A : 'M[K]_n) f r (u : 'cV[K]_n) : herm A ->
  A *m u = @ofR K r *: u -> fmx f A *m u = @ofR K (f r) *: u.
Proof.
move=> hA; have [uV e] := specdecP hA; rewrite fmxE.
move: (specdec A).1 (specdec A).2 uV e => d V uV e Au.
have h : dia K d *m (V^H *m u) = @ofR K r *: (V^H *m u).
  by rewrite scalemxAr -Au e -!mulmxA [V^H *m (V *m _)]mulmxA uV mul1mx.
have g : dia K (map_mx f d) *m (V^H *m u) = @ofR K (f r) *: (V^H *m u).
  apply/matrixP => i j; have := congr1 (fun M : 'cV_n => M i j) h.
  have sc (c : K) (B : 'cV[K]_n) : (c *: B) i j = c * B i j by rewrite mxE.
  rewrite !mul_dia_mx !sc [map_mx _ _ _ _]mxE => /eqP.
  rewrite -subr_eq0 -mulrBl mulf_eq0 => /orP [|/eqP ->]; last by rewrite !mulr0.
  by rewrite subr_eq0 => /eqP /ofR_inj ->.
by rewrite -!mulmxA g -scalemxAr mulmxA unitaryV // mul1mx.
Qed.

(* C61: each function of a Hermitian matrix has the eigenvectors of the matrix, with the
   function of the eigenvalue as eigenvalue. *)
Theorem C61_acts_on_eigenvectors (K : starField) (eigh : eigsolver K) n (A : 'M[K]_n) (r : R) (u : 'cV[K]_n) :
  eigh_ok eigh -> herm A -> A *m u = @ofR K r *: u ->
  [/\ sqrtm eigh A *m u = @ofR K (R_sqrt.sqrt r) *: u,
      invsqrtm eigh A *m u = @ofR K (1 / R_sqrt.sqrt r) *: u,
      logm eigh A *m u = @ofR K (ln r) *: u,
      expm eigh A *m u = @ofR K (Rtrigo_def.exp r) *: u &
      forall a, powm eigh A a *m u = @ofR K (Rpower r a) *: u].
Proof.
move=> ok hA Au; rewrite /sqrtm /invsqrtm /logm /expm /powm.
split; last move=> a; rewrite moE //; exact: fmx_eigvec Au.
Qed.

(* C61: the results do not depend on the eigensolver *)
Theorem C61_eigensolver_irrelevant (K : starField) (e1 e2 : eigsolver K) n (A : 'M[K]_n) :
  eigh_ok e1 -> eigh_ok e2 -> herm A ->
  [/\ sqrtm e1 A = sqrtm e2 A, invsqrtm e1 A = invsqrtm e2 A, logm e1 A = logm e2 A,
      expm e1 A = expm e2 A & forall a, powm e1 A a = powm e2 A a].
Proof.
by move=> o1 o2 hA; rewrite /sqrtm /invsqrtm /logm /expm /powm; split; last move=> a; rewrite !moE.
Qed.

Theorem C61_square_roots (K : starField) (eigh : eigsolver K) n (A : 'M[K]_n) : eigh_ok eigh ->
  (psd A -> [/\ psd (sqrtm eigh A), sqrtm eigh A *m sqrtm eigh A = A &
                forall B, psd B -> B *m B = A -> B = sqrtm eigh A]) /\
  (pd A -> [/\ pd (sqrtm eigh A), pd (invsqrtm eigh A),
               invsqrtm eigh A *m A *m invsqrtm eigh A = 1%:M,
               invsqrtm eigh A *m invsqrtm eigh A = invmx A &
               sqrtm eigh A *m invsqrtm eigh A = 1%:M]).
Proof.
move=> ok; split=> pA.
  split; [exact: sqrtm_psd | exact: sqrtm_sqr |].
  by move=> B pB e; rewrite sqrtmE //; [exact: psd_sqrt_uniq | exact: psd_herm].
split; [exact: sqrtm_pd | exact: invsqrtm_pd | exact: invsqrtm_congr | exact: invsqrtm_sqr | exact: sqrtm_inv].
Qed.

Theorem C61_exp_log (K : starField) (eigh : eigsolver K) n (A : 'M[K]_n) : eigh_ok eigh ->
  (herm A -> [/\ herm (logm eigh A), pd (expm eigh A) & logm eigh (expm eigh A) = A]) /\
  (pd A -> expm eigh (logm eigh A) = A).
Proof.
move=> ok; split=> hA; last exact: expm_logm.
by split; [exact: logm_herm | exact: expm_pd | exact: logm_expm].
Qed.

Theorem C61_powers (K : starField) (eigh : eigsolver K) n (A : 'M[K]_n) : eigh_ok eigh -> pd A ->
  [/\ forall a, pd (powm eigh A a),
      forall a b, powm eigh A a *m powm eigh A b = powm eigh A (a + b),
      powm eigh A 1 = A /\ powm eigh A 0 = 1%:M,
      powm eigh A (2%:R^-1) = sqrtm eigh A &
      powm eigh A (-1) = invmx A].
Proof.
move=> ok pA; split; [| | split; [exact: powm1 | exact: powm0] | exact: powm_half |].
- by move=> a; exact: powm_pd.
- by move=> a b; exact: powmD.
- have e : powm eigh A (-1) *m A = 1%:M by rewrite -{2}(powm1 ok pA) powmD // addNr powm0.
  by rewrite -[LHS]mulmx1 -(mulmxV (pd_unit pA)) mulmxA e mul1mx.
Qed.

(* C62 holds when |rho| <= 1 ... *)
Theorem C62_toeplitz_partial (K : starField) (rho : K) p :
  [/\ herm (ToeplitzMatrix rho p),
      forall i, ToeplitzMatrix rho p i i = 1,
      forall i j : 'I_p, (j <= i)%N -> ToeplitzMatrix rho p i j = rho ^+ (i - j),
      rho * @cj K rho <= 1 -> psd (ToeplitzMatrix rho p) &
      rho * @cj K rho < 1 -> pd (ToeplitzMatrix rho p)].
Proof.
split; [exact: toeplitz_herm | | | exact: toeplitz_psd | exact: toeplitz_pd].
- by move=> i; rewrite mxE leqnn subnn expr0.
- by move=> i j ji; rewrite mxE ji.
Qed.
(* ... its determinant is (1-|rho|^2)^(p-1) ... *)
Theorem C62_toeplitz_determinant (K : starField) (rho : K) p :
  \det (ToeplitzMatrix rho p) = (1 - rho * @cj K rho) ^+ p.-1.
Proof. exact: toeplitz_det. Qed.
(* ... and it is never positive semidefinite when |rho| > 1 and p >= 2. *)
Theorem C62_toeplitz_refuted (K : starField) (rho : K) p : 1 < rho * @cj K rho -> (2 <= p)%N ->
  ~ psd (ToeplitzMatrix rho p).
Proof.
case: p => [//|[//|p]] h _ [_ ps].
pose x : 'cV[K]_p.+2 := \col_i (if i == 0%N :> nat then - @cj K rho else if i == 1%N :> nat then 1 else 0).
have := ps x; rewrite /qf /sesq mxE big_ord_recl big_ord_recl big1 ?addr0; last first.
  by move=> i _; rewrite [x _ _]mxE /= mulr0.
rewrite ![x _ _]mxE /= !mxE !big_ord_recl big1 ?addr0; last first.
  by move=> i _; rewrite !mxE /= rmorph0 mul0r.
rewrite [X in _ + (_ + X)]big1 ?addr0; last by move=> i _; rewrite adjE !mxE /= rmorph0 mul0r.
rewrite !adjE !mxE /= rmorphN cjK rmorph1 !mulr1 !mul1r ?subn0 ?subnn ?expr0 ?expr1 ?mulr1 addNr mul0r add0r.
rewrite mulNr addrC subr_ge0 => g; by have := lt_le_trans h g; rewrite ltxx.
Qed.
Example C62_refuted_ex : ~ psd (ToeplitzMatrix (2%:R : complex_sf) 2).
Proof. by apply: C62_toeplitz_refuted => //; rewrite rmorph_nat -natrM (ltr_nat _ 1 4). Qed.
(* a complex, non-diagonal matrix to which the theorems on positive definite matrices apply *)
Example C61_ex : pd (ToeplitzMatrix (Complex 0 2%:R^-1 : complex_sf) 3).
Proof.
apply: toeplitz_pd; rewrite -[_ * _](@ofR_toR_ge0 complex_sf); last exact: mul_cj_ge0.
rewrite -(rmorph1 (@ofR complex_sf)) ofR_lt /= mul0r mulrN opprK add0r -invfM -natrM.
by rewrite invf_lt1 ?(ltr_nat _ 1 4) // ltr0n.
Qed.

Print Assumptions C61_eigensolver_exists.
Print Assumptions C61_acts_on_eigenvectors.
Print Assumptions C61_eigensolver_irrelevant.
Print Assumptions C61_square_roots.
Print Assumptions C61_exp_log.
Print Assumptions C61_powers.
Print Assumptions C62_toeplitz_partial.
Print Assumptions C62_toeplitz_determinant.
Print Assumptions C62_toeplitz_refuted.
