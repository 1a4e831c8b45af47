(* The two star fields: complex numbers and real numbers.  Nothing here models code. *)
From Coq Require Import Reals.
From mathcomp Require Import all_ssreflect all_algebra.
From mathcomp Require Import complex.
From Verif Require Import RealsMC Star.
Set Implicit Arguments.
Unset Strict Implicit.
Unset Printing Implicit Defensive.
Local Open Scope ring_scope.
Import GRing.Theory Num.Theory Order.TTheory.

Notation C := (ComplexField.complex_numFieldType R_rcfType).

Lemma C_of_cj (x : C) : conjc x = x -> x = (complex.Re x)%:C%C.
Proof.
case: x => a b [] h; congr Complex; apply/eqP; rewrite -[_ == _](@mulrn_eq0 _ b 2).
by rewrite mulr2n -{1}h addNr.
Qed.

Lemma complex_eig n (A : 'M[C]_n.+1) : (map_mx (@conjc R_ringType) A)^T = A ->
    exists r : R, exists2 u : 'cV_n.+1, u != 0 & A *m u = (r%:C%C : C) *: u.
Proof.
move=> hA.
have [a ra] : exists a : C, root (char_poly A) a.
  apply/(@closed_rootP (complex_closedField R_rcfType)).
  by rewrite size_char_poly.
have /eigenvalueP [v vA v0] : eigenvalue A a by rewrite eigenvalue_root_char.
pose u := (map_mx (@conjc R_ringType) v)^T.
have u0 : u != 0 by rewrite trmx_eq0 map_mx_eq0.
have Au : A *m u = conjc a *: u.
  apply: trmx_inj; rewrite trmx_mul trmxK linearZ /= trmxK.
  have -> : A^T = map_mx (@conjc R_ringType) A.
    by rewrite -{1}hA trmxK.
  by rewrite -map_mxM vA map_mxZ.
have cc (x : 'cV[C]_n.+1) : conjc (((map_mx (@conjc R_ringType) x)^T *m x) 0 0) = ((map_mx (@conjc R_ringType) x)^T *m x) 0 0.
  rewrite mxE rmorph_sum; apply: eq_bigr => i _; rewrite !mxE rmorphM.
  by rewrite [X in X * _]conjcK mulrC.
have nu : ((map_mx (@conjc R_ringType) u)^T *m u) 0 0 != 0.
  apply: contraNneq u0; rewrite mxE => h; apply/eqP/matrixP => i j; rewrite (ord1 j) [RHS]mxE.
  have/psumr_eq0P h2 : \sum_i u i 0 * conjc (u i 0) = 0.
    by rewrite -[RHS]h; apply: eq_bigr => k _; rewrite !mxE mulrC.
  have /eqP := h2 (fun i _ => mulcJ_ge0 (u i 0)) i isT.
  by rewrite mulf_eq0 conjc_eq0 orbb => /eqP.
have ar : conjc a = a.
  pose q := ((map_mx (@conjc R_ringType) u)^T *m (A *m u)) 0 0.
  have q1 : q = conjc a * ((map_mx (@conjc R_ringType) u)^T *m u) 0 0.
    by rewrite /q Au -scalemxAr mxE.
  have q2 : conjc q = q.
    have eM (M := (map_mx (@conjc R_ringType) u)^T *m (A *m u)) : (map_mx (@conjc R_ringType) M)^T = M.
      rewrite /M !map_mxM !trmx_mul hA mulmxA; congr (_ *m _ *m _).
      by apply/matrixP => i j; rewrite !mxE [LHS]conjcK.
    by have := congr1 (fun M : 'M_1 => M 0 0) eM; rewrite /q [X in X = _]mxE [X in X = _]mxE.
  have : conjc q = conjc (conjc a) * ((map_mx (@conjc R_ringType) u)^T *m u) 0 0.
    by rewrite q1 rmorphM /= cc.
  by rewrite q2 q1 => /(mulIf nu) h; rewrite h conjcK.
exists (complex.Re a), u => //.
by rewrite Au {1}ar {1}(C_of_cj ar).
Qed.

Lemma C_toRK : cancel (real_complex R_rcfType) (@complex.Re R).
Proof. by []. Qed.
Lemma C_ofRK (x : C) : conjc x = x -> (complex.Re x)%:C%C = x.
Proof. by move=> h; rewrite -C_of_cj. Qed.
Lemma C_toRZ (r : R) (x : C) : complex.Re (r%:C%C * x) = r * complex.Re x.
Proof. by case: x => a b /=; rewrite mul0r subr0. Qed.
Lemma C_toR_cj (x : C) : complex.Re (conjc x) = complex.Re x.
Proof. by case: x. Qed.
Lemma C_ofR_ge0 (r : R) : (0 <= (r%:C%C : C)) = (0 <= r).
Proof. exact: ler0c. Qed.
Lemma C_cj_ge0 (x : C) : 0 <= x -> conjc x = x.
Proof. by move=> /ger0_Im; case: x => a b /= ->; rewrite oppr0. Qed.

Canonical complex_sf : starField :=
  @StarField C (conjc_rmorphism R_rcfType) (ComplexField.real_complex_rmorphism R_rcfType) (ComplexField.Re_additive R_rcfType)
    (@conjcK _) (@conjc_real _) C_toRK C_ofRK C_toRZ C_toR_cj C_ofR_ge0 C_cj_ge0 (@mulcJ_ge0 _) complex_eig.

Lemma real_eig n (A : 'M[R]_n.+1) : (map_mx idfun A)^T = A ->
    exists r : R, exists2 u : 'cV_n.+1, u != 0 & A *m u = r *: u.
Proof.
move=> hA0; have hA : A^T = A by rewrite -{2}hA0; congr _^T; apply/matrixP => i j; rewrite mxE.
pose AC : 'M[C]_n.+1 := map_mx (real_complex R_rcfType) A.
have [|r [u u0 Au]] := @complex_eig n AC.
  by apply/matrixP => i j; rewrite !mxE [LHS]conjc_real -{1}hA mxE.
have : root (char_poly A) r.
  rewrite -(fmorph_root (ComplexField.real_complex_rmorphism R_rcfType)) map_char_poly -eigenvalue_root_char.
  apply/eigenvalueP; exists (map_mx (@conjc R_ringType) u)^T.
    apply: trmx_inj; rewrite trmx_mul trmxK linearZ /= trmxK.
    have -> : (map_mx (ComplexField.real_complex_rmorphism R_rcfType) A)^T = map_mx (@conjc R_ringType) AC.
      by apply/matrixP => i j; rewrite !mxE [RHS]conjc_real -{1}hA mxE.
    by rewrite -[LHS]map_mxM Au map_mxZ /= oppr0.
  by rewrite trmx_eq0 map_mx_eq0.
rewrite -eigenvalue_root_char => /eigenvalueP [v vA v0].
exists r, v^T; last by apply: trmx_inj; rewrite trmx_mul trmxK hA vA linearZ /= trmxK.
by rewrite trmx_eq0.
Qed.

Lemma R_mul_cj_ge0 (x : R) : 0 <= x * idfun x.
Proof. by rewrite -expr2 sqr_ge0. Qed.
Lemma R_ofRK (x : R) : idfun x = x -> idfun (idfun x) = x. Proof. by []. Qed.
Canonical real_sf : starField :=
  @StarField R_numFieldType (GRing.idfun_rmorphism _) (GRing.idfun_rmorphism _) (GRing.idfun_additive _)
    (fun _ => erefl) (fun _ => erefl) (fun _ => erefl) R_ofRK (fun _ _ => erefl) (fun _ => erefl) (fun _ => erefl)
    (fun _ _ => erefl) R_mul_cj_ge0 real_eig.
