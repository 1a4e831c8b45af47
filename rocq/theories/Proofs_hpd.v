(* Lemmas about the Hermitian positive definite manifold. *)
From Coq Require Import Reals.
From mathcomp Require Import all_ssreflect all_algebra.
From Verif Require Import RealsMC RealTac Star FunCalc Model_linalg Proofs_linalg Model_manifolds.
Set Implicit Arguments.
Unset Strict Implicit.
Unset Printing Implicit Defensive.
Local Open Scope ring_scope.
Import GRing.Theory Num.Theory Order.TTheory.

Section HPD.
Variable K : starField.
Local Notation cj := (@cj K).
Local Notation ofR := (@ofR K).
Local Notation toR := (@toR K).
Variable eigh : eigsolver K.
Hypothesis eighP : eigh_ok eigh.
Local Notation fsqrt := (fmx R_sqrt.sqrt).
Local Notation fexp := (fmx Rtrigo_def.exp).
Local Notation fln := (fmx Rpower.ln).

(* A A^H = x with A invertible *)
Definition factor n (A x : 'M[K]_n) := A \in unitmx /\ A *m A^H = x.
(* A^-1 u A^-H *)
Definition wh n (A u : 'M[K]_n) : 'M[K]_n := invmx A *m u *m (invmx A)^H.

Section S.
Variable n : nat.
Implicit Types x y u v w A B : 'M[K]_n.

Lemma fsqrt_pd x : pd x -> pd (fsqrt x).
Proof. by move=> px; apply: fmx_pd => [|r /(eigval_gt0 px) r0]; [exact: pd_herm|exact: sqrtR_gt0]. Qed.
Lemma fsqrt_sqr x : pd x -> fsqrt x *m fsqrt x = x.
Proof. by move=> px; rewrite -(sqrtmE eighP) ?sqrtm_sqr //; [exact: pd_psd|exact: pd_herm]. Qed.
Lemma factor_sqrt x : pd x -> factor (fsqrt x) x.
Proof.
move=> px; split; first exact/pd_unit/fsqrt_pd.
by rewrite (pd_herm (fsqrt_pd px)) fsqrt_sqr.
Qed.
Lemma factor_pd A x : factor A x -> pd x.
Proof. by move=> [uA <-]; rewrite -[A in A *m _]mulmx1; apply: pd_congr (pd1 _ _). Qed.
Lemma invmxM' A B : A \in unitmx -> B \in unitmx -> invmx (A *m B) = invmx B *m invmx A.
Proof.
move=> uA uB; have u : A *m B \in unitmx by rewrite unitmx_mul uA.
by rewrite -[RHS]mulmx1 -(mulmxV u) !mulmxA -(mulmxA (invmx B)) mulVmx // mulmx1 mulVmx // mul1mx.
Qed.
Lemma factor_inv A x : factor A x -> invmx x = (invmx A)^H *m invmx A.
Proof.
move=> [uA <-]; have uH : A^H \in unitmx by rewrite unitmx_adj.
by rewrite invmxM' // adjV.
Qed.
Lemma adjI A : A \in unitmx -> A^H *m (invmx A)^H = 1%:M.
Proof. by move=> uA; rewrite -adjM mulVmx // adj1. Qed.
Lemma adjIV A : A \in unitmx -> (invmx A)^H *m A^H = 1%:M.
Proof. by move=> uA; rewrite -adjM mulmxV // adj1. Qed.
Lemma whK A u : A \in unitmx -> A *m wh A u *m A^H = u.
Proof. by move=> uA; rewrite /wh !mulmxA mulmxV // mul1mx -mulmxA adjIV // mulmx1. Qed.
Lemma unwhK A u : A \in unitmx -> wh A (A *m u *m A^H) = u.
Proof. by move=> uA; rewrite /wh !mulmxA mulVmx // mul1mx -mulmxA adjI // mulmx1. Qed.
Lemma wh_herm A u : herm u -> herm (wh A u). Proof. exact: herm_congr. Qed.
Lemma wh_pd A u : A \in unitmx -> pd u -> pd (wh A u).
Proof. by move=> uA; apply: pd_congr; rewrite unitmx_inv. Qed.
Lemma wh_self A x : factor A x -> wh A x = 1%:M.
Proof. by move=> [uA <-]; rewrite -[A in A *m _]mulmx1 unwhK. Qed.
Lemma whD A u v : wh A (u + v) = wh A u + wh A v. Proof. by rewrite /wh mulmxDr mulmxDl. Qed.
Lemma whZ A c u : wh A (c *: u) = c *: wh A u. Proof. by rewrite /wh -scalemxAr -scalemxAl. Qed.
Lemma wh_change A B x : factor A x -> factor B x -> exists2 U, unitary U & forall u, wh B u = U *m wh A u *m U^H.
Proof.
move=> [uA eA] [uB eB]; exists (invmx B *m A).
  have h : (invmx B *m A) *m (invmx B *m A)^H = 1%:M.
    by rewrite adjM !mulmxA -(mulmxA (invmx B)) eA -eB mulmxA mulVmx // mul1mx adjI.
  rewrite /unitary; exact: mulmx1C.
move=> u; rewrite -[u in LHS](whK u uA) /wh adjM !mulmxA; congr (_ *m _).
Qed.
Lemma inner1E x u v : inner1 x u v = \tr (invmx x *m u *m (invmx x *m v)).
Proof.
rewrite /inner1 /mxtrace; apply: eq_bigr => i _; rewrite mxE; apply: eq_bigr => j _.
by rewrite [X in _ * X]mxE.
Qed.
Lemma inner_wh A x u v : factor A x -> inner1 x u v = \tr (wh A u *m wh A v).
Proof.
move=> f; rewrite inner1E (factor_inv f) /wh -!mulmxA mxtrace_mulC -!mulmxA; congr (\tr (_ *m (_ *m (_ *m _)))).
Qed.
Lemma sumsq1E u : sumsq1 u = ofR (fro2 u).
Proof.
rewrite /sumsq1 /fro2 rmorph_sum; apply: eq_bigr => i _; rewrite rmorph_sum; apply: eq_bigr => j _.
by rewrite ofR_toR_ge0 ?mul_cj_ge0.
Qed.
Lemma fro2_wh A B x u : factor A x -> factor B x -> fro2 (wh A u) = fro2 (wh B u).
Proof.
by move=> fA fB; have [U uU ->] := wh_change fA fB; rewrite fro2_unitary //; apply: unitary_adj.
Qed.
Lemma fro2_fln_wh A B x y f : herm y -> factor A x -> factor B x -> fro2 (fmx f (wh A y)) = fro2 (fmx f (wh B y)).
Proof.
move=> hy fA fB; have [U uU ->] := wh_change fA fB; rewrite fmx_unitary //; last exact: wh_herm.
by rewrite fro2_unitary //; apply: unitary_adj.
Qed.
Lemma inner_self A x u : factor A x -> herm u -> inner1 x u u = ofR (fro2 (wh A u)).
Proof. by move=> f hu; rewrite (inner_wh _ _ f) fro2_tr; have -> : (wh A u)^H = wh A u by exact: wh_herm. Qed.
Lemma inner_real A x u v : factor A x -> herm u -> herm v -> cj (inner1 x u v) = inner1 x u v.
Proof.
move=> f hu hv; rewrite (inner_wh _ _ f) -mxtrace_adj adjM mxtrace_mulC.
by have [-> ->] : (wh A u)^H = wh A u /\ (wh A v)^H = wh A v by split; exact: wh_herm.
Qed.
Lemma innerC x u v : inner1 x u v = inner1 x v u.
Proof. by rewrite !inner1E mxtrace_mulC. Qed.

(* the exponential and the logarithm *)
Lemma diagfE f (d : 'rV[R]_n) : diagf K f d = dia K (map_mx f d).
Proof. by rewrite /diagf /dia -map_mx_comp. Qed.
Lemma hexp1_def x u : hexp1 eigh x u = multiherm (sqrtm eigh x *m expm eigh (invsqrtm eigh x *m u *m invsqrtm eigh x) *m sqrtm eigh x).
Proof.
rewrite /hexp1 /sqrtm /expm /invsqrtm /_matrix_operator; case: (eigh x) => d q.
by rewrite /diagf /multihconj -!map_trmx; case: (eigh _) => d' q'; rewrite -map_trmx.
Qed.
Lemma hlog1_def x u : hlog1 eigh x u = multiherm (sqrtm eigh x *m logm eigh (invsqrtm eigh x *m u *m invsqrtm eigh x) *m sqrtm eigh x).
Proof.
rewrite /hlog1 /sqrtm /logm /invsqrtm /_matrix_operator; case: (eigh x) => d q.
by rewrite /diagf /multihconj -!map_trmx; case: (eigh _) => d' q'; rewrite -map_trmx.
Qed.
Lemma isqrtE x : pd x -> invsqrtm eigh x = invmx (fsqrt x).
Proof.
move=> px; have := sqrtm_inv eighP px; rewrite (sqrtmE eighP (pd_herm px)) => h.
have u := pd_unit (fsqrt_pd px); by rewrite -[LHS]mul1mx -(mulVmx u) -mulmxA h mulmx1.
Qed.
Lemma isqrt_wh x u : pd x -> invsqrtm eigh x *m u *m invsqrtm eigh x = wh (fsqrt x) u.
Proof. by move=> px; rewrite isqrtE // /wh (pd_herm (pd_inv (fsqrt_pd px))). Qed.
Lemma sqrt_congr x w : pd x -> fsqrt x *m w *m fsqrt x = fsqrt x *m w *m (fsqrt x)^H.
Proof. by move=> px; rewrite [in RHS](pd_herm (fsqrt_pd px)). Qed.
Lemma hexpE x u : pd x -> herm u -> hexp1 eigh x u = fsqrt x *m fexp (wh (fsqrt x) u) *m fsqrt x.
Proof.
move=> px hu; rewrite hexp1_def isqrt_wh // (sqrtmE eighP (pd_herm px)) /expm (moE eighP); last exact: wh_herm.
rewrite sqrt_congr //; apply: multiherm_id; apply: herm_congr; exact: fmx_herm.
Qed.
Lemma hlogE x u : pd x -> herm u -> hlog1 eigh x u = fsqrt x *m fln (wh (fsqrt x) u) *m fsqrt x.
Proof.
move=> px hu; rewrite hlog1_def isqrt_wh // (sqrtmE eighP (pd_herm px)) /logm (moE eighP); last exact: wh_herm.
rewrite sqrt_congr //; apply: multiherm_id; apply: herm_congr; exact: fmx_herm.
Qed.
Lemma fexp_fln x : pd x -> fexp (fln x) = x.
Proof. by move=> px; have := expm_logm eighP px; rewrite /expm /logm (moE eighP _ (pd_herm px)) (moE eighP) //; apply: fmx_herm. Qed.
Lemma fln_fexp x : herm x -> fln (fexp x) = x.
Proof. by move=> hx; have := logm_expm eighP hx; rewrite /expm /logm (moE eighP _ hx) (moE eighP) //; apply: fmx_herm. Qed.
Lemma fexp_pd x : herm x -> pd (fexp x).
Proof. by move=> hx; have := expm_pd eighP hx; rewrite /expm (moE eighP). Qed.
Lemma hexp_pd x u : pd x -> herm u -> pd (hexp1 eigh x u).
Proof.
move=> px hu; rewrite hexpE // sqrt_congr //; apply: pd_congr; first exact/pd_unit/fsqrt_pd.
by apply/fexp_pd/wh_herm.
Qed.
Lemma hlog_herm x u : herm (hlog1 eigh x u).
Proof. rewrite hlog1_def; exact: herm_multiherm. Qed.
Lemma wh_hlog x y : pd x -> herm y -> wh (fsqrt x) (hlog1 eigh x y) = fln (wh (fsqrt x) y).
Proof. by move=> px hy; rewrite hlogE // sqrt_congr // unwhK //; apply/pd_unit/fsqrt_pd. Qed.
Lemma wh_hexp x u : pd x -> herm u -> wh (fsqrt x) (hexp1 eigh x u) = fexp (wh (fsqrt x) u).
Proof. by move=> px hy; rewrite hexpE // sqrt_congr // unwhK //; apply/pd_unit/fsqrt_pd. Qed.
Lemma hexp_log x y : pd x -> pd y -> hexp1 eigh x (hlog1 eigh x y) = y.
Proof.
move=> px py; have uS := pd_unit (fsqrt_pd px); rewrite hexpE //; last exact: hlog_herm.
rewrite wh_hlog //; last exact: pd_herm.
by rewrite fexp_fln ?sqrt_congr ?whK //; apply: wh_pd.
Qed.
Lemma hlog_exp x u : pd x -> herm u -> hlog1 eigh x (hexp1 eigh x u) = u.
Proof.
move=> px hu; have uS := pd_unit (fsqrt_pd px); rewrite hlogE //; last exact/pd_herm/hexp_pd.
by rewrite wh_hexp // fln_fexp ?sqrt_congr ?whK //; apply: wh_herm.
Qed.
End S.

(* norm and distance *)
Variable cholesky : forall n, 'M[K]_n -> 'M[K]_n.
Hypothesis cholP : forall n (x : 'M[K]_n), pd x -> cholesky x *m (cholesky x)^H = x.
Lemma factor_chol n (x : 'M[K]_n) : pd x -> factor (cholesky x) x.
Proof.
move=> px; have e := cholP px; split=> //; have : cholesky x *m (cholesky x)^H \in unitmx by rewrite e; exact: pd_unit.
by rewrite unitmx_mul => /andP [].
Qed.
Lemma white1E n (x u : 'M[K]_n) : white1 cholesky x u = wh (cholesky x) u.
Proof. by rewrite /white1 multihconjE. Qed.
Lemma hdistlog1E n (x y : 'M[K]_n) : pd x -> herm y -> hdistlog1 eigh cholesky x y = fln (wh (cholesky x) y).
Proof.
move=> px hy; rewrite -(moE eighP); last exact: wh_herm.
rewrite /hdistlog1 white1E /_matrix_operator /diagf; case: (eigh _) => d q; by rewrite /multihconj -map_trmx.
Qed.
End HPD.
