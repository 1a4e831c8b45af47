(* Functions of Hermitian matrices.  [fmx f A] is V diag(f d) V^H for one eigendecomposition of
   A; [fmx_dec] says that every eigendecomposition gives the same matrix.  No code modelled. *)
From Coq Require Import Reals Epsilon.
From mathcomp Require Import all_ssreflect all_algebra.
From Verif Require Import RealsMC Star.
Set Implicit Arguments.
Unset Strict Implicit.
Unset Printing Implicit Defensive.
Local Open Scope ring_scope.
Import GRing.Theory Num.Theory Order.TTheory.

Section FunCalc.
Variable K : starField.
Local Notation cj := (@cj K).
Local Notation ofR := (@ofR K).
Local Notation toR := (@toR K).

Definition specdec n (A : 'M[K]_n) : 'rV[R]_n * 'M[K]_n :=
  epsilon (inhabits (0, 1%:M)) (fun dV => eigdec A dV.1 dV.2).
Definition fmx n (f : R -> R) (A : 'M[K]_n) : 'M[K]_n :=
  (specdec A).2 *m dia K (map_mx f (specdec A).1) *m (specdec A).2^H.
(* r is an eigenvalue of A *)
Definition eigval n (A : 'M[K]_n) (r : R) := exists2 u : 'cV[K]_n, u != 0 & A *m u = ofR r *: u.

Lemma specdecP n (A : 'M[K]_n) : herm A -> eigdec A (specdec A).1 (specdec A).2.
Proof.
move=> /spectral [d [V h]]; rewrite /specdec.
by apply: (epsilon_spec (inhabits (0, 1%:M)) (fun dV : 'rV[R]_n * 'M[K]_n => eigdec A dV.1 dV.2)); exists (d, V).
Qed.

Lemma eigdec_herm n (A : 'M[K]_n) d V : eigdec A d V -> herm A.
Proof. by move=> [_ ->]; apply: herm_congr; apply: adj_dia. Qed.

Lemma eigdec_eigval n (A : 'M[K]_n) d V j : eigdec A d V -> eigval A (d 0 j).
Proof.
move=> [uV ->]; exists (V *m delta_mx j 0).
  apply/negP => /eqP h; have : delta_mx j 0 != 0 :> 'cV[K]_n.
    by apply/negP => /eqP/matrixP /(_ j 0); rewrite !mxE !eqxx /=; apply/eqP/oner_neq0.
  by rewrite -[delta_mx j 0]mul1mx -uV -mulmxA h mulmx0 eqxx.
rewrite -!mulmxA (mulmxA V^H) uV mul1mx scalemxAr; congr (_ *m _).
apply/matrixP => i k; rewrite (ord1 k) mul_dia_mx !mxE eqxx andbT.
by case: eqP => [->|] //=; rewrite !mulr0.
Qed.

Lemma eigval_qf n (A : 'M[K]_n) r : eigval A r -> exists2 u : 'cV[K]_n, u != 0 & qf A u = ofR r * (u^H *m u) 0 0.
Proof. by move=> [u u0 h]; exists u => //; rewrite /qf /sesq -mulmxA h -scalemxAr mxE. Qed.
Lemma eigval_ge0 n (A : 'M[K]_n) r : psd A -> eigval A r -> 0 <= r.
Proof.
move=> [_ p] /eigval_qf [u u0 h]; have := p u; rewrite h pmulr_lge0 ?normcol_gt0 //.
by rewrite ofRge0.
Qed.
Lemma eigval_gt0 n (A : 'M[K]_n) r : pd A -> eigval A r -> 0 < r.
Proof.
move=> [_ p] /eigval_qf [u u0 h]; have := p u u0; rewrite h pmulr_lgt0 ?normcol_gt0 //.
by rewrite ofR_gt0.
Qed.

(* independence of the eigendecomposition *)
Lemma eigdec_fun n (d e : 'rV[R]_n) (V W : 'M[K]_n) (f : R -> R) :
  unitary V -> unitary W -> V *m dia K d *m V^H = W *m dia K e *m W^H ->
  V *m dia K (map_mx f d) *m V^H = W *m dia K (map_mx f e) *m W^H.
Proof.
move=> uV uW h; pose U := W^H *m V.
have hU : U *m dia K d = dia K e *m U.
  rewrite /U -mulmxA -[dia K d]mulmx1 -uV !mulmxA -(mulmxA _ V) -(mulmxA W^H) h.
  by rewrite !mulmxA uW mul1mx.
have fU : U *m dia K (map_mx f d) = dia K (map_mx f e) *m U.
  apply/matrixP => i j; have /matrixP/(_ i j) := hU.
  rewrite !mul_mx_dia !mul_dia_mx !mxE mulrC => /eqP; rewrite -subr_eq0 -mulrBl mulf_eq0.
  case/orP; last by move=> /eqP ->; rewrite mulr0 mul0r.
  by rewrite subr_eq0 => /eqP/ofR_inj ->; rewrite mulrC.
have eV : V = W *m U by rewrite /U mulmxA unitaryV ?mul1mx.
have UV : U *m V^H = W^H by rewrite /U -mulmxA unitaryV ?mulmx1.
clearbody U; rewrite {1}eV -(mulmxA W) fU -!mulmxA UV.
by [].
Qed.

Lemma fmx_dec n (A : 'M[K]_n) d V f : eigdec A d V -> fmx f A = V *m dia K (map_mx f d) *m V^H.
Proof.
move=> dV; have [uS eS] := specdecP (eigdec_herm dV); have [uV eV] := dV.
by apply: eigdec_fun => //; rewrite -eS -eV.
Qed.

Lemma fmxE n (A : 'M[K]_n) f : fmx f A = (specdec A).2 *m dia K (map_mx f (specdec A).1) *m (specdec A).2^H.
Proof. by []. Qed.

Lemma fmx_herm n f (A : 'M[K]_n) : herm (fmx f A).
Proof. by apply: herm_congr; apply: adj_dia. Qed.

Lemma eigdec_fmx n f (A : 'M[K]_n) d V : eigdec A d V -> eigdec (fmx f A) (map_mx f d) V.
Proof. by move=> h; rewrite (fmx_dec _ h); split=> //; case: h. Qed.

Lemma eq_in_fmx n f g (A : 'M[K]_n) : herm A -> (forall r, eigval A r -> f r = g r) -> fmx f A = fmx g A.
Proof.
move=> hA fg; rewrite !fmxE; congr (_ *m dia K _ *m _); apply/matrixP => i j.
by rewrite !mxE (ord1 i); apply: fg; exact: eigdec_eigval (specdecP hA).
Qed.

Lemma fmx_comp n f g (A : 'M[K]_n) : herm A -> fmx f (fmx g A) = fmx (f \o g) A.
Proof.
move=> hA; have h := specdecP hA.
rewrite (fmx_dec f (eigdec_fmx g h)) (fmx_dec _ h); congr (_ *m dia K _ *m _).
by apply/matrixP => i j; rewrite !mxE.
Qed.

Lemma fmxM n f g (A : 'M[K]_n) : herm A -> fmx f A *m fmx g A = fmx (fun x => f x * g x) A.
Proof.
move=> hA; have [uV _] := specdecP hA; rewrite !fmxE -!mulmxA; congr (_ *m _).
rewrite !mulmxA -(mulmxA (dia K _) _ (specdec A).2) uV mulmx1; congr (_ *m _).
by rewrite diaM; congr (dia K _); apply/matrixP => i j; rewrite !mxE (ord1 i).
Qed.
Lemma fmxC n f g (A : 'M[K]_n) : herm A -> fmx f A *m fmx g A = fmx g A *m fmx f A.
Proof. by move=> hA; rewrite !fmxM //; apply: eq_in_fmx => // r _; rewrite mulrC. Qed.
Lemma fmx_id n (A : 'M[K]_n) : herm A -> fmx id A = A.
Proof.
move=> hA; have [_ eA] := specdecP hA; rewrite {2}eA fmxE; congr (_ *m dia K _ *m _).
by apply/matrixP => i j; rewrite mxE.
Qed.
Lemma fmx_const n c (A : 'M[K]_n) : herm A -> fmx (fun=> c) A = (ofR c)%:M.
Proof.
move=> hA; have [uV eA] := specdecP hA; rewrite fmxE.
have -> : map_mx (fun=> c) (specdec A).1 = const_mx c by apply/matrixP => i j; rewrite !mxE.
by rewrite dia_const mul_mx_scalar -scalemxAl unitaryV // scalemx1.
Qed.
Lemma fmxD n f g (A : 'M[K]_n) : fmx f A + fmx g A = fmx (fun x => f x + g x) A.
Proof.
rewrite !fmxE -mulmxDl -mulmxDr; congr (_ *m _ *m _).
by rewrite /dia -linearD -map_mxD; congr (diag_mx (map_mx _ _)); apply/matrixP => i j; rewrite !mxE.
Qed.
Lemma fmxZ n c f (A : 'M[K]_n) : ofR c *: fmx f A = fmx (fun x => c * f x) A.
Proof.
rewrite !fmxE scalemxAl scalemxAr; congr (_ *m _ *m _).
by apply/matrixP => i j; rewrite !mxE rmorphM mulrnAr.
Qed.

Lemma psd_dia n (d : 'rV[R]_n) : (forall j, 0 <= d 0 j) -> psd (dia K d).
Proof.
move=> d0; split=> [|x]; first exact: adj_dia.
rewrite /qf /sesq -mulmxA mxE sumr_ge0 // => i _.
by rewrite mul_dia_mx adjE mulrCA mulr_ge0 ?ofRge0 // mulrC mul_cj_ge0.
Qed.
Lemma pd_dia n (d : 'rV[R]_n) : (forall j, 0 < d 0 j) -> pd (dia K d).
Proof.
move=> d0; split=> [|x x0]; first exact: adj_dia.
have [_ /(_ x) ge] : psd (dia K d) by apply: psd_dia => j; apply/ltW.
rewrite lt_def ge andbT; apply: contraNneq x0; rewrite /qf /sesq -mulmxA mxE.
have -> : \sum_j x^H 0 j * (dia K d *m x) j 0 = \sum_j ofR (d 0 j) * (x j 0 * cj (x j 0)).
  by apply: eq_bigr => i _; rewrite mul_dia_mx adjE mulrCA (mulrC (x i 0)).
move=> /psumr_eq0P h; apply/eqP/matrixP => i j; rewrite (ord1 j) [RHS]mxE.
have /h/(_ i isT)/eqP : forall i : 'I_n, true -> 0 <= ofR (d 0 i) * (x i 0 * cj (x i 0)).
  by move=> k _; rewrite mulr_ge0 ?mul_cj_ge0 // ofRge0 ltW.
by rewrite mulf_eq0 mul_cj_eq0 fmorph_eq0 gt_eqF //= => /eqP.
Qed.

Lemma fmx_psd n f (A : 'M[K]_n) : herm A -> (forall r, eigval A r -> 0 <= f r) -> psd (fmx f A).
Proof.
move=> hA f0; apply/psd_congr/psd_dia => j; rewrite mxE; apply: f0.
exact: eigdec_eigval (specdecP hA).
Qed.
Lemma fmx_pd n f (A : 'M[K]_n) : herm A -> (forall r, eigval A r -> 0 < f r) -> pd (fmx f A).
Proof.
move=> hA f0; apply: pd_congr; first by apply: unitary_unit; case: (specdecP hA).
by apply: pd_dia => j; rewrite mxE; apply: f0; exact: eigdec_eigval (specdecP hA).
Qed.
Lemma pdP n (A : 'M[K]_n) : herm A -> (forall r, eigval A r -> 0 < r) -> pd A.
Proof. by move=> hA h; rewrite -(fmx_id hA); apply: fmx_pd. Qed.
Lemma psdP n (A : 'M[K]_n) : herm A -> (forall r, eigval A r -> 0 <= r) -> psd A.
Proof. by move=> hA h; rewrite -(fmx_id hA); apply: fmx_psd. Qed.

Lemma fmx_inv n (A : 'M[K]_n) : pd A -> fmx (fun x => x^-1) A = invmx A.
Proof.
move=> pA; have hA := pd_herm pA; have uA := pd_unit pA.
have : A *m fmx (fun x => x^-1) A = 1%:M.
  rewrite -{1}(fmx_id hA) fmxM // (@eq_in_fmx _ _ (fun=> 1)) ?fmx_const ?rmorph1 // => r /(eigval_gt0 pA) r0.
  by rewrite divff // gt_eqF.
by move=> h; rewrite -(mulKmx uA (fmx _ A)) h mulmx1.
Qed.
Lemma fmxV n f (A : 'M[K]_n) : herm A -> (forall r, eigval A r -> f r != 0) ->
  fmx (fun x => (f x)^-1) A = invmx (fmx f A).
Proof.
move=> hA f0.
have e : fmx f A *m fmx (fun x => (f x)^-1) A = 1%:M.
  rewrite fmxM // (@eq_in_fmx _ _ (fun=> 1)) ?fmx_const ?rmorph1 // => r /f0 r0.
  by rewrite divff.
by rewrite -[LHS](mulKmx (proj1 (mulmx1_unit e))) e mulmx1.
Qed.

Lemma eigval_fmx n f (A : 'M[K]_n) r : herm A -> eigval (fmx f A) r -> exists2 s, eigval A s & r = f s.
Proof.
move=> hA [u u0]; have dec := specdecP hA; have [uV eA] := dec; rewrite fmxE => h.
pose w := (specdec A).2^H *m u.
have w0 : w != 0.
  by apply: contraNneq u0 => e; rewrite -[u]mul1mx -(unitaryV uV) -mulmxA -/w e mulmx0.
have hw : dia K (map_mx f (specdec A).1) *m w = ofR r *: w.
  by rewrite /w scalemxAr -h !mulmxA uV mul1mx.
clearbody w.
have [j wj] : exists j, w j 0 != 0.
  apply/existsP; rewrite -negb_forall; apply: contra w0 => /forallP a0.
  by apply/eqP/matrixP => i j; rewrite (ord1 j) [RHS]mxE; apply/eqP.
exists ((specdec A).1 0 j); first exact: eigdec_eigval dec.
have /matrixP/(_ j 0) := hw; rewrite mul_dia_mx !mxE => /(mulIf wj)/ofR_inj ->; done.
Qed.

Lemma unitary_congr n (A U : 'M[K]_n) d V : unitary U -> eigdec A d V -> eigdec (U *m A *m U^H) d (U *m V).
Proof.
by move=> uU [uV eA]; split; [apply: unitaryM | rewrite {1}eA adjM !mulmxA].
Qed.
Lemma fmx_unitary n f (A U : 'M[K]_n) : herm A -> unitary U -> fmx f (U *m A *m U^H) = U *m fmx f A *m U^H.
Proof.
move=> hA uU; have dec := specdecP hA.
by rewrite (fmx_dec f (unitary_congr uU dec)) (fmx_dec f dec) adjM !mulmxA.
Qed.

Lemma eigdecZ n c (A : 'M[K]_n) d V : eigdec A d V -> eigdec (ofR c *: A) (map_mx (fun x => c * x) d) V.
Proof.
move=> [uV ->]; split=> //; rewrite scalemxAl scalemxAr; congr (_ *m _ *m _).
by apply/matrixP => i j; rewrite !mxE rmorphM mulrnAr.
Qed.
Lemma fmx_scale n c f (A : 'M[K]_n) : herm A -> fmx f (ofR c *: A) = fmx (fun x => f (c * x)) A.
Proof.
move=> hA; have dec := specdecP hA.
rewrite (fmx_dec f (eigdecZ c dec)) (fmx_dec _ dec); congr (_ *m dia K _ *m _).
by apply/matrixP => i j; rewrite !mxE.
Qed.

(* determinant, trace and Frobenius norm *)
Lemma eigdec_det n (A : 'M[K]_n) d V : eigdec A d V -> \det A = ofR (\prod_j d 0 j).
Proof.
move=> [uV ->]; rewrite !det_mulmx mulrAC -det_mulmx unitaryV // det1 mul1r det_diag rmorph_prod.
by apply: eq_bigr => j _; rewrite mxE.
Qed.
Lemma eigdec_tr n (A : 'M[K]_n) d V : eigdec A d V -> \tr A = ofR (\sum_j d 0 j).
Proof.
move=> [uV ->]; rewrite -mulmxA mxtrace_mulC -mulmxA uV mulmx1 rmorph_sum mxtrace_diag.
by apply: eq_bigr => j _; rewrite mxE.
Qed.
Lemma det_pd n (A : 'M[K]_n) : pd A -> 0 < \det A.
Proof.
move=> pA; have dec := specdecP (pd_herm pA); rewrite (eigdec_det dec) ofR_gt0.
by apply: prodr_gt0 => j _; apply: (eigval_gt0 pA); exact: eigdec_eigval dec.
Qed.
Lemma det_psd n (A : 'M[K]_n) : psd A -> 0 <= \det A.
Proof.
move=> pA; have dec := specdecP (psd_herm pA); rewrite (eigdec_det dec) ofRge0.
by apply: prodr_ge0 => j _; apply: (eigval_ge0 pA); exact: eigdec_eigval dec.
Qed.

Definition fro2 m n (A : 'M[K]_(m, n)) : R := \sum_i \sum_j toR (A i j * cj (A i j)).
Definition fro m n (A : 'M[K]_(m, n)) : R := R_sqrt.sqrt (fro2 A).
Lemma fro2_ge0 m n (A : 'M[K]_(m, n)) : 0 <= fro2 A.
Proof. by apply: sumr_ge0 => i _; apply: sumr_ge0 => j _; apply/toR_ge0/mul_cj_ge0. Qed.
Lemma fro_ge0 m n (A : 'M[K]_(m, n)) : 0 <= fro A.
Proof. exact: sqrtR_ge0. Qed.
Lemma fro2_tr m n (A : 'M[K]_(m, n)) : ofR (fro2 A) = \tr (A *m A^H).
Proof.
rewrite rmorph_sum; apply: eq_bigr => i _; rewrite rmorph_sum mxE; apply: eq_bigr => j _.
by rewrite adjE ofR_toR_ge0 // mul_cj_ge0.
Qed.
Lemma fro2_eq0 m n (A : 'M[K]_(m, n)) : fro2 A = 0 -> A = 0.
Proof.
move=> h; apply/matrixP => i j; rewrite [RHS]mxE; apply/eqP; rewrite -mul_cj_eq0.
rewrite -[X in X == _]ofR_toR_ge0 ?mul_cj_ge0 // fmorph_eq0; apply/eqP.
have h1 : forall i, true -> 0 <= \sum_j toR (A i j * cj (A i j)).
  by move=> k _; apply: sumr_ge0 => l _; apply/toR_ge0/mul_cj_ge0.
have h2 := psumr_eq0P h1 h isT.
have h3 : forall j, true -> 0 <= toR (A i j * cj (A i j)) by move=> l _; apply/toR_ge0/mul_cj_ge0.
by apply: (psumr_eq0P h3 (h2 i)).
Qed.
Lemma fro_eq0 m n (A : 'M[K]_(m, n)) : fro A = 0 -> A = 0.
Proof. by move=> h; apply: fro2_eq0; rewrite -(sqrtR_sqr (fro2_ge0 A)) -/(fro A) h mul0r. Qed.
Lemma fro2_0 m n : fro2 (0 : 'M[K]_(m, n)) = 0.
Proof. by apply: (@ofR_inj K); rewrite fro2_tr mul0mx mxtrace0 rmorph0. Qed.
Lemma fro0 m n : fro (0 : 'M[K]_(m, n)) = 0.
Proof. by rewrite /fro fro2_0 R_sqrt.sqrt_0. Qed.
Lemma fro2Z m n c (A : 'M[K]_(m, n)) : fro2 (ofR c *: A) = c ^+ 2 * fro2 A.
Proof.
apply: (@ofR_inj K); rewrite fro2_tr adjZR -scalemxAl -scalemxAr scalerA mxtraceZ -fro2_tr -rmorphM.
by rewrite -rmorphM expr2.
Qed.
Lemma sqrtRM (x y : R) : 0 <= x -> 0 <= y -> R_sqrt.sqrt (x * y) = R_sqrt.sqrt x * R_sqrt.sqrt y.
Proof. by move=> x0 y0; rewrite -RmultE R_sqrt.sqrt_mult //; apply/RleP. Qed.
Lemma sqrtR_sq (x : R) : 0 <= x -> R_sqrt.sqrt (x ^+ 2) = x.
Proof. by move=> x0; rewrite expr2 -RmultE R_sqrt.sqrt_square //; apply/RleP. Qed.
Lemma froZ m n c (A : 'M[K]_(m, n)) : 0 <= c -> fro (ofR c *: A) = c * fro A.
Proof. by move=> c0; rewrite /fro fro2Z sqrtRM ?sqr_ge0 ?fro2_ge0 // sqrtR_sq. Qed.
Lemma fro2_unitary m n (A : 'M[K]_(m, n)) U V : unitary U -> unitary V -> fro2 (U *m A *m V) = fro2 A.
Proof.
move=> uU uV; apply: (@ofR_inj K); rewrite !fro2_tr !adjM -!mulmxA (mulmxA V) unitaryV // mul1mx.
by rewrite mxtrace_mulC -!mulmxA uU mulmx1.
Qed.
Lemma fro_unitary m n (A : 'M[K]_(m, n)) U V : unitary U -> unitary V -> fro (U *m A *m V) = fro A.
Proof. by move=> uU uV; rewrite /fro fro2_unitary. Qed.
End FunCalc.
