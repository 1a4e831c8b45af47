(* Eigenvalues of products and compressions of positive definite matrices (Poincare's separation theorem, Horn's inequalities).
   Nothing here models code. *)
From Coq Require Import Reals.
From mathcomp Require Import all_ssreflect all_fingroup all_algebra.
From Verif Require Import RealsMC RealTac Star FunCalc Model_linalg Proofs_linalg Model_manifolds Proofs_hpd Props_spv.
Set Implicit Arguments.
Unset Strict Implicit.
Unset Printing Implicit Defensive.
Local Open Scope ring_scope.
Import GRing.Theory Num.Theory Order.TTheory.

Definition desc n (d : 'rV[R]_n) := forall i j : 'I_n, (i <= j)%N -> d 0 j <= d 0 i.

Section Sort.
Variables (n : nat) (d : 'rV[R]_n).
Lemma sorting_perm : exists s : 'S_n, desc (\row_j d 0 (s j)).
Proof.
pose r := [rel i j : 'I_n | d 0 j <= d 0 i].
have rt : transitive r by move=> a b c /= h1 h2; exact: le_trans h2 h1.
have rr : reflexive r by move=> a; exact: lexx.
have rto : total r by move=> a b; exact: le_total.
pose l := sort r (enum 'I_n).
have sl : size l = n by rewrite size_sort size_enum_ord.
have ul : uniq l by rewrite sort_uniq enum_uniq.
pose f (i : 'I_n) := nth i l i.
have fi : injective f.
  move=> i j; rewrite /f (set_nth_default j) ?sl // => /eqP; rewrite nth_uniq ?sl // => /eqP h; exact: val_inj.
exists (perm fi) => i j ij; rewrite !mxE !permE /f.
have so : sorted r l := sort_sorted rto _.
have := sorted_leq_nth rt rr j so; rewrite /prop_in2 => /(_ i j); rewrite !inE sl !ltn_ord => /(_ isT isT ij) /=.
by rewrite [nth j l i](set_nth_default i) ?sl.
Qed.
End Sort.

Section Major.
Variable K : starField.
Local Notation ofR := (@ofR K).
Local Notation toR := (@toR K).
Local Notation cj := (@cj K).

Lemma qf_dia n (d : 'rV[R]_n) (x : 'cV[K]_n) : qf (dia K d) x = \sum_j ofR (d 0 j) * (x j 0 * cj (x j 0)).
Proof.
rewrite /qf /sesq -mulmxA mxE; apply: eq_bigr => i _; by rewrite mul_dia_mx adjE mulrCA (mulrC (x i 0)).
Qed.
Lemma desc_eigdec n (A : 'M[K]_n) : herm A -> exists d V, eigdec A d V /\ desc d.
Proof.
move=> /spectral [d [V [uV e]]]; have [s ds] := sorting_perm d.
exists (\row_j d 0 (s j)), (\matrix_(i, j) V i (s j)); split=> //; split.
  apply/matrixP => i j; rewrite !mxE; have /matrixP/(_ (s i) (s j)) := uV; rewrite !mxE (inj_eq perm_inj) => <-.
  by apply: eq_bigr => l _; rewrite !adjE !mxE.
rewrite {1}e; apply/matrixP => i j; rewrite !mxE (reindex_inj (@perm_inj _ s)); apply: eq_bigr => l _.
by rewrite !mul_mx_dia !adjE !mxE.
Qed.

Section Separation.
Variables (n k : nat) (A : 'M[K]_n) (d : 'rV[R]_n) (V : 'M[K]_n) (W : 'M[K]_(n, k)) (e : 'rV[R]_k) (U : 'M[K]_k).
Hypotheses (dA : eigdec A d V) (ds : desc d) (isoW : W^H *m W = 1%:M) (eB : eigdec (W^H *m A *m W) e U) (es : desc e).
Lemma separation (j : 'I_k) (jn : (j < n)%N) : e 0 j <= d 0 (Ordinal jn).
Proof.
have [uV AE] := dA; have [uU BE] := eB.
pose wa := widen_ord (ltn_ord j : (j.+1 <= k)%N); pose wb := widen_ord (ltnW jn).
pose E : 'M[K]_(k, j.+1) := colsub wa 1%:M.
pose G := V^H *m W *m U.
pose M : 'M[K]_(j.+1, j) := (rowsub wb (G *m E))^T.
have [v v0 vM] : exists2 v : 'rV[K]_(j.+1), v != 0 & v *m M = 0.
  have : kermx M != 0 by rewrite kermx_eq0 /row_free neq_ltn ltnS rank_leq_col.
  by move=> /rowV0Pn [v /sub_kermxP h v0]; exists v.
pose z := E *m v^T.
have EE : E^H *m E = 1%:M.
  apply/matrixP => a b; rewrite !mxE (bigD1 (wa a)) //= adjE !mxE eqxx rmorph1 mul1r big1 ?addr0 => [|i ia].
    by rewrite -!val_eqE.
  by rewrite adjE !mxE (negbTE ia) rmorph0 mul0r.
have z0 : z != 0.
  apply: contraNneq v0 => z0; have : E^H *m z = 0 by rewrite z0 mulmx0.
  by rewrite mulmxA EE mul1mx => /(congr1 trmx); rewrite trmxK trmx0 => ->.
have zhi (i : 'I_k) : (j < i)%N -> z i 0 = 0.
  move=> ji; rewrite mxE big1 // => a _; rewrite !mxE -val_eqE /= gtn_eqF ?mul0r //.
  by apply: leq_trans ji; rewrite ltn_ord.
have glo (i : 'I_n) : (i < j)%N -> (G *m z) i 0 = 0.
  move=> ij; have -> : i = wb (Ordinal ij) by apply: val_inj.
  have -> : (G *m z) (wb (Ordinal ij)) 0 = (rowsub wb (G *m z)) (Ordinal ij) 0 by rewrite [in RHS]mxE.
  rewrite /z mulmxA -mul_rowsub_mx -[rowsub _ _]trmxK -/M -trmx_mul vM; by rewrite !mxE.
have N1 : ((G *m z)^H *m (G *m z)) 0 0 = (z^H *m z) 0 0.
  suff -> : (G *m z)^H *m (G *m z) = z^H *m z by [].
  rewrite /G !adjM adjK !mulmxA -[_ *m V *m V^H]mulmxA (unitaryV uV) mulmx1 -[_ *m W^H *m W]mulmxA isoW mulmx1.
  by rewrite -[_ *m U^H *m U]mulmxA uU mulmx1.
have q1 : qf (W^H *m A *m W) (U *m z) = qf (dia K e) z.
  rewrite BE /qf /sesq adjM !mulmxA -[z^H *m U^H *m U]mulmxA uU mulmx1.
  by rewrite -[_ *m U^H *m U]mulmxA uU mulmx1.
have q2 : qf (W^H *m A *m W) (U *m z) = qf (dia K d) (G *m z).
  by rewrite AE /qf /sesq /G !adjM !adjK !mulmxA.
have le1 : ofR (e 0 j) * (z^H *m z) 0 0 <= qf (dia K e) z.
  rewrite qf_dia normcol mulr_sumr; apply: ler_sum => i _; case: (ltnP j i) => ji; first by rewrite zhi // !mul0r !mulr0.
  by rewrite ler_wpmul2r ?mul_cj_ge0 // ofR_le; exact: es.
have le2 : qf (dia K d) (G *m z) <= ofR (d 0 (Ordinal jn)) * ((G *m z)^H *m (G *m z)) 0 0.
  rewrite qf_dia normcol mulr_sumr; apply: ler_sum => i _; case: (ltnP i j) => ij; first by rewrite glo // !mul0r !mulr0.
  by rewrite ler_wpmul2r ?mul_cj_ge0 // ofR_le; exact: ds.
by move: le1; rewrite -q1 q2 => /le_trans /(_ le2); rewrite N1 ler_pmul2r ?normcol_gt0 // ofR_le.
Qed.
End Separation.

(* the determinant of a compression is at most the product of the largest eigenvalues *)
Lemma det_compress n k (A : 'M[K]_n) d V (W : 'M[K]_(n, k)) (kn : (k <= n)%N) : pd A -> eigdec A d V -> desc d -> W^H *m W = 1%:M ->
  \det (W^H *m A *m W) <= ofR (\prod_(j < k) d 0 (widen_ord kn j)) /\ pd (W^H *m A *m W).
Proof.
move=> pA dA ds iW; have pB : pd (W^H *m A *m W).
  split; first by rewrite -{2}[W]adjK; apply: herm_congr; exact: pd_herm.
  move=> x x0; rewrite -{2}[W]adjK qf_congr adjK; have [_ h] := pA; apply: h; apply: contraNneq x0 => e.
  by rewrite -[x]mul1mx -iW -mulmxA e mulmx0.
split=> //; have [e [U [eB es]]] := desc_eigdec (pd_herm pB).
rewrite (eigdec_det eB) ofR_le; apply: ler_prod => j _; apply/andP; split.
  by apply: ltW; apply: eigval_gt0 pB _; exact: eigdec_eigval eB.
have jn : (j < n)%N := leq_trans (ltn_ord j) kn.
have := separation dA ds iW eB es jn; by have -> : Ordinal jn = widen_ord kn j by apply: val_inj.
Qed.

(* Horn: products of the largest eigenvalues of S W S, S S = Y *)
Lemma horn n k (Y W S P : 'M[K]_n) a b c Va Vb Vc (kn : (k <= n)%N) : pd Y -> pd W -> herm S -> S *m S = Y -> P = S *m W *m S ->
  eigdec P a Va -> eigdec Y b Vb -> eigdec W c Vc -> desc a -> desc b -> desc c ->
  \prod_(j < k) a 0 (widen_ord kn j) <= (\prod_(j < k) b 0 (widen_ord kn j)) * \prod_(j < k) c 0 (widen_ord kn j).
Proof.
move=> pY pW hS SS PE [uV ea] db dc sa sb sc; pose E : 'M[K]_(n, k) := colsub (widen_ord kn) Va.
have iE : E^H *m E = 1%:M.
  apply/matrixP => i j; have /matrixP/(_ (widen_ord kn i) (widen_ord kn j)) := uV; rewrite !mxE -!val_eqE /= => <-.
  by apply: eq_bigr => l _; rewrite !adjE !mxE.
have dP : \det (E^H *m P *m E) = ofR (\prod_(j < k) a 0 (widen_ord kn j)).
  have -> : E^H *m P *m E = dia K (\row_j a 0 (widen_ord kn j)).
    have VE : Va^H *m E = colsub (widen_ord kn) 1%:M by rewrite /E mulmx_colsub uV.
    rewrite ea !mulmxA -[_ *m Va^H *m E]mulmxA VE.
    have -> : E^H *m Va = (Va^H *m E)^H by rewrite adjM adjK.
    rewrite VE; apply/matrixP => i j; rewrite mulmx_colsub mulmx1 [LHS]mxE.
    have -> : (@adj K _ _ (colsub (widen_ord kn) 1%:M) *m dia K a) i (widen_ord kn j) =
              cj ((1%:M : 'M[K]_n) (widen_ord kn j) (widen_ord kn i)) * ofR (a 0 (widen_ord kn j)).
      by rewrite mul_mx_dia adjE !mxE.
    by rewrite !mxE -!val_eqE /= eq_sym; case: eqP => [/val_inj ->|_]; rewrite ?rmorph1 ?mul1r ?mulr1n // rmorph0 mul0r mulr0n.
  by rewrite /dia det_diag rmorph_prod; apply: eq_bigr => j _; rewrite !mxE.
have [le1 pC] := det_compress kn pY db sb iE.
set C := E^H *m Y *m E in le1 pC.
pose T := fmx R_sqrt.sqrt C.
have pT : pd T := fmx_pd (pd_herm pC) (fun r h => sqrtR_gt0 (eigval_gt0 pC h)).
have TT : T *m T = C.
  have hC := pd_herm pC; rewrite /T (fmxM _ _ hC) -{2}(fmx_id hC); apply: eq_in_fmx; first exact: pd_herm.
  by move=> r /(eigval_gt0 pC) r0; rewrite sqrtR_sqr // ltW.
move: T pT TT => T pT TT; have uT := pd_unit pT.
pose Q := S *m E *m invmx T.
have hT : (invmx T)^H = invmx T by rewrite (pd_herm (pd_inv pT)).
have BB : (S *m E)^H *m (S *m E) = C by rewrite adjM hS !mulmxA -[_ *m S *m S]mulmxA SS.
have iQ : Q^H *m Q = 1%:M.
  by rewrite /Q [(_ *m invmx T)^H]adjM hT -mulmxA [(S *m E)^H *m _]mulmxA BB -TT !mulmxA (mulVmx uT) mul1mx (mulmxV uT).
have [le2 pD] := det_compress kn pW dc sc iQ.
have SE : S *m E = Q *m T by rewrite /Q mulmxKV.
have dE : \det (E^H *m P *m E) = \det C * \det (Q^H *m W *m Q).
  have -> : E^H *m P *m E = (S *m E)^H *m W *m (S *m E) by rewrite PE adjM hS !mulmxA.
  have -> : (S *m E)^H *m W *m (S *m E) = T *m (Q^H *m W *m Q) *m T by rewrite SE adjM (pd_herm pT) !mulmxA.
  by rewrite !det_mulmx -TT det_mulmx mulrAC.
rewrite -(@ofR_le K) -dP dE rmorphM; apply: ler_pmul => //; apply: ltW; exact: det_pd.
Qed.

(* the norm of the logarithm of a product *)
Lemma fro2_fmx n (A : 'M[K]_n) d V f : eigdec A d V -> fro2 (fmx f A) = \sum_j f (d 0 j) ^+ 2.
Proof.
move=> dA; have [uV _] := dA; rewrite (fmx_dec f dA) fro2_unitary //; last exact: unitary_adj.
rewrite /fro2; apply: eq_bigr => i _; rewrite (bigD1 i) //= big1 => [|j ji].
  by rewrite addr0 diaE eqxx mulr1n cj_ofR -rmorphM toRK !mxE expr2.
by rewrite diaE eq_sym (negbTE ji) mulr0n mul0r toR0.
Qed.
End Major.

Section Abel.
Variables (a e : nat -> R).
Lemma abel m : (forall i, (i < m)%N -> a i.+1 <= a i) -> (forall k, (k <= m)%N -> 0 <= \sum_(i < k) e i) ->
  a m * (\sum_(i < m.+1) e i) <= \sum_(i < m.+1) a i * e i.
Proof.
elim: m => [|m IH] da pe; first by rewrite !big_ord_recr !big_ord0 /= !add0r.
rewrite big_ord_recr [X in _ <= X]big_ord_recr /= mulrDr ler_add2r.
apply: le_trans (IH _ _) => [|i im|k km]; last 2 first.
- by apply: da; exact: ltnW.
- by apply: pe; exact: leqW.
by apply: ler_wpmul2r; [exact: pe|exact: da].
Qed.
Lemma abel0 n : (forall i, (i.+1 < n)%N -> a i.+1 <= a i) -> (forall k, (k < n)%N -> 0 <= \sum_(i < k) e i) ->
  \sum_(i < n) e i = 0 -> 0 <= \sum_(i < n) a i * e i.
Proof.
case: n => [|n] da pe e0; first by rewrite big_ord0.
by apply: le_trans (abel _ _) => [|i hi|k hk]; [rewrite e0 mulr0|exact: da|exact: pe].
Qed.
End Abel.
Local Notation sqrt := R_sqrt.sqrt.
Local Notation ln := Rpower.ln.
Lemma major_norm n (a b c : nat -> R) : (forall i, (i.+1 < n)%N -> a i.+1 <= a i) ->
  (forall k, (k < n)%N -> \sum_(i < k) a i <= \sum_(i < k) b i + \sum_(i < k) c i) ->
  \sum_(i < n) a i = \sum_(i < n) b i + \sum_(i < n) c i ->
  sqrt (\sum_(i < n) a i ^+ 2) <= sqrt (\sum_(i < n) b i ^+ 2) + sqrt (\sum_(i < n) c i ^+ 2).
Proof.
move=> da pe e0; apply: le_trans (norm_triangle (fun i : 'I_n => b i) (fun i : 'I_n => c i)).
set A := \sum_(i < n) _; set B := \sum_(i < n) (b i + c i) ^+ 2.
have A0 : 0 <= A := sumsq_ge0 _; have B0 : 0 <= B := sumsq_ge0 _.
have le1 : A <= \sum_(i < n) a i * (b i + c i).
  have h := @abel0 a (fun i => b i + c i - a i) n da.
  rewrite -subr_ge0 /A -sumrB; apply: le_trans (h _ _) _ => [k kn||].
  - by rewrite sumrB big_split subr_ge0; exact: pe.
  - by rewrite sumrB big_split /= e0 subrr.
  - by apply: ler_sum => i _; rewrite mulrBr expr2.
have cs := cauchy_schwarz (fun i : 'I_n => a i) (fun i : 'I_n => b i + c i); rewrite -/A -/B in cs.
have : A ^+ 2 <= A * B by apply: le_trans cs; rewrite ler_pexpn2r // ?nnegrE //; exact: le_trans le1.
move: A0; rewrite le_eqVlt => /orP [/eqP <- _|A0]; first by rewrite sqrt_0; exact: sqrtR_ge0.
by rewrite expr2 ler_pmul2l // => /sqrtR_mono.
Qed.

Section Product.
Variable K : starField.
Local Notation ofR := (@ofR K).
Lemma ln_prod n (F : 'I_n -> R) : (forall i, 0 < F i) -> ln (\prod_i F i) = \sum_i ln (F i).
Proof.
elim: n F => [|n IH] F F0; first by rewrite !big_ord0; exact: ln_1.
by rewrite !big_ord_recr /= lnRM ?IH // prodr_gt0.
Qed.
Lemma ln_mono (x y : R) : 0 < x -> x <= y -> ln x <= ln y.
Proof.
move=> x0; rewrite le_eqVlt => /orP [/eqP -> //|xy]; apply: ltW; apply/RltP; apply: ln_increasing; exact/RltP.
Qed.
Theorem log_product n (Y W S P : 'M[K]_n) : pd Y -> pd W -> herm S -> S *m S = Y -> P = S *m W *m S -> pd P ->
  sqrt (fro2 (fmx ln P)) <= sqrt (fro2 (fmx ln Y)) + sqrt (fro2 (fmx ln W)).
Proof.
move=> pY pW hS SS PE pP; have [a [Va [da sa]]] := desc_eigdec (pd_herm pP).
have [b [Vb [db sb]]] := desc_eigdec (pd_herm pY); have [c [Vc [dc sc]]] := desc_eigdec (pd_herm pW).
have a0 i : 0 < a 0 i := eigval_gt0 pP (eigdec_eigval i da).
have b0 i : 0 < b 0 i := eigval_gt0 pY (eigdec_eigval i db).
have c0 i : 0 < c 0 i := eigval_gt0 pW (eigdec_eigval i dc).
rewrite (fro2_fmx _ da) (fro2_fmx _ db) (fro2_fmx _ dc).
case: n Y W S P a b c Va Vb Vc pY pW hS SS PE pP da db dc sa sb sc a0 b0 c0 => [|n] Y W S P a b c Va Vb Vc pY pW hS SS PE pP da db dc sa sb sc a0 b0 c0.
  by rewrite !big_ord0 sqrt_0 addr0.
pose f (d : 'rV[R]_n.+1) i := ln (d 0 (inord i)).
have fE (d : 'rV[R]_n.+1) : \sum_j ln (d 0 j) ^+ 2 = \sum_(i < n.+1) f d i ^+ 2 by apply: eq_bigr => i _; rewrite /f inord_val.
have pE (d : 'rV[R]_n.+1) k (kn : (k <= n.+1)%N) : (forall i, 0 < d 0 i) -> ln (\prod_(j < k) d 0 (widen_ord kn j)) = \sum_(i < k) f d i.
  move=> d0; rewrite ln_prod //; apply: eq_bigr => i _; congr (ln (d 0 _)); apply: val_inj; rewrite /= inordK //.
  exact: leq_trans (ltn_ord i) kn.
have pp (d : 'rV[R]_n.+1) k (kn : (k <= n.+1)%N) : (forall i, 0 < d 0 i) -> 0 < \prod_(j < k) d 0 (widen_ord kn j).
  by move=> d0; apply: prodr_gt0 => i _.
have tE (d : 'rV[R]_n.+1) : (forall i, 0 < d 0 i) -> \sum_(i < n.+1) f d i = ln (\prod_j d 0 j).
  by move=> d0; rewrite ln_prod //; apply: eq_bigr => i _; rewrite /f inord_val.
rewrite !fE; apply: major_norm => [i hi|k kn|].
- apply: ln_mono => //; apply: sa; rewrite !inordK //; exact: ltnW.
- have kn' := ltnW kn; rewrite -!(pE _ _ kn') // -lnRM ?pp //; apply: ln_mono; first exact: pp.
  exact: (horn kn' pY pW hS SS PE da db dc sa sb sc).
rewrite !tE // -lnRM ?prodr_gt0 //; congr ln; apply: (@ofR_inj K).
rewrite rmorphM -(eigdec_det da) -(eigdec_det db) -(eigdec_det dc) PE -SS !det_mulmx mulrAC //.
Qed.
End Product.
