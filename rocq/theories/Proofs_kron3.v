(* Limits of scalars and matrices; Tyler's cost over Kronecker products is coercive when the samples are stable. *)
From Coq Require Import Reals Lra Classical_Prop Epsilon.
From mathcomp Require Import all_ssreflect all_algebra.
From mathcomp Require Import mxtens.
From Verif Require Import RealsMC RealTac RealTac2 Star FunCalc Spec_covariance Proofs_mest Proofs_cost Proofs_unique Proofs_unique2 Proofs_structured Props_structured
  Compact Proofs_converge Props_converge Spec_kron Proofs_kron Proofs_kron1.
Set Implicit Arguments.
Unset Strict Implicit.
Unset Printing Implicit Defensive.
Local Open Scope ring_scope.
Import GRing.Theory Num.Theory Order.TTheory.

Lemma tendsD u v l m : tends u l -> tends v m -> tends (fun k => u k + v k) (l + m).
Proof.
move=> hu hv e e0; have e2 : 0 < e / 2%:R by rewrite divr_gt0 ?ltr0n.
have [k1 h1] := hu _ e2; have [k2 h2] := hv _ e2; exists (maxn k1 k2) => k; rewrite geq_max => /andP[a b].
have -> : u k + v k - (l + m) = (u k - l) + (v k - m) by rring.
apply: le_trans (ler_norm_add _ _) _; rewrite (splitr e); apply: ler_add; [exact: h1|exact: h2].
Qed.
Lemma tends_const (l : R) : tends (fun=> l) l.
Proof. by move=> e e0; exists 0%N => k _; rewrite subrr normr0 ltW. Qed.
Lemma tends_sum (T : finType) (u : nat -> T -> R) (l : T -> R) : (forall t, tends (fun k => u k t) (l t)) ->
  tends (fun k => \sum_t u k t) (\sum_t l t).
Proof.
move=> h; rewrite /index_enum; elim: (Finite.enum T) => [|t r IH] /=.
  by move=> e e0; exists 0%N => k _; rewrite !big_nil subrr normr0 ltW.
move=> e e0; have [k0 hk] := tendsD (h t) IH e0; exists k0 => k kk; by rewrite !big_cons; exact: hk.
Qed.
Lemma tends_abs u l : tends u l -> tends (fun k => `|u k|) `|l|.
Proof. by move=> h e /h [k0 hk]; exists k0 => k kk; apply: le_trans (ler_dist_dist _ _) (hk k kk). Qed.
Lemma tends_ext u v l : (forall k, u k = v k) -> tends u l -> tends v l.
Proof. by move=> E h e /h [k0 hk]; exists k0 => k kk; rewrite -E; exact: hk. Qed.
Lemma tends_uniq u l m : tends u l -> tends u m -> l = m.
Proof.
move=> h1 h2; apply/eqP; rewrite -subr_eq0 -normr_eq0 eq_le normr_ge0 andbT; apply: small_all => e e0.
have [k1 H1] := h1 e e0; have [k2 H2] := h2 e e0; pose k := maxn k1 k2.
have -> : l - m = (u k - m) - (u k - l) by rring.
apply: le_trans (ler_norm_sub _ _) _; apply: (@le_trans _ _ (e + e)).
  by apply: ler_add; [apply: H2; rewrite leq_maxr|apply: H1; rewrite leq_maxl].
by rewrite -mulr2n -[e *+ 2]mulr_natl; apply: ler_wpmul2r; [exact: ltW|rewrite ler_nat].
Qed.
Lemma tends_lt u (l m : R) : tends u l -> l < m -> exists k0, forall k, (k0 <= k)%N -> u k < m.
Proof.
move=> h lm; have e0 : 0 < (m - l) / 2%:R by rewrite divr_gt0 ?ltr0n ?subr_gt0.
have [k0 hk] := h _ e0; exists k0 => k kk; have := hk k kk; rewrite ler_norml => /andP[_]; rewrite ler_subl_addl => H.
apply: le_lt_trans H _; rewrite -ltr_subr_addl ltr_pdivr_mulr ?ltr0n // mulr_natr mulr2n ltr_addl subr_gt0 //.
Qed.

Section Limits.
Variable K : starField.
Local Notation ofR := (@ofR K).
Local Notation toR := (@toR K).
Local Notation cj := (@cj K).
Local Notation "A ^H" := (adj A) (at level 8, format "A ^H").
Definition cvg (z : nat -> K) (l : K) := tends (fun k => sq (z k - l)) 0.
Lemma cvgP z l : cvg z l <-> forall e : R, 0 < e -> exists k0, forall k, (k0 <= k)%N -> sq (z k - l) <= e.
Proof. by split=> h e /h [k0 hk]; exists k0 => k kk; have := hk k kk; rewrite subr0 ger0_norm // sq_ge0. Qed.
Lemma sqM (x y : K) : sq (x * y) = sq x * sq y.
Proof. by apply: (@ofR_inj K); rewrite rmorphM !ofR_sq rmorphM mulrACA. Qed.
Lemma sq_cj (x : K) : sq (cj x) = sq x. Proof. by rewrite /sq cjK mulrC. Qed.
Lemma sq_eq0 (x : K) : sq x = 0 -> x = 0.
Proof. by move=> h; apply/eqP; rewrite -mul_cj_eq0 -ofR_sq h rmorph0. Qed.
Lemma sq0 : sq (0 : K) = 0. Proof. by rewrite /sq mul0r raddf0. Qed.
Lemma tends0M u (c : R) : tends u 0 -> tends (fun k => c * u k) 0.
Proof.
move=> h e e0; have c1 : 0 < `|c| + 1 by rewrite ltr_spaddr ?ltr01.
have [k0 hk] := h (e / (`|c| + 1)) (divr_gt0 e0 c1); exists k0 => k kk; have := hk k kk; rewrite !subr0 normrM => H.
apply: (@le_trans _ _ ((`|c| + 1) * `|u k|)); first by apply: ler_wpmul2r => //; rewrite ler_addl ler01.
by rewrite mulrC -ler_pdivl_mulr.
Qed.
Lemma tends0_le u v : (forall k, 0 <= u k <= v k) -> tends v 0 -> tends u 0.
Proof.
move=> h hv e /hv [k0 hk]; exists k0 => k kk; apply: le_trans (hk k kk); rewrite !subr0; case/andP: (h k) => u0 uv.
by rewrite !ger0_norm // (le_trans u0).
Qed.
Lemma cvgD z z' l l' : cvg z l -> cvg z' l' -> cvg (fun k => z k + z' k) (l + l').
Proof.
move=> h h'; apply: tends0_le (tends0M 2%:R _); last by have := tendsD h h'; rewrite addr0; exact.
by move=> k; rewrite sq_ge0 /= opprD addrACA; exact: sqD.
Qed.
Lemma cvg_const l : cvg (fun=> l) l.
Proof. by apply: tends_ext (tends_const 0) => k; rewrite subrr sq0. Qed.
Lemma cvg_cj z l : cvg z l -> cvg (fun k => cj (z k)) (cj l).
Proof. by apply: tends_ext => k; rewrite -rmorphB sq_cj. Qed.
Lemma cvg_scale c z l : cvg z l -> cvg (fun k => c * z k) (c * l).
Proof. by move=> h; apply: tends_ext (tends0M (sq c) h) => k; rewrite -mulrBr sqM. Qed.
Lemma cvg_mul0 z z' : cvg z 0 -> cvg z' 0 -> cvg (fun k => z k * z' k) 0.
Proof.
move=> /cvgP h /cvgP h'; apply/cvgP => e e0; have [k1 H1] := h 1 ltr01; have [k2 H2] := h' e e0.
exists (maxn k1 k2) => k; rewrite geq_max => /andP[a b]; have := H1 k a; have := H2 k b; rewrite !subr0 sqM => x y.
by rewrite -[e]mul1r; apply: ler_pmul => //; exact: sq_ge0.
Qed.
Lemma cvg_ext z z' l : (forall k, z k = z' k) -> cvg z l -> cvg z' l.
Proof. by move=> E; apply: tends_ext => k; rewrite E. Qed.
Lemma cvg_sub0 z l : cvg z l <-> cvg (fun k => z k - l) 0.
Proof. by split; apply: tends_ext => k; rewrite subr0. Qed.
Lemma cvgM z z' l l' : cvg z l -> cvg z' l' -> cvg (fun k => z k * z' k) (l * l').
Proof.
move=> /cvg_sub0 h /cvg_sub0 h'; have H := cvgD (cvgD (cvg_mul0 h h') (cvg_scale l' h)) (cvgD (cvg_scale l h') (cvg_const (l * l'))).
rewrite !mulr0 !add0r in H; apply: cvg_ext H => k.
by rewrite [l' * _]mulrC -mulrDr subrK [l * _]mulrBr subrK mulrBl subrK.
Qed.
Lemma cvg_sum n (z : nat -> 'I_n -> K) (l : 'I_n -> K) : (forall t, cvg (fun k => z k t) (l t)) ->
  cvg (fun k => \sum_t z k t) (\sum_t l t).
Proof.
move=> h; rewrite /index_enum; elim: (Finite.enum _) => [|t r IH] /=.
  by rewrite big_nil; apply: cvg_ext (cvg_const 0) => k; rewrite big_nil.
by rewrite big_cons; apply: cvg_ext (cvgD (h t) IH) => k; rewrite big_cons.
Qed.
Lemma cvg_uniq z l m : cvg z l -> cvg z m -> l = m.
Proof.
move=> h1 h2; have H := cvgD h1 (cvg_scale (-1) h2); apply/eqP; rewrite -subr_eq0; apply/eqP/sq_eq0.
apply: (tends_uniq (u := fun=> sq (l - m))); first exact: tends_const.
apply: tends_ext H => k; by rewrite !mulN1r subrr sub0r sqN.
Qed.
(* far from 0 *)
Lemma cvg_neq0 z l : cvg z l -> l != 0 -> exists k0, forall k, (k0 <= k)%N -> sq l / 4%:R <= sq (z k).
Proof.
move=> /cvgP h l0; have s0 : 0 < sq l by rewrite lt_def sq_ge0 andbT; apply: contraNneq l0 => /sq_eq0 ->.
have [k0 hk] := h (sq l / 4%:R) (divr_gt0 s0 (ltr0n _ 4)); exists k0 => k kk; have H := hk k kk.
have := sqD (z k) (- (z k - l)); rewrite sqN opprB addrC subrK => H2.
move: (sq l) (sq (z k)) (sq (z k - l)) s0 H H2 => x y z0 x0 H H2.
have H3 : x <= 2%:R * (y + x / 4%:R) by apply: le_trans H2 _; rewrite ler_pmul2l ?ltr0n // ler_add2l.
clear -H3; move: H3; rewrite (_ : 2%:R * (y + x / 4%:R) = 2%:R * y + x / 4%:R + x / 4%:R); last by rfield.
rewrite {1}(_ : x = x / 4%:R + x / 4%:R + x / 4%:R + x / 4%:R); last by rfield.
move: (x / 4%:R) => t; rewrite mulr_natl mulr2n => h; rlra2.
Qed.
(* matrices *)
Definition cvgm m n (s : nat -> 'M[K]_(m, n)) (L : 'M[K]_(m, n)) := forall i j, cvg (fun k => s k i j) (L i j).
Hypothesis cK : compactK K.
Lemma compact_sub m n (s : nat -> 'M[K]_(m, n)) (M : R) : (forall k, fro2 (s k) <= M) ->
  exists phi L, later phi /\ cvgm (s \o phi) L.
Proof.
move=> h; have [L hL] := cK h.
have e0 n' : 0 < n'.+1%:R^-1 :> R by rewrite invr_gt0 ltr0n.
pose phi k := epsilon (inhabits 0%N) (fun k' => (k <= k')%N /\ fro2 (s k' - L) <= k.+1%:R^-1).
have H k : (k <= phi k)%N /\ fro2 (s (phi k) - L) <= k.+1%:R^-1.
  by apply: (epsilon_spec (inhabits 0%N) (fun k' => (k <= k')%N /\ fro2 (s k' - L) <= k.+1%:R^-1)); have [k' a b] := hL _ k (e0 k); exists k'.
exists phi, L; split; first by move=> k; case: (H k).
move=> i j; apply/cvgP => e e1; have [n' hn] := arch 1 e1; exists n' => k kk; have [_ le] := H k.
apply: (@le_trans _ _ (fro2 (s (phi k) - L))).
  rewrite fro2E (bigD1 i) //= (bigD1 j) //= mxE mxE -addrA ler_addl; apply: addr_ge0; first by apply: sumr_ge0 => ? _; exact: sq_ge0.
  by apply: sumr_ge0 => ? _; apply: sumr_ge0 => ? _; exact: sq_ge0.
apply: le_trans le _; rewrite -[_^-1]mul1r ler_pdivr_mulr ?ltr0n // mulrC; apply: le_trans (ltW hn) _.
by apply: ler_wpmul2r; [exact: ltW|rewrite ler_nat leqW].
Qed.
Lemma cvgm_sub m n (s : nat -> 'M[K]_(m, n)) L phi : later phi -> cvgm s L -> cvgm (s \o phi) L.
Proof. by move=> lp h i j; apply: (tends_sub lp (h i j)). Qed.
Lemma cvgm_mul m n p (s : nat -> 'M[K]_(m, n)) (t : nat -> 'M[K]_(n, p)) L M : cvgm s L -> cvgm t M -> cvgm (fun k => s k *m t k) (L *m M).
Proof.
move=> h h' i j; rewrite mxE; apply: cvg_ext (cvg_sum (fun l => cvgM (h i l) (h' l j))) => k; by rewrite mxE.
Qed.
Lemma cvgm_adj m n (s : nat -> 'M[K]_(m, n)) L : cvgm s L -> cvgm (fun k => (s k)^H) L^H.
Proof. by move=> h i j; rewrite adjE; apply: cvg_ext (cvg_cj (h j i)) => k; rewrite adjE. Qed.
Lemma cvgm_tens m n p q (s : nat -> 'M[K]_(m, n)) (t : nat -> 'M[K]_(p, q)) L M : cvgm s L -> cvgm t M -> cvgm (fun k => s k *t t k) (L *t M).
Proof.
move=> h h' i j; case: (mxtens_indexP i) => i1 i2; case: (mxtens_indexP j) => j1 j2; rewrite tensmxE.
by apply: cvg_ext (cvgM (h i1 j1) (h' i2 j2)) => k; rewrite tensmxE.
Qed.
Lemma cvgm_const m n (L : 'M[K]_(m, n)) : cvgm (fun=> L) L. Proof. by move=> i j; exact: cvg_const. Qed.
Lemma cvgm_uniq m n (s : nat -> 'M[K]_(m, n)) L M : cvgm s L -> cvgm s M -> L = M.
Proof. by move=> h h'; apply/matrixP => i j; exact: cvg_uniq (h i j) (h' i j). Qed.
Lemma cvgm_ext m n (s t : nat -> 'M[K]_(m, n)) L : (forall k, s k = t k) -> cvgm s L -> cvgm t L.
Proof. by move=> E h i j; apply: cvg_ext (h i j) => k; rewrite E. Qed.
Lemma unitary_lim p (U : nat -> 'M[K]_p) L : (forall k, unitary (U k)) -> cvgm U L -> unitary L.
Proof.
move=> h hL; apply: (cvgm_uniq (s := fun=> 1%:M)); last exact: cvgm_const.
by apply: cvgm_ext (cvgm_mul (cvgm_adj hL) hL) => k; exact: h.
Qed.
Lemma unitary_fro2 p (U : 'M[K]_p) : unitary U -> fro2 U = p%:R.
Proof. by move=> h; apply: (@ofR_inj K); rewrite fro2_tr unitaryV // mxtrace1 rmorph_nat. Qed.
End Limits.

Lemma expR_gt0 (x : R) : 0 < exp x. Proof. by apply/RltP; exact: exp_pos. Qed.
Lemma expRN (x : R) : exp (- x) = (exp x)^-1. Proof. by rewrite -RoppE exp_Ropp RinvE //; apply/eqP; rewrite gt_eqF // expR_gt0. Qed.
Lemma ln_expR (x : R) : ln (exp x) = x. Proof. exact: ln_exp. Qed.
Lemma unbounded_absurd (x y c : R) n0 : 0 < y -> (forall n, (n0 <= n)%N -> x + n%:R * y <= c) -> False.
Proof.
move=> y0 h; have [n hn] := arch (c - x) y0; have := h (maxn n0 n) (leq_maxl _ _); rewrite leNgt => /negP; apply.
rewrite -ltr_subl_addl; apply: lt_le_trans hn _; apply: ler_wpmul2r; [exact: ltW|by rewrite ler_nat leq_maxr].
Qed.

Section Coercive.
Variable K : starField.
Local Notation ofR := (@ofR K).
Local Notation toR := (@toR K).
Local Notation "A ^H" := (adj A) (at level 8, format "A ^H").
Hypothesis cK : compactK K.
Variables (N a b : nat) (X : 'M[K]_(N, a * b)).
Hypotheses (nz : nonzero_samples X) (a0 : (0 < a)%N) (b0 : (0 < b)%N).
(* logarithms of the eigenvalues *)
Definition ex n (al : 'rV[R]_n) : 'rV[R]_n := \row_j exp (al 0 j).
Definition spec n (U : 'M[K]_n) (al : 'rV[R]_n) := U *m dia K (ex al) *m U^H.
Definition size (al : 'rV[R]_a) (be : 'rV[R]_b) : R := \sum_j `|al 0 j| + \sum_k `|be 0 k|.
Lemma size_ge0 al be : 0 <= size al be.
Proof. by rewrite addr_ge0 //; apply: sumr_ge0 => *; exact: normr_ge0. Qed.
Lemma ex_gt0 n (al : 'rV[R]_n) j : 0 < ex al 0 j. Proof. by rewrite mxE expR_gt0. Qed.
Lemma unitary_inv n (U : 'M[K]_n) : unitary U -> invmx U = U^H.
Proof. by move=> h; rewrite -[invmx U]mul1mx -(h : U^H *m U = 1%:M) mulmxK // unitary_unit. Qed.
Lemma unitary_tens (U : 'M[K]_a) (W : 'M[K]_b) : unitary U -> unitary W -> unitary (U *t W).
Proof. by move=> hU hW; rewrite /unitary tens_adj tensmx_mul hU hW tens_one. Qed.
Lemma spec_cost (U : 'M[K]_a) (W : 'M[K]_b) (al : 'rV[R]_a) (be : 'rV[R]_b) (c : 'I_N -> 'I_a * 'I_b) (om : 'I_N -> R) : unitary U -> unitary W ->
  \sum_j al 0 j = 0 -> \sum_k be 0 k = 0 -> (forall i, 0 < om i) -> (forall i, om i <= sq (kcoord X U W i (c i).1 (c i).2)) ->
  (a * b)%:R * (\sum_i ln (om i) - \sum_i (al 0 (c i).1 + be 0 (c i).2)) <= kron_cost X (spec U al) (spec W be).
Proof.
move=> hU hW sa sb o0 oc; have uU := unitary_unit hU; have uW := unitary_unit hW.
rewrite /spec kcostT //; try exact: ex_gt0.
have -> : \sum_j ln (ex al 0 j) = 0 by rewrite -[RHS]sa; apply: eq_bigr => j _; rewrite mxE ln_expR.
have -> : \sum_k ln (ex be 0 k) = 0 by rewrite -[RHS]sb; apply: eq_bigr => j _; rewrite mxE ln_expR.
rewrite !unitaryV // tens_one det1 /= -(rmorph1 (@Star.ofR K)) toRK ln1 !mulr0 !addr0 mulr0 addr0 -sumrB.
apply: ler_wpmul2l; first exact: ler0n.
apply: ler_sum => i _; set j := (c i).1; set k := (c i).2.
have -> : ln (om i) - (al 0 j + be 0 k) = ln (om i / (ex al 0 j * ex be 0 k)).
  by rewrite lnD // ?mulr_gt0 ?ex_gt0 // lnM ?ex_gt0 // !mxE !ln_expR.
apply: ln_le; first by rewrite divr_gt0 // mulr_gt0 ?ex_gt0.
have t0 j' k' : 0 <= sq (kcoord X U W i j' k') / (ex al 0 j' * ex be 0 k') by rewrite divr_ge0 ?sq_ge0 // ltW // mulr_gt0 ?ex_gt0.
rewrite (bigD1 j) //= (bigD1 k) //= -addrA; apply: (@le_trans _ _ (sq (kcoord X U W i j k) / (ex al 0 j * ex be 0 k))).
  by apply: ler_wpmul2r; [rewrite invr_ge0 ltW // mulr_gt0 ?ex_gt0|exact: oc].
by rewrite ler_addl; apply: addr_ge0; [apply: sumr_ge0 => k' _|apply: sumr_ge0 => j' _; apply: sumr_ge0 => k' _].
Qed.
Lemma coercive (c : R) : kron_stable X -> exists l : R, forall (U : 'M[K]_a) (W : 'M[K]_b) (al : 'rV[R]_a) (be : 'rV[R]_b), unitary U -> unitary W ->
  \sum_j al 0 j = 0 -> \sum_k be 0 k = 0 -> kron_cost X (spec U al) (spec W be) <= c -> size al be <= l.
Proof.
move=> st; apply: NNPP => nl.
pose T : Type := ('M[K]_a * 'M[K]_b * 'rV[R]_a * 'rV[R]_b)%type.
pose Q (n : nat) (x : T) := let: (U, W, al, be) := x in [/\ unitary U /\ unitary W, \sum_j al 0 j = 0, \sum_k be 0 k = 0,
  kron_cost X (spec U al) (spec W be) <= c & n.+1%:R < size al be].
have exQ n : exists x, Q n x.
  apply: NNPP => h; apply: nl; exists n.+1%:R => U W al be hU hW sa sb hc; rewrite leNgt; apply/negP => lt; apply: h; by exists (U, W, al, be).
have [s hs] : exists s : nat -> T, forall n, Q n (s n).
  pose x0 : T := (1%:M, 1%:M, 0, 0); exists (fun n => epsilon (inhabits x0) (Q n)) => n; exact: epsilon_spec.
pose U n := (s n).1.1.1; pose W n := (s n).1.1.2; pose al n := (s n).1.2; pose be n := (s n).2.
have H n : [/\ unitary (U n) /\ unitary (W n), \sum_j al n 0 j = 0, \sum_k be n 0 k = 0,
  kron_cost X (spec (U n) (al n)) (spec (W n) (be n)) <= c & n.+1%:R < size (al n) (be n)].
  by have := hs n; rewrite /U /W /al /be; case: (s n) => [[[? ?] ?] ?].
move: U W al be H {hs} => U W al be H.
pose m n := size (al n) (be n); have m0 n : 0 < m n by case: (H n) => _ _ _ _; apply: lt_trans; rewrite ltr0n.
have mn n : n%:R <= m n by case: (H n) => _ _ _ _ h; apply: le_trans (ltW h); rewrite ler_nat.
have [f1 [U' [l1 cU]]] : exists f L, later f /\ cvgm (U \o f) L.
  by apply: (compact_sub cK (M := a%:R)) => k; rewrite unitary_fro2 //; case: (H k) => -[].
have [f2 [W' [l2 cW]]] : exists f L, later f /\ cvgm (W \o f1 \o f) L.
  by apply: (compact_sub cK (M := b%:R)) => k; rewrite unitary_fro2 //=; case: (H (f1 k)) => -[].
pose v n (t : 'I_a + 'I_b) : R := match t with inl j => al n 0 j / m n | inr k => be n 0 k / m n end.
have [f3 [v' [l3 cv]]] : exists f l, later f /\ forall t, tends (fun k => v (f1 (f2 (f k))) t) (l t).
  apply: (@bw_fin _ (fun k => v (f1 (f2 k))) 1) => k t; move: (f1 (f2 k)) => n.
  have aux (x : R) : `|x| <= m n -> `|x / m n| <= 1 by move=> h; rewrite normrM normfV (gtr0_norm (m0 n)) ler_pdivr_mulr // mul1r.
  have pS (I : finType) (F : I -> R) i : `|F i| <= \sum_i `|F i| by rewrite (bigD1 i) //= ler_addl sumr_ge0.
  case: t => [j|k'] /=; apply: aux; rewrite /m /size.
    by apply: le_trans (pS _ (fun j => al n 0 j) j) _; rewrite ler_addl sumr_ge0.
  by apply: le_trans (pS _ (fun j => be n 0 j) k') _; rewrite ler_addr sumr_ge0.
pose f k := f1 (f2 (f3 k)); have lf : later f by move=> k; apply: leq_trans (l3 k) (leq_trans (l2 _) (l1 _)).
have l23 : later (f2 \o f3) by move=> k; exact: leq_trans (l3 k) (l2 _).
have {}cU : cvgm (U \o f) U' by exact: (cvgm_sub l23 cU).
have {}cW : cvgm (W \o f) W' by exact: (cvgm_sub l3 cW).
have hU' : unitary U' by apply: (unitary_lim _ cU) => k; case: (H (f k)) => -[].
have hW' : unitary W' by apply: (unitary_lim _ cW) => k; case: (H (f k)) => -[].
have uU' := unitary_unit hU'; have uW' := unitary_unit hW'.
have {}cv t : tends (fun k => v (f k) t) (v' t) by exact: cv.
have sa : \sum_j v' (inl j) = 0.
  apply: (tends_uniq (tends_sum (fun j => cv (inl j)))); apply: tends_ext (tends_const 0) => k /=.
  by rewrite -mulr_suml; case: (H (f k)) => _ -> *; rewrite mul0r.
have sb : \sum_k v' (inr k) = 0.
  apply: (tends_uniq (tends_sum (fun j => cv (inr j)))); apply: tends_ext (tends_const 0) => k /=.
  by rewrite -mulr_suml; case: (H (f k)) => _ _ -> *; rewrite mul0r.
have s1 : \sum_j `|v' (inl j)| + \sum_k `|v' (inr k)| = 1.
  have t1 := tendsD (tends_sum (fun j => tends_abs (cv (inl j)))) (tends_sum (fun j => tends_abs (cv (inr j)))).
  apply: (tends_uniq t1); apply: tends_ext (tends_const 1) => k /=; move: (f k) => n; have mm := m0 n.
  have ab x : `|x / m n| = `|x| / m n by rewrite normrM normfV (gtr0_norm mm).
  rewrite (eq_bigr _ (fun j _ => ab _)) [in X in _ = _ + X](eq_bigr _ (fun j _ => ab _)) -!mulr_suml -mulrDl.
  by rewrite divff // gt_eqF.
have nz0 : (exists j, v' (inl j) != 0) \/ (exists k, v' (inr k) != 0).
  apply: NNPP => h; have := s1; rewrite !big1 ?addr0 => [/eqP|k _|j _]; first by rewrite eq_sym oner_eq0.
    by apply/eqP; rewrite normr_eq0; apply: contraT => n0; case: h; right; exists k.
  by apply/eqP; rewrite normr_eq0; apply: contraT => n0; case: h; left; exists j.
have [ch hc neg] := st U' W' (fun j => v' (inl j)) (fun k => v' (inr k)) uU' uW' sa sb nz0.
have kE U1 W1 i j k : unitary U1 -> unitary W1 -> kcoord X U1 W1 i j k = ((U1 *t W1)^H *m samp X i) (mxtens_index (j, k)) 0.
  by move=> h1 h2; rewrite /kcoord unitary_inv //; exact: unitary_tens.
have ck i : cvg (fun k => kcoord X (U (f k)) (W (f k)) i (ch i).1 (ch i).2) (kcoord X U' W' i (ch i).1 (ch i).2).
  rewrite kE //; have := cvgm_mul (cvgm_adj (cvgm_tens cU cW)) (cvgm_const (samp X i)) => /(_ (mxtens_index ((ch i).1, (ch i).2)) 0).
  by apply: cvg_ext => k; rewrite kE //; case: (H (f k)) => -[].
pose om i := sq (kcoord X U' W' i (ch i).1 (ch i).2) / 4%:R.
have om0 i : 0 < om i by rewrite divr_gt0 ?ltr0n // lt_def sq_ge0 andbT; apply: contraNneq (hc i) => /sq_eq0 ->.
have [k1 hk1] : exists k0, forall k, (k0 <= k)%N -> forall i, om i <= sq (kcoord X (U (f k)) (W (f k)) i (ch i).1 (ch i).2).
  have ev i := cvg_neq0 (ck i) (hc i).
  pose g i := epsilon (inhabits 0%N) (fun k0 => forall k, (k0 <= k)%N -> om i <= sq (kcoord X (U (f k)) (W (f k)) i (ch i).1 (ch i).2)).
  have hg i := epsilon_spec (inhabits 0%N) _ (ev i).
  by exists (\max_i g i) => k kk i; apply: (hg i); apply: leq_trans kk; exact: (leq_bigmax i).
pose S := \sum_i (v' (inl (ch i).1) + v' (inr (ch i).2)).
have S2 : S < S / 2%:R by rewrite ltr_pdivl_mulr ?ltr0n // mulr_natr mulr2n gtr_addl.
have tS := tends_sum (fun i => tendsD (cv (inl (ch i).1)) (cv (inr (ch i).2))).
have [k2 hk2] := tends_lt tS S2.
apply: (@unbounded_absurd (\sum_i ln (om i)) (- (S / 2%:R)) (c / (a * b)%:R) (maxn k1 k2)).
  by rewrite oppr_gt0 pmulr_llt0 ?invr_gt0 ?ltr0n.
move=> k; rewrite geq_max => /andP[kk1 kk2]; rewrite ler_pdivl_mulr ?ltr0n ?muln_gt0 ?a0 // mulrC.
have [[hU hW] sak sbk le _] := H (f k); apply: le_trans le; apply: le_trans (spec_cost hU hW sak sbk om0 (hk1 k kk1)).
apply: ler_wpmul2l; first exact: ler0n.
rewrite ler_add2l mulrN ler_opp2.
have E : \sum_i (al (f k) 0 (ch i).1 + be (f k) 0 (ch i).2) = m (f k) * \sum_i (v (f k) (inl (ch i).1) + v (f k) (inr (ch i).2)).
  rewrite mulr_sumr; apply: eq_bigr => i _ /=; rewrite -mulrDl mulrC divfK // gt_eqF //.
rewrite E; apply: (@le_trans _ _ (m (f k) * (S / 2%:R))); first by rewrite ler_pmul2l //; exact/ltW/hk2.
apply: ler_wnmul2r; first by rewrite ltW // pmulr_llt0 ?invr_gt0 ?ltr0n.
by apply: le_trans (mn _); rewrite ler_nat.
Qed.
End Coercive.
