(* The results of the MM algorithm for Kronecker structured covariances depend continuously on the samples: C127. *)
From Coq Require Import Reals Lra Classical_Prop.
From mathcomp Require Import all_ssreflect all_algebra.
From mathcomp Require Import mxtens.
From Verif Require Import RealsMC RealTac RealTac2 Star StarInst FunCalc Model_featurearray Model_covariance Spec_covariance Proofs_loop Props_covariance Proofs_unique2 Proofs_linalg
  Model_structured Proofs_structured Props_structured Compact Proofs_converge Props_converge Spec_kron Proofs_kron Proofs_kron1 Proofs_kron2 Proofs_kron9 Proofs_kron3 Proofs_kron4 Proofs_kron5 Proofs_kron6 Proofs_kron7 Proofs_kron8 Props_kron
  Proofs_stable Proofs_stable2 Proofs_tycont Props_tycont Proofs_kcont Proofs_kcont2 Proofs_kcont3 Proofs_kcont4.
Set Implicit Arguments.
Unset Strict Implicit.
Unset Printing Implicit Defensive.
Local Open Scope ring_scope.
Import GRing.Theory Num.Theory Order.TTheory.

Section Runs.
Variables (K : starField) (cK : compactK K) (ssqrtm : forall n, 'M[K]_n -> 'M[K]_n).
Hypothesis sq_ok : sqrtm_psd_ok ssqrtm.
Variables (N a b : nat) (X : 'M[K]_(N, a * b)).
Hypotheses (nz : nonzero_samples X) (N0 : (0 < N)%N) (a0 : (0 < a)%N) (b0 : (0 < b)%N) (st : kron_stable X).
Implicit Type Y : 'M[K]_(N, a * b).
Let s Y k := iter k (pass Y) ((1%:M, 1%:M) : pair K a b).
(* two matrices that differ for X differ by at least a positive relative amount for all samples near X *)
Lemma near_moved n (U V : 'M[K]_(N, a * b) -> 'M[K]_n) : (0 < n)%N -> near_pd X U -> near_pd X V -> U X != V X ->
  exists2 x : R, 0 < x & near_data X (fun Y => x < rc (U Y) (V Y)).
Proof.
move=> n0 [pU nU cU] [pV nV cV] ne; pose r : R := fro (U X - V X); pose F : R := fro (U X); pose G : R := fro (V X).
have r0 : 0 < r.
  by rewrite lt_neqAle eq_sym fro_ge0 andbT; apply: contraNneq ne => /fro_eq0 /eqP; rewrite subr_eq0.
have F0 : 0 <= F := fro_ge0 _; have G0 : 0 <= G := fro_ge0 _.
have D0 : 0 < F + (G + G + G) + 1 by rewrite ltr_spaddr ?ltr01 // !addr_ge0.
pose f : R := Num.min 1 (r / (F + (G + G + G) + 1)); have f0 : 0 < f by rewrite lt_minr ltr01 divr_gt0.
have f1 : f <= 1 by rewrite /f le_minl lexx.
have fr : f * (F + (G + G + G)) < r.
  apply: (@lt_le_trans _ _ (f * (F + (G + G + G) + 1))); first by rewrite ltr_pmul2l // ltr_addl ltr01.
  by rewrite -ler_pdivl_mulr // /f le_minl lexx orbT.
exists f => //; apply: near_imp (near_and (near_and nU nV) (near_and (cU f f0) (cV f f0))) => Y [[pUY pVY] [[u1 u2] [v1 v2]]].
have d1 : fro (U Y - U X) <= f * F by apply: loewner_fro => //; exact: ltW.
have d2 : fro (V Y - V X) <= f * G by apply: loewner_fro => //; exact: ltW.
rewrite ltNge; apply/negP; rewrite /rc ler_pdivr_mulr ?fro_gt0 // => d3.
have d4 : fro (V Y) <= G + f * G.
  by have -> : V Y = V X + (V Y - V X) by [rewrite addrC subrK]; apply: le_trans (froD _ _) _; rewrite ler_add2l.
have d5 : r <= f * F + (f * fro (V Y) + f * G).
  have -> : r = fro (- (U Y - U X) + ((U Y - V Y) + (V Y - V X))) by rewrite [U Y - V Y + _]addrA subrK opprB addrA subrK.
  by apply: le_trans (froD _ _) _; apply: ler_add; [rewrite froN | apply: le_trans (froD _ _) _; apply: ler_add].
have d6 : f * fro (V Y) <= f * (G + G).
  by apply: ler_wpmul2l; [exact: ltW | apply: le_trans d4 _; rewrite ler_add2l -[X in _ <= X]mul1r; apply: ler_wpmul2r].
have := lt_le_trans fr d5; rewrite ltNge => /negP; apply; rewrite mulrDr in d6; rewrite !mulrDr; move: d6; move: (f * F) (f * G) (f * fro _); clear => *; rlra2.
Qed.
(* for a small tolerance and samples near X, the two last iterates only agree up to the tolerance near the limit *)
Lemma near_stop (L : 'M[K]_a) (M : 'M[K]_b) (e : R) k0 : 0 < e -> pd L -> pd M ->
  (forall e : R, 0 < e -> exists k0, forall k, (k0 <= k)%N -> close e (s X k).1 L /\ close e (s X k).2 M) ->
  exists2 x : R, 0 < x & near_data X (fun Y => forall j, (j < k0)%N -> rc (s Y j.+1).1 (s Y j).1 <= x -> rc (s Y j.+1).2 (s Y j).2 <= x ->
    close e (s Y j.+1).1 L /\ close e (s Y j.+1).2 M).
Proof.
move=> e0 pL pM cv; have [sc sr] := stable_spans cK nz N0 a0 b0 st.
have np k := near_pass nz sc sr k (@pd1 K a) (@pd1 K b).
elim: k0 => [|j [x x0 IH]]; first by exists 1; [exact: ltr01 | exists 1; [exact: ltr01 |]].
suff [y y0 h] : exists2 y : R, 0 < y & near_data X (fun Y => rc (s Y j.+1).1 (s Y j).1 <= y -> rc (s Y j.+1).2 (s Y j).2 <= y ->
    close e (s Y j.+1).1 L /\ close e (s Y j.+1).2 M).
  exists (Num.min x y); first by rewrite lt_minr x0 y0.
  apply: near_imp (near_and IH h) => Y [h1 h2] i; rewrite ltnS leq_eqVlt !le_minr => /orP[/eqP -> /andP[_ ?] /andP[_ ?]|ij /andP[? _] /andP[? _]]; first exact: h2.
  exact: h1.
have [pU pV] := np j.+1; have [pU' pV'] := np j.
case: (eqVneq (s X j.+1).1 (s X j).1) => [e1|ne]; last first.
  by have [y y0 h] := near_moved a0 pU pU' ne; exists y => //; apply: near_imp h => Y lt le; move: lt; rewrite ltNge le.
case: (eqVneq (s X j.+1).2 (s X j).2) => [e2|ne]; last first.
  by have [y y0 h] := near_moved b0 pV pV' ne; exists y => //; apply: near_imp h => Y lt _ le; move: lt; rewrite ltNge le.
exists 1; first exact: ltr01.
have es : s X j.+1 = s X j by rewrite [LHS]surjective_pairing [RHS]surjective_pairing; congr (_, _).
have stay n : s X (n + j)%N = s X j by elim: n => // n IHn; rewrite addSn /s iterS -/(s X (n + j)%N) IHn -[RHS]es.
have [f f0 hf] := small_close e0; have [_ n1 c1] := pU; have [_ n2 c2] := pV.
apply: near_imp (near_and (near_and n1 n2) (near_and (c1 f f0) (c2 f f0))) => Y [[p1 p2] [h1 h2]] _ _.
have [k0 hk] := cv f f0; have [h3 h4] := hk (k0 + j)%N (leq_addr _ _); rewrite stay -es in h3 h4.
split; [exact: (close_le (pd_psd p1) (pd_psd pL) hf (close_trans (ltW f0) (ltW f0) h1 h3)) | exact: (close_le (pd_psd p2) (pd_psd pM) hf (close_trans (ltW f0) (ltW f0) h2 h4))].
Qed.
Local Notation MM := (estimation_cov_kronecker_MM ssqrtm a b).
Lemma mm_cont : exists L M, [/\ pd L, pd M, kron_minimiser X L^T M & forall e : R, 0 < e -> exists2 d : R, 0 < d &
  [/\ forall Y tol m A B t tol' m' A' B' t' k, fro (Y - X) <= d -> MM X tol m = Ok (Some (A, B, t, k)) -> MM Y tol' m' = Ok (Some (A', B', t', k)) ->
        near e A A' /\ near e B B',
      exists k0, forall Y tol m A B t k, fro (Y - X) <= d -> MM Y tol m = Ok (Some (A, B, t, k)) -> (k0 <= k)%N -> near e L A /\ near e M B,
      exists2 x0 : R, 0 < x0 & forall Y x m A B t k, fro (Y - X) <= d -> x <= x0 -> MM Y (Fin x) m = Ok (Some (A, B, t, k)) -> (k < m)%N ->
        near e L A /\ near e M B &
      exists k1, forall Y m, fro (Y - X) <= d -> (k1 < m)%N -> exists A B k, MM Y (Fin e) m = Ok (Some (A, B, Fin e, k)) /\ (k <= k1)%N]].
Proof.
have [L [M [pL pM [fA fB] cv]]] := pass_converges cK nz N0 a0 b0 st (g0 K a b).
have [sc sr] := stable_spans cK nz N0 a0 b0 st.
have np k := near_pass nz sc sr k (@pd1 K a) (@pd1 K b).
exists L, M; split=> //; first exact: fixed_min.
move=> e e0; have [f f0 hf] := small_close e0.
have fe : f <= e by apply: le_trans hf; rewrite ler_subr_addl ler_pmulr ?ler_addl ?(ltW f0) // addr_gt0 ?ltr01.
have [k0 hk] := kron_runs cK N0 a0 b0 nz st (@pd1 K a) (@pd1 K b) pL pM fA fB cv f0.
have hX : forall k, (k0 <= k)%N -> [/\ good (s X k), close f (s X k).1 L & close f (s X k).2 M] by case: (hk) => d d0; apply; rewrite subrr -fro_sq fro0 expr0n ltW.
have lo : near_data X (fun Y => forall j : 'I_k0, [/\ pd (s Y j).1, pd (s Y j).2, close f (s Y j).1 (s X j).1 & close f (s Y j).2 (s X j).2]).
  apply: near_all => j; have [[_ n1 c1] [_ n2 c2]] := np j.
  by apply: near_imp (near_and (near_and n1 n2) (near_and (c1 f f0) (c2 f f0))) => Y [[? ?] [? ?]].
have [x0 x00 hs] := near_stop k0 f0 pL pM cv.
have [d d0 hd] := near_fro (near_and (near_and (near_nz nz) (near_stable cK a0 b0 st)) (near_and lo (near_and hk hs))).
have sp Y : fro (Y - X) <= d -> [/\ nonzero_samples Y, span_columns Y & span_rows Y].
  by move=> /hd [[nY sY] _]; have [? ?] := stable_spans cK nY N0 a0 b0 sY.
have cn n (S T : 'M[K]_n) : pd S -> pd T -> close f S T -> near e T S.
  by move=> pS pT h; have [h1 h2] := close_le (pd_psd pS) (pd_psd pT) fe h; apply: loewner_fro => //; exact: ltW.
have ct n (S T W : 'M[K]_n) : pd S -> pd T -> close f S W -> close f T W -> near e T S.
  move=> pS pT h h'; have [h1 h2] := close_le (pd_psd pS) (pd_psd pT) hf (close_trans (ltW f0) (ltW f0) h (close_sym h')).
  by apply: loewner_fro => //; exact: ltW.
exists d => //; split.
- move=> Y tol m A B t tol' m' A' B' t' k /[dup] /sp [nY cY rY] /hd [_ [hl [hkY _]]] /(run_pass sq_ok nz a0 b0 sc sr) [-> -> _ _ _] /(run_pass sq_ok nY a0 b0 cY rY) [-> -> _ _ _].
  case: (ltnP k k0) => kk.
    have [p1 p2 c1 c2] := hl (Ordinal kk); have [q1 q2] := gk nz sc sr k.
    by split; [exact: (cn _ _ _ p1 q1 c1) | exact: (cn _ _ _ p2 q2 c2)].
  have [[p1 p2] c1 c2] := hkY k kk; have [[q1 q2] c3 c4] := hX k kk.
  by split; [exact: (ct _ _ _ _ p1 q1 c1 c3) | exact: (ct _ _ _ _ p2 q2 c2 c4)].
- exists k0 => Y tol m A B t k /[dup] /sp [nY cY rY] /hd [_ [_ [hkY _]]] /(run_pass sq_ok nY a0 b0 cY rY) [-> -> _ _ _] kk.
  by have [[p1 p2] c1 c2] := hkY k kk; split; [exact: (cn _ _ _ p1 pL c1) | exact: (cn _ _ _ p2 pM c2)].
- exists x0 => // Y x m A B t k /[dup] /sp [nY cY rY] /hd [_ [_ [hkY hsY]]] xt /(run_pass sq_ok nY a0 b0 cY rY) [-> -> _ /(_ x erefl) h _] /h [j -> hj].
  have [p1 p2] := gk nY cY rY j.+1; move: hj; rewrite /chg le_maxl => /andP[r1 r2].
  have [c1 c2] : close f (s Y j.+1).1 L /\ close f (s Y j.+1).2 M.
    case: (ltnP j k0) => jk; first exact: (hsY j jk (le_trans r1 xt) (le_trans r2 xt)).
    by have [_ c1 c2] := hkY j.+1 (leqW jk).
  by split; [exact: (cn _ _ _ p1 pL c1) | exact: (cn _ _ _ p2 pM c2)].
exists k0.+1 => Y m /[dup] /sp [nY cY rY] /hd [_ [_ [hkY _]]] lt; have [A [B [k [ok km _ _]]]] := C56_succeeds sq_ok (Fin e) m nY cY rY.
exists A, B, k; split=> //; rewrite leqNgt; apply/negP => kk.
have [_ _ _ _ h] := run_pass sq_ok nY a0 b0 cY rY ok; have := h e k0 erefl kk; apply/negP; rewrite -leNgt /chg le_maxl.
have [[p1 p2] c1 c2] := hkY k0 (leqnn _); have [[q1 q2] c3 c4] := hkY k0.+1 (leqnSn _).
by apply/andP; split; rewrite /rc ler_pdivr_mulr ?fro_gt0 //; [exact: (ct _ _ _ _ q1 p1 c3 c1) | exact: (ct _ _ _ _ q2 p2 c4 c2)].
Qed.
End Runs.

(* ------------------------------------------------------------------ C127 *)
(* Around stable samples X, with limit (L, M) of the algorithm (C91), and for every e there is a ball of samples Y in which
   - after the same number of iterations, whatever it is, the results for X and Y are within e of each other;
   - after k0 iterations, the same k0 for all of them, the results are within e of (L, M);
   - so they are when the function stops because of a tolerance below x0, the same x0 for all of them;
   - with tolerance e the function stops after at most k1 iterations, the same k1 for all of them. *)
Definition mm_continuous (K : starField) (ssqrtm : forall n, 'M[K]_n -> 'M[K]_n) N a b (X : 'M[K]_(N, a * b)) :=
  exists (L : 'M[K]_a) (M : 'M[K]_b), [/\ pd L, pd M, kron_minimiser X L^T M & forall e : R, 0 < e -> exists2 d : R, 0 < d &
  [/\ forall Y tol m A B t tol' m' A' B' t' k, fro (Y - X) <= d -> estimation_cov_kronecker_MM ssqrtm a b X tol m = Ok (Some (A, B, t, k)) ->
        estimation_cov_kronecker_MM ssqrtm a b Y tol' m' = Ok (Some (A', B', t', k)) -> near e A A' /\ near e B B',
      exists k0, forall Y tol m A B t k, fro (Y - X) <= d -> estimation_cov_kronecker_MM ssqrtm a b Y tol m = Ok (Some (A, B, t, k)) -> (k0 <= k)%N ->
        near e L A /\ near e M B,
      exists2 x0 : R, 0 < x0 & forall Y x m A B t k, fro (Y - X) <= d -> x <= x0 -> estimation_cov_kronecker_MM ssqrtm a b Y (Fin x) m = Ok (Some (A, B, t, k)) ->
        (k < m)%N -> near e L A /\ near e M B &
      exists k1, forall Y m, fro (Y - X) <= d -> (k1 < m)%N ->
        exists A B k, estimation_cov_kronecker_MM ssqrtm a b Y (Fin e) m = Ok (Some (A, B, Fin e, k)) /\ (k <= k1)%N]].
Theorem C127_continuous N a b : (0 < N)%N -> (0 < a)%N -> (0 < b)%N ->
  (forall (ssqrtm : forall n, 'M[real_sf]_n -> 'M[real_sf]_n) (X : 'M[real_sf]_(N, a * b)), sqrtm_psd_ok ssqrtm -> nonzero_samples X -> kron_stable X ->
     mm_continuous ssqrtm X) /\
  (forall (ssqrtm : forall n, 'M[complex_sf]_n -> 'M[complex_sf]_n) (X : 'M[complex_sf]_(N, a * b)), sqrtm_psd_ok ssqrtm -> nonzero_samples X -> kron_stable X ->
     mm_continuous ssqrtm X).
Proof.
by move=> N0 a0 b0; split=> ssqrtm X ok nz st; [exact: (mm_cont real_compact ok nz N0 a0 b0 st) | exact: (mm_cont complex_compact ok nz N0 a0 b0 st)].
Qed.
(* the three samples of C90 and the square root computed from the eigenvalues *)
Example C127_hypotheses : [/\ sqrtm_psd_ok (fun n (A : 'M[complex_sf]_n) => fmx R_sqrt.sqrt A), nonzero_samples (kX complex_sf) & kron_stable (kX complex_sf)].
Proof. by have [nz st _] := C89_C90_C91_hypotheses complex_sf; split=> //; exact: sqrtm_psd_exists. Qed.

Print Assumptions C127_continuous.
