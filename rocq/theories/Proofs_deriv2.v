(* Differentiability of Student's and Tyler's estimates in the samples. *)
From Coq Require Import Reals String Lra.
From mathcomp Require Import all_ssreflect all_algebra.
From mathcomp Require Import complex zify.
From Verif Require Import RealsMC RealTac RealTac2 Star StarInst FunCalc Compact Model_covariance Spec_covariance Spec_fixedpoint Spec_exist Spec_deriv
  Proofs_mest Proofs_estimators Proofs_cost Props_robust Proofs_unique Proofs_unique2 Props_unique Proofs_converge Props_converge Proofs_exist Proofs_exist2 Props_exist
  Proofs_kron3 Proofs_kron5 Props_covariance Proofs_stable Proofs_stable2 Proofs_tycont Proofs_tylip Proofs_deriv.
Set Implicit Arguments.
Unset Strict Implicit.
Unset Printing Implicit Defensive.
Local Open Scope ring_scope.
Import GRing.Theory Num.Theory Order.TTheory.

Section Norm.
Variables (K : starField) (p : nat).
Local Notation ofR := (@ofR K).
Local Notation toR := (@toR K).
Implicit Types (S T v s : 'M[K]_p.+1).
Lemma tr_le S T : loewner S T -> \tr S <= \tr T.
Proof. by move=> h; have := tr_loewner (pd_psd (pd1 K p.+1)) h; rewrite !mul1mx. Qed.
(* matrices of the same trace, close up to a factor, are close *)
Lemma close_unit v S (l t : R) : pd v -> pd S -> 0 < l -> 0 <= t -> close t v (ofR l *: S) -> \tr v = \tr S -> close ((1 + t) * (1 + t) - 1) v S.
Proof.
move=> pv pS l0 tp [h1 h2] e; have t1 : 0 <= 1 + t by rewrite addr_ge0 ?ler01.
have T0 := pd_tr_gt0 pS.
have u1 : 1 <= (1 + t) * l.
  by have := tr_le h1; rewrite scalerA -rmorphM mxtraceZ e -{1}[\tr S]mul1r ler_pmul2r // -{1}(rmorph1 (@Star.ofR K)) ofR_le.
have u2 : l <= 1 + t by have := tr_le h2; rewrite !mxtraceZ e ler_pmul2r // ofR_le.
rewrite /close [1 + (_ - 1)]addrC subrK; split.
  apply: loewner_trans h1 _; rewrite scalerA -rmorphM; apply: loewner_le; [exact: pd_psd | exact: ler_wpmul2l].
have li : 0 <= l^-1 by rewrite invr_ge0 ltW.
have := loewnerZ li h2; rewrite !scalerA -!rmorphM mulVf ?gt_eqF // (rmorph1 (@Star.ofR K)) scale1r => h3.
apply: loewner_trans h3 _; apply: loewner_le; first exact: pd_psd.
by apply: ler_wpmul2r => //; rewrite -[l^-1]mul1r ler_pdivr_mulr.
Qed.
Variable N : nat.
Implicit Types (X Y : 'M[K]_(N, p.+1)).
(* the change of the next update is at most proportional to the last one *)
Lemma next_change (w : R -> R) S (t0 : R) : subhom w -> pd S -> 0 < t0 -> t0 <= 1 -> exists2 C : R, 0 <= C & forall Y v s, (forall i, row i Y != 0) ->
  pd v -> pd s -> close t0 v S -> close t0 s S -> s = mstep w Y v -> fro (mstep w Y s - s) <= C * (fro (s - v) / fro v).
Proof.
move=> sh pS t00 t01; have [b [b1 _ s2]] := pd_comparable pS (pd1 K p.+1); have b0 := lt_le_trans ltr01 b1.
have fS : 0 <= fro S := fro_ge0 _; have b2 : 0 <= b * 2%:R by rewrite mulr_ge0 ?ler0n // ltW.
exists (b * 2%:R * (2%:R * fro S) * (2%:R * fro S)); first by rewrite !mulr_ge0 ?ler0n // ltW.
move=> Y v s Y0 pv ps clv cls es.
have c1 u : pd u -> close t0 u S -> close 1 u S by move=> pu; apply: close_le => //; exact: pd_psd.
have lo u : pd u -> close t0 u S -> loewner 1%:M (ofR (b * 2%:R) *: u).
  by move=> pu h; have [_ h'] := c1 u pu h; apply: loewner_comp s2 h'; exact: ltW.
have t0' : 0 <= t0 <= 1 by rewrite ltW.
have fv : 0 < fro v by rewrite lt_def (pd_fro pv) fro_ge0.
pose x := fro (s - v) / fro v; have x0 : 0 <= x by rewrite divr_ge0 ?fro_ge0.
have e0 : 0 <= b * 2%:R * fro (s - v) by rewrite mulr_ge0 ?fro_ge0.
have csv : close (b * 2%:R * fro (s - v)) s v by apply: fro_close => //; try exact: pd_herm; try exact: lo; exact: fro_ge0.
have [h1 h2] : close (b * 2%:R * fro (s - v)) (mstep w Y s) s by rewrite [X in close _ _ X]es; apply: (F_close Y0 sh).
have fYs : fro (mstep w Y s - s) <= b * 2%:R * fro (s - v) * fro s.
  apply: loewner_fro => //; apply: loewner_pd h2 => //.
  by rewrite ltr_spaddl ?ltr01.
apply: le_trans fYs _; rewrite -/x; have -> : fro (s - v) = x * fro v by rewrite /x divfK // gt_eqF.
have -> : b * 2%:R * (2%:R * fro S) * (2%:R * fro S) * x = b * 2%:R * (x * (2%:R * fro S)) * (2%:R * fro S).
  by move: (b * 2%:R) (x) (2%:R * fro S) => u1 v1 w1; clear; rring.
apply: ler_pmul; [by rewrite mulr_ge0 // mulr_ge0 // ltW | exact: fro_ge0 | | exact: (close_froS ps pS t0' cls)].
by apply: ler_wpmul2l => //; apply: ler_wpmul2l => //; exact: (close_froS pv pS t0' clv).
Qed.
End Norm.

Section Student.
Variables (K : starField) (N p : nat) (a : R) (X : 'M[K]_(N, p.+1)) (S : 'M[K]_p.+1).
Local Notation ofR := (@ofR K).
Hypotheses (cK : compactK K) (X0 : forall i, row i X != 0) (a0 : 0 < a) (sol : student_solution a X S).
Local Notation c := ((a + p.+1%:R) / N%:R).
Lemma student_deriv : exists t0 C0 : R, [/\ 0 < t0, t0 <= 1, 0 <= C0,
  (forall v, pd v -> close t0 v S -> 0 * \tr (v - S) = 0 :> K -> fro (v - S) <= C0 * fro (mstep (ratio c a) X v - v)) &
  near_data X (fun Y => exists T, [/\ pd T, close t0 T S, mstep (ratio c a) Y T = T & 0 * \tr (T - S) = 0 :> K])].
Proof.
have [t0 [M [t00 t01 M0 h]]] := stu_resid cK X0 a0 sol; exists t0, (M * fro S); split=> //.
- by rewrite mulr_ge0 ?fro_ge0.
- move=> v pv cl _; have [l -> []] := h v pv cl; rewrite (rmorph1 (@Star.ofR K)) scale1r => u1 u2.
  by rewrite mulrAC; apply: loewner_fro => //; [exact: sol.1 | rewrite mulr_ge0 ?fro_ge0].
- apply: near_imp (student_near a0 cK X0 sol t00) => Y [T sT cl]; exists T; split=> //; [exact: sT.1 | by case: sT => _ {2}-> | by rewrite mul0r].
Qed.
Lemma student_changeE U D : student_change a X S U D <-> deriv c a X S 0 U D.
Proof. by split=> [[h e]|[h _ e]]; split=> //; rewrite mul0r. Qed.
End Student.

Section Tyler.
Variables (K : starField) (N p : nat) (X : 'M[K]_(N, p.+1)) (S : 'M[K]_p.+1).
Local Notation ofR := (@ofR K).
Local Notation toR := (@toR K).
Hypotheses (cK : compactK K) (X0 : forall i, row i X != 0) (N0 : (0 < N)%N) (cond : tyler_condition X) (sol : tyler_solution X S).
Local Notation c := (p.+1%:R / N%:R).
Lemma tylE (Y : 'M[K]_(N, p.+1)) T : mstep (tyl_w N p.+1) Y T = mstep (ratio c 0) Y T.
Proof. by rewrite /mstep; apply: eq_wsum => i; rewrite /ratio add0r. Qed.
Lemma tylZ (Y : 'M[K]_(N, p.+1)) (k : R) T : 0 < k -> pd T -> mstep (tyl_w N p.+1) Y (ofR k *: T) = ofR k *: mstep (tyl_w N p.+1) Y T.
Proof.
move=> k0 pT; rewrite /mstep /wsum scaler_sumr; apply: eq_bigr => i _; rewrite maha_scale //.
by rewrite scalerA -rmorphM /tyl_w invf_div; congr (ofR _ *: _); rewrite [LHS]mulrCA.
Qed.
(* rescale to the trace of S *)
Definition tau (T : 'M[K]_p.+1) : R := toR (\tr S) / toR (\tr T).
Lemma tau_gt0 T : pd T -> 0 < tau T.
Proof. by move=> pT; rewrite divr_gt0 //; apply: toR_gt0; apply: pd_tr_gt0 => //; exact: sol.1. Qed.
Lemma tau_tr T : pd T -> \tr (ofR (tau T) *: T) = \tr S.
Proof.
move=> pT; rewrite mxtraceZ -{1}(toR_ofR_gt0 (pd_tr_gt0 pT)) -rmorphM /tau divfK ?toR_ofR_gt0 //; first exact/pd_tr_gt0/sol.1.
by rewrite gt_eqF //; apply: toR_gt0; exact: pd_tr_gt0.
Qed.
Lemma small2 (e : R) : 0 < e -> exists2 f : R, 0 < f & (1 + f) * (1 + f) - 1 <= e.
Proof. by move=> /small3 [f f0 h]; exists f => //; exact: (small_chain f0 h).2. Qed.
Lemma tau_close T (l t : R) : pd T -> 0 < l -> 0 <= t -> close t T (ofR l *: S) -> close ((1 + t) * (1 + t) - 1) (ofR (tau T) *: T) S.
Proof.
move=> pT l0 tp cl; have k0 := tau_gt0 pT; have pk : pd (ofR (tau T) *: T) by apply: pdZ; rewrite ?ofR_gt0.
have ck : close t (ofR (tau T) *: T) (ofR (tau T * l) *: S) by rewrite (rmorphM (@Star.ofR K) (tau T) l) -scalerA; exact: close_scale (ltW k0) cl.
exact: (close_unit pk sol.1 (mulr_gt0 k0 l0) tp ck (tau_tr pT)).
Qed.
Lemma tyler_deriv : exists t0 C0 : R, [/\ 0 < t0, t0 <= 1, 0 <= C0,
  (forall v, pd v -> close t0 v S -> 1 * \tr (v - S) = 0 :> K -> fro (v - S) <= C0 * fro (mstep (ratio c 0) X v - v)) &
  near_data X (fun Y => exists T, [/\ pd T, close t0 T S, mstep (ratio c 0) Y T = T & 1 * \tr (T - S) = 0 :> K])].
Proof.
have pS := sol.1; have irr := tyler_irreducible X0 N0 cond.
have [t0 [M [t00 t01 M0 h]]] := tyl_resid cK X0 irr sol; have fS : 0 <= fro S := fro_ge0 S.
have x0 : 0 <= M * (2%:R * fro S) by rewrite !mulr_ge0 ?ler0n.
exists t0, ((2%:R + M * (2%:R * fro S)) * M * fro S); split=> //.
- by rewrite !mulr_ge0 // addr_ge0 ?ler0n.
- move=> v pv cl; rewrite mul1r raddfB /= => /eqP; rewrite subr_eq0 => /eqP e; have [l l0 cl'] := h v pv cl.
  rewrite -tylE; set r := fro _ in cl' *; have r0 : 0 <= r := fro_ge0 _.
  have rb : r <= 2%:R * fro S.
    have sp : spanning X by exact: (near_at (near_spanning X0 N0 cond)).2.
    have pF : pd (mstep (tyl_w N p.+1) X v) by exact: tyl_pd.
    have fF : mstep (tyl_w N p.+1) X S = S by case: (sol) => _ {2}->.
    have clF : close t0 (mstep (tyl_w N p.+1) X v) S by rewrite -[X in close _ _ X]fF; apply: (F_close X0 (tyl_subhom p N0)) => //; exact: ltW.
    apply: le_trans (close_fro_sum pF pv pS (ltW t00) clF cl) _; rewrite mulrAC; apply: ler_pimulr => //; by rewrite mulr_ge0 ?ler0n.
  have [u1 u2] := close_unit pv pS l0 (mulr_ge0 M0 r0) cl' e.
  apply: le_trans (loewner_fro pv pS _ u1 u2) _; first by rewrite subr_ge0 mulr_ege1 // ler_addl mulr_ge0.
  rewrite mulrAC; apply: ler_wpmul2r => //.
  have -> : (1 + M * r) * (1 + M * r) - 1 = (2%:R + M * r) * M * r by move: (M) (r) => x y; clear; rfield.
  by apply: ler_wpmul2r => //; apply: ler_wpmul2r => //; rewrite ler_add2l; apply: ler_wpmul2l.
- have [f f0 hf] := small2 t00.
  apply: near_imp (near_and (near_nonzero X0) (near_and (near_condition X0 cond) (tyler_near cK X0 N0 sol cond f0))) => Y [Y0 [condY hY]].
  have [T sT] := tyler_exists cK Y0 N0 condY; have [k k0 cl] := hY T sT; have sc := tyler_solution_scale k0 sT.
  exists (ofR (tau (ofR k *: T)) *: (ofR k *: T)); have k1 := tau_gt0 sc.1; have sc' := tyler_solution_scale k1 sc; split.
  + exact: sc'.1.
  + apply: close_le hf _; [exact: pd_psd sc'.1 | exact: pd_psd |]; apply: (tau_close sc.1 ltr01 (ltW f0)); by rewrite (rmorph1 (@Star.ofR K)) scale1r.
  + by rewrite -tylE; case: sc' => _ {2}->.
  + by rewrite mul1r raddfB /= tau_tr ?subrr //; exact: sc.1.
Qed.
Lemma tyler_changeE U D : tyler_change X S U D <-> deriv c 0 X S 1 U D.
Proof. by split=> [[h t e]|[h t e]]; split=> //; move: t; rewrite mul1r. Qed.
Lemma tau_le T L (t : R) : pd T -> pd L -> t <= 1 -> close t T L -> tau T <= 2%:R * tau L.
Proof.
move=> pT pL t1 [_ h]; have gT := toR_gt0 (pd_tr_gt0 pT); have gL := toR_gt0 (pd_tr_gt0 pL); have gS := toR_gt0 (pd_tr_gt0 sol.1).
have le : toR (\tr L) <= 2%:R * toR (\tr T).
  have := toR_le (tr_le h); rewrite mxtraceZ toRZ => le; apply: le_trans le _; apply: ler_wpmul2r; first exact: ltW.
  by rewrite -[2%:R]/((1 + 1)%:R) natrD ler_add2l.
rewrite /tau mulrCA; apply: ler_wpmul2l; first exact: ltW.
by rewrite -[_^-1]mul1r ler_pdivr_mulr // mulrAC ler_pdivl_mulr // mul1r.
Qed.
Lemma tau_normalised T : \tr S = p.+1%:R -> pd T -> normalised "trace" T = ofR (tau T) *: T.
Proof.
move=> e pT; rewrite /normalised /get_normalisation_function /= /norm_trace -fmorphV invf_div; congr (ofR _ *: _); by rewrite /tau e toR_nat.
Qed.
End Tyler.
