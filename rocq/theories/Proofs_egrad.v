(* The derivative of Tyler's cost along Hermitian directions.  Nothing here models code. *)
From Coq Require Import Reals.
From mathcomp Require Import all_ssreflect all_algebra.
From Coquelicot Require Import Coquelicot.
From Verif Require Import RealsMC RealTac RealTac2 Star StarInst FunCalc Model_linalg Proofs_linalg
  Model_covariance Spec_covariance Spec_fixedpoint Proofs_mest Proofs_cost GeoNum Props_geodesic KronNum TylNum Props_cost Props_kstudent.
Set Implicit Arguments.
Unset Strict Implicit.
Unset Printing Implicit Defensive.
Local Open Scope ring_scope.
Import GRing.Theory Num.Theory Order.TTheory.

Lemma derivative_unique (P : R -> R -> Prop) (d d' : R) : (forall s v v', P s v -> P s v' -> v = v') -> derivative_at0 P d -> derivative_at0 P d' -> d = d'.
Proof.
move=> fun_ [f [e [e0 h hd]]] [g [e' [e0' h' hd']]].
apply: (@derive_near f g (Num.min e e')) hd hd'; first by apply/RltP; rewrite lt_minr e0.
by move=> s /RltP; rewrite RabsE lt_minr => /andP[a b]; apply: fun_ (h _ a) (h' _ b).
Qed.
Lemma derivative_imp (P Q : R -> R -> Prop) d : (forall s v, P s v -> Q s v) -> derivative_at0 P d -> derivative_at0 Q d.
Proof. by move=> h [f [e [e0 hP hd]]]; exists f, e; split=> // s /hP /h. Qed.
Section Gradient.
Variable K : starField.
Local Notation ofR := (@ofR K).
Local Notation toR := (@toR K).
Variables (N p : nat) (X : 'M[K]_(N, p)).
Hypotheses (X0 : forall i, row i X != 0) (N0 : (0 < N)%N).
(* N times what the update of Tyler's iteration changes *)
Definition tyl_move (Q : 'M[K]_p) : 'M[K]_p := ofR N%:R *: (Q - wsum (fun i => p%:R / N%:R / maha Q (samp X i)) X).
Lemma maha_tr (Q : 'M[K]_p) x : pd Q -> maha Q x = toR (\tr (invmx Q *m outer x)).
Proof. by move=> pQ; rewrite /maha /outer mulmxA mxtrace_mulC mulmxA trace_mx11. Qed.
Lemma move_tr (Q H : 'M[K]_p) : pd Q ->
  toR (\tr (invmx Q *m tyl_move Q *m invmx Q *m H)) =
  p%:R * (\sum_i - ((maha Q (samp X i))^-1 * toR (\tr (invmx Q *m H *m invmx Q *m outer (samp X i))))) + N%:R * toR (\tr (invmx Q *m H)).
Proof.
move=> pQ; have uQ := pd_unit pQ; have n0 : N%:R != 0 :> R by rewrite pnatr_eq0 -lt0n.
rewrite /tyl_move -scalemxAr -!scalemxAl mxtraceZ toRZ mulmxBr mulVmx // !mulmxBl mul1mx raddfB raddfB mulrBr /= addrC; congr (_ + _).
rewrite sumrN mulrN; congr (- _); rewrite /wsum mulmx_sumr !mulmx_suml (big_morph _ (@mxtraceD _ _) (mxtrace0 _ _)) raddf_sum !mulr_sumr.
apply: eq_bigr => i _ /=; rewrite -scalemxAr -!scalemxAl mxtraceZ toRZ !mulrA; congr (_ * toR _).
  by rewrite [N%:R * _]mulrC mulfK.
by have := mxtrace_mulC (invmx Q *m outer (samp X i)) (invmx Q *m H); rewrite !mulmxA => ->.
Qed.
Lemma tyler_derivative (Q H : 'M[K]_p) : pd Q -> herm H ->
  derivative_at0 (fun s v => pd (line Q H s) /\ v = tyler_objective X (line Q H s)) (toR (\tr (invmx Q *m tyl_move Q *m invmx Q *m H))).
Proof.
move=> pQ hH; have [h [eps [e0 pL dL tH hT]]] := along pQ hH.
have [c hc] := fin_all_exists (fun i => hT (outer (samp X i))).
have q0 i : \sum_j c i j * Rinv (1 + 0 * h j) = maha Q (samp X i).
  by rewrite -(proj1 (hc i) 0) ?normr0 // /line rmorph0 scale0r addr0 maha_tr.
exists (fun s => p%:R * (\sum_i ln (\sum_j c i j * Rinv (1 + s * h j))) + N%:R * (ln (toR (\det Q)) + \sum_j ln (1 + s * h j))), eps; split=> //.
  move=> s hs; split; first exact: pL.
  rewrite /tyler_objective dL //; congr (_ * _ + _); apply: eq_bigr => i _; by rewrite (maha_tr _ (pL s hs)) (proj1 (hc i) s hs).
rewrite move_tr //; apply: d_add; apply: d_scale.
  apply: d_sum => i; rewrite (proj2 (hc i)) -mulrN -Rinv_E -q0 -sumrN.
  apply: d_ln; last by apply: d_sum => j; exact: d_frac.
  by apply/RltP; rewrite q0; apply: maha_gt0 => //; by rewrite /samp trmx_eq0.
by rewrite tH -[\sum_j h j]add0r; apply/d_add; [exact: d_const|apply: d_sum => j; exact: d_ln1].
Qed.
End Gradient.
