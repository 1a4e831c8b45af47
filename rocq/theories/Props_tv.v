(* The estimates of Tyler and Student move at most proportionally to the distance in total variation between the samples:
   C121. *)
From Coq Require Import Reals String Lra.
From mathcomp Require Import all_ssreflect all_algebra.
From mathcomp Require Import complex zify.
From mathcomp Require Import mxtens.
From Verif Require Import RealsMC RealTac RealTac2 Star StarInst FunCalc Model_featurearray Model_linalg Proofs_linalg Props_linalg
  Model_covariance Spec_covariance Spec_fixedpoint Spec_exist Model_estimators Proofs_mest Proofs_loop Proofs_covariance Proofs_estimators
  Props_covariance Proofs_cost Props_cost Props_robust Proofs_unique Proofs_unique2 Props_unique Compact Proofs_converge Props_converge
  Proofs_exist Proofs_exist2 Props_exist Proofs_stable Spec_tv Proofs_tv Proofs_tv2.
Set Implicit Arguments.
Unset Strict Implicit.
Unset Printing Implicit Defensive.
Local Open Scope ring_scope.
Import GRing.Theory Num.Theory Order.TTheory.

(* ------------------------------------------------------------------ C121 *)
(* Replacing k of N samples moves the empirical distribution by at most k / N, adding k samples by at most k / (N + k), and
   taking every sample the same number of times, in any order, does not move it *)
Theorem C121_distances (K : starField) p :
  [/\ forall N (X Y : 'M[K]_(N, p)) k, (#|[set i | row i Y != row i X]| <= k)%N -> tv_le (k%:R / N%:R) X Y,
      forall N k (X : 'M[K]_(N, p)) (Z : 'M[K]_(k, p)), (0 < N)%N -> tv_le (k%:R / (N + k)%:R) X (col_mx X Z),
      forall N N' (X : 'M[K]_(N, p)) (Y : 'M[K]_(N', p)) (f : 'I_N' -> 'I_N) m, (0 < m)%N -> (forall i, row i Y = row (f i) X) ->
        (forall j, #|[set i | f i == j]| = m) -> tv_le 0 X Y &
      forall N N' N'' (X : 'M[K]_(N, p)) (Y : 'M[K]_(N', p)) (Z : 'M[K]_(N'', p)) d e, tv_le d X Y -> tv_le e Y Z -> tv_le (d + e) X Z].
Proof.
split=> [N X Y k|N k X Z|N N' X Y f m|N N' N'' X Y Z d e h1 h2 g hg].
- exact: tv_replace.
- exact: tv_add.
- exact: tv_repeat.
- have -> : mean Z g - mean X g = (mean Y g - mean X g) + (mean Z g - mean Y g) by rewrite [RHS]addrC addrA subrK.
  by apply: le_trans (ler_norm_add _ _) _; apply: ler_add; [exact: h1 | exact: h2].
Qed.
(* Student: when the samples move by e in total variation, whatever the number and the size of the new ones, Student's
   equation still has one solution and it is within a factor 1 + h (a+Q) / (a - h (a+Q)) of the former, h = e (a+p), as
   long as that is positive; Q is the largest of the x^H S^-1 x *)
Theorem C121_student N N' p (a : R) : 0 < a ->
  (forall (X : 'M[real_sf]_(N, p.+1)) (Y : 'M[real_sf]_(N', p.+1)) S (Q e : R), (forall i, row i Y != 0) -> student_solution a X S ->
     (forall i, maha S (samp X i) <= Q) -> tv_le e X Y -> e * (a + p.+1%:R) * (a + Q) < a ->
     exists T, [/\ student_solution a Y T, forall T', student_solution a Y T' -> T' = T, loewner T (@ofR real_sf (1 + stu_influence a p.+1 Q e) *: S),
       loewner S (@ofR real_sf (1 + stu_influence a p.+1 Q e) *: T) & fro (T - S) <= stu_influence a p.+1 Q e * fro S]) /\
  (forall (X : 'M[complex_sf]_(N, p.+1)) (Y : 'M[complex_sf]_(N', p.+1)) S (Q e : R), (forall i, row i Y != 0) -> student_solution a X S ->
     (forall i, maha S (samp X i) <= Q) -> tv_le e X Y -> e * (a + p.+1%:R) * (a + Q) < a ->
     exists T, [/\ student_solution a Y T, forall T', student_solution a Y T' -> T' = T, loewner T (@ofR complex_sf (1 + stu_influence a p.+1 Q e) *: S),
       loewner S (@ofR complex_sf (1 + stu_influence a p.+1 Q e) *: T) & fro (T - S) <= stu_influence a p.+1 Q e * fro S]).
Proof.
move=> a0.
have G (K : starField) (cK : compactK K) (X : 'M[K]_(N, p.+1)) (Y : 'M[K]_(N', p.+1)) S (Q e : R) : (forall i, row i Y != 0) -> student_solution a X S ->
     (forall i, maha S (samp X i) <= Q) -> tv_le e X Y -> e * (a + p.+1%:R) * (a + Q) < a ->
     exists T, [/\ student_solution a Y T, forall T', student_solution a Y T' -> T' = T, loewner T (@ofR K (1 + stu_influence a p.+1 Q e) *: S),
       loewner S (@ofR K (1 + stu_influence a p.+1 Q e) *: T) & fro (T - S) <= stu_influence a p.+1 Q e * fro S].
  move=> Y0 sol bQ tv small; have [T sT [c1 c2]] := tv_student cK a0 Y0 sol bQ tv small; exists T; split=> // [T' sT'|].
    exact: (stu_unique (tv_N' a0 sol bQ tv small) Y0 a0 sT' sT).
  apply: loewner_fro => //; [exact: sT.1 | exact: sol.1 | ].
  have N0 := spanning_N (student_spanning sol); have Q0 : 0 <= Q by have := bQ (Ordinal N0); apply: le_trans; exact: maha_ge0 sol.1.
  have aQ : 0 <= a + Q by rewrite addr_ge0 // ltW.
  rewrite /stu_influence divr_ge0 ?subr_ge0 ?(ltW small) // !mulr_ge0 //; [exact: tv_ge0 tv | by rewrite addr_ge0 ?ler0n // ltW].
by split=> X Y S Q e; [exact: (G _ real_compact) | exact: (G _ complex_compact)].
Qed.
(* the results of the functions on the new samples, for a small tolerance and enough iterations, are as close to the
   former solution up to an error f that can be made as small as one likes *)
Theorem C121_student_results N N' p (df : R) : 0 < df ->
  (forall (X : 'M[real_sf]_(N, p.+1)) (Y : 'M[real_sf]_(N', p.+1)) S (Q e f : R) eigh init, (forall i, row i Y != 0) -> student_solution (df / 2%:R) X S ->
     (forall i, maha S (samp X i) <= Q) -> tv_le e X Y -> e * (df / 2%:R + p.+1%:R) * (df / 2%:R + Q) < df / 2%:R -> eigh_ok eigh -> (forall s0, init = Some s0 -> pd s0) -> 0 < f ->
     exists2 t : R, 0 < t & forall tol : R, 0 < tol <= t -> exists n, forall m s d k, (n <= m)%N ->
       student_t_mle_fixed_point eigh Y df init (Fin tol) m = Some (Ok (s, d, k)) -> fro (s - S) <= (stu_influence (df / 2%:R) p.+1 Q e + f) * fro S) /\
  (forall (X : 'M[complex_sf]_(N, p.+1)) (Y : 'M[complex_sf]_(N', p.+1)) S (Q e f : R) eigh init, (forall i, row i Y != 0) -> student_solution df X S ->
     (forall i, maha S (samp X i) <= Q) -> tv_le e X Y -> e * (df + p.+1%:R) * (df + Q) < df -> eigh_ok eigh -> (forall s0, init = Some s0 -> pd s0) -> 0 < f ->
     exists2 t : R, 0 < t & forall tol : R, 0 < tol <= t -> exists n, forall m s d k, (n <= m)%N ->
       complex_student_t_mle_fixed_point eigh Y df init (Fin tol) m = Some (Ok (s, d, k)) -> fro (s - S) <= (stu_influence df p.+1 Q e + f) * fro S).
Proof.
move=> d0.
have tri (K : starField) n (s T S : 'M[K]_n) (x f : R) : 0 <= x -> 0 < f -> fro (s - T) <= f / (1 + x) * fro T -> fro (T - S) <= x * fro S -> fro (s - S) <= (x + f) * fro S.
  move=> x0 f0 h1 h2; have -> : s - S = (s - T) + (T - S) by rewrite addrA subrK.
  have x1 : 0 < 1 + x by rewrite ltr_spaddl ?ltr01.
  have h3 : fro T <= (1 + x) * fro S.
    by rewrite mulrDl mul1r addrC -{1}[T](subrK S); apply: le_trans (froD _ _) _; rewrite ler_add2r.
  apply: le_trans (froD _ _) _; rewrite addrC mulrDl; apply: ler_add => //; apply: le_trans h1 _.
  apply: le_trans (ler_wpmul2l _ h3) _; first by rewrite divr_ge0 // ltW.
  by rewrite mulrA divfK // gt_eqF.
have inf0 (K : starField) (a : R) (X : 'M[K]_(N, p.+1)) (Y : 'M[K]_(N', p.+1)) S (Q e : R) : 0 < a -> student_solution a X S -> (forall i, maha S (samp X i) <= Q) -> tv_le e X Y ->
    e * (a + p.+1%:R) * (a + Q) < a -> 0 <= stu_influence a p.+1 Q e.
  move=> a0 sol bQ tv small.
  have N0 := spanning_N (student_spanning sol); have Q0 : 0 <= Q by have := bQ (Ordinal N0); apply: le_trans; exact: maha_ge0 sol.1.
  have aQ : 0 <= a + Q by rewrite addr_ge0 // ltW.
  rewrite /stu_influence divr_ge0 ?subr_ge0 ?(ltW small) // !mulr_ge0 //; [exact: tv_ge0 tv | by rewrite addr_ge0 ?ler0n // ltW].
split=> X Y S Q e f eigh init Y0 sol bQ tv small ok pi f0.
  have i0 := inf0 _ _ _ _ _ _ _ (half_pos d0) sol bQ tv small.
  have [T [sT _ _ _ hT]] := (C121_student N N' p (half_pos d0)).1 X Y S Q e Y0 sol bQ tv small.
  have f1 : 0 < f / (1 + stu_influence (df / 2%:R) p.+1 Q e) by rewrite divr_gt0 // ltr_spaddl ?ltr01.
  have [t t0 ht] := (C84_student_accuracy N' p d0 f1).1 eigh Y T init ok Y0 sT pi; exists t => // tol tt; have [n hn] := ht tol tt; exists n => m s d k nm r.
  exact: tri i0 f0 (hn _ _ _ _ nm r) hT.
have i0 := inf0 _ _ _ _ _ _ _ d0 sol bQ tv small.
have [T [sT _ _ _ hT]] := (C121_student N N' p d0).2 X Y S Q e Y0 sol bQ tv small.
have f1 : 0 < f / (1 + stu_influence df p.+1 Q e) by rewrite divr_gt0 // ltr_spaddl ?ltr01.
have [t t0 ht] := (C84_student_accuracy N' p d0 f1).2 eigh Y T init ok Y0 sT pi; exists t => // tol tt; have [n hn] := ht tol tt; exists n => m s d k nm r.
exact: tri i0 f0 (hn _ _ _ _ nm r) hT.
Qed.
(* Tyler: under the condition of Tyler's equation there are e0 > 0 and C such that, when the samples move by e <= e0 in
   total variation, whatever the number and the size of the new ones, the condition still holds (so that there is a
   solution) and the normalised solution moves by at most C e *)
Theorem C121_tyler N p : (0 < N)%N ->
  (forall (X : 'M[real_sf]_(N, p.+1)) S, (forall i, row i X != 0) -> tyler_condition X -> tyler_solution X S ->
     exists e0 C : R, [/\ 0 < e0, 0 <= C & forall N' (Y : 'M[real_sf]_(N', p.+1)) e, (forall i, row i Y != 0) -> tv_le e X Y -> e <= e0 ->
       [/\ tyler_condition Y, exists T, tyler_solution Y T & forall T nrm, scaling_norm nrm -> tyler_solution Y T ->
         fro (normalised nrm T - normalised nrm S) <= C * e * fro (normalised nrm S)]]) /\
  (forall (X : 'M[complex_sf]_(N, p.+1)) S, (forall i, row i X != 0) -> tyler_condition X -> tyler_solution X S ->
     exists e0 C : R, [/\ 0 < e0, 0 <= C & forall N' (Y : 'M[complex_sf]_(N', p.+1)) e, (forall i, row i Y != 0) -> tv_le e X Y -> e <= e0 ->
       [/\ tyler_condition Y, exists T, tyler_solution Y T & forall T nrm, scaling_norm nrm -> tyler_solution Y T ->
         fro (normalised nrm T - normalised nrm S) <= C * e * fro (normalised nrm S)]]).
Proof.
move=> N0.
have G (K : starField) (cK : compactK K) (X : 'M[K]_(N, p.+1)) S : (forall i, row i X != 0) -> tyler_condition X -> tyler_solution X S ->
     exists e0 C : R, [/\ 0 < e0, 0 <= C & forall N' (Y : 'M[K]_(N', p.+1)) e, (forall i, row i Y != 0) -> tv_le e X Y -> e <= e0 ->
       [/\ tyler_condition Y, exists T, tyler_solution Y T & forall T nrm, scaling_norm nrm -> tyler_solution Y T ->
         fro (normalised nrm T - normalised nrm S) <= C * e * fro (normalised nrm S)]].
  move=> X0 cond sol; have [e0 e00 [C C0 h]] := tv_tyler cK X0 N0 cond sol; exists e0, C; split=> // N' Y e Y0 tv ee.
  by have [N'0 cY hY] := h N' Y e Y0 tv ee; split=> //; exact: tyler_exists.
by split=> X S; [exact: (G _ real_compact) | exact: (G _ complex_compact)].
Qed.
Theorem C121_tyler_results N p : (0 < N)%N ->
  (forall (X : 'M[real_sf]_(N, p.+1)) S, (forall i, row i X != 0) -> tyler_condition X -> tyler_solution X S ->
     exists e0 C : R, [/\ 0 < e0, 0 <= C & forall N' (Y : 'M[real_sf]_(N', p.+1)) e f eigh nrm init, (forall i, row i Y != 0) -> tv_le e X Y -> e <= e0 ->
       eigh_ok eigh -> scaling_norm nrm -> (forall s0, init = Some s0 -> pd s0) -> 0 < f -> exists2 t : R, 0 < t & forall tol : R, 0 < tol <= t -> exists n, forall m s d k, (n <= m)%N ->
         tyler_shape_matrix_fixedpoint eigh Y init (Fin tol) m nrm = Some (Ok (s, d, k)) -> fro (s - normalised nrm S) <= (C * e + f) * fro (normalised nrm S)]) /\
  (forall (X : 'M[complex_sf]_(N, p.+1)) S, (forall i, row i X != 0) -> tyler_condition X -> tyler_solution X S ->
     exists e0 C : R, [/\ 0 < e0, 0 <= C & forall N' (Y : 'M[complex_sf]_(N', p.+1)) e f eigh nrm init, (forall i, row i Y != 0) -> tv_le e X Y -> e <= e0 ->
       eigh_ok eigh -> scaling_norm nrm -> (forall s0, init = Some s0 -> pd s0) -> 0 < f -> exists2 t : R, 0 < t & forall tol : R, 0 < tol <= t -> exists n, forall m s d k, (n <= m)%N ->
         complex_tyler_shape_matrix_fixedpoint eigh Y init (Fin tol) m nrm = Some (Ok (s, d, k)) -> fro (s - normalised nrm S) <= (C * e + f) * fro (normalised nrm S)]).
Proof.
move=> N0.
have tri (K : starField) n (s T S : 'M[K]_n) (x f : R) : 0 <= x -> 0 < f -> fro (s - T) <= f / (1 + x) * fro T -> fro (T - S) <= x * fro S -> fro (s - S) <= (x + f) * fro S.
  move=> x0 f0 h1 h2; have -> : s - S = (s - T) + (T - S) by rewrite addrA subrK.
  have x1 : 0 < 1 + x by rewrite ltr_spaddl ?ltr01.
  have h3 : fro T <= (1 + x) * fro S.
    by rewrite mulrDl mul1r addrC -{1}[T](subrK S); apply: le_trans (froD _ _) _; rewrite ler_add2r.
  apply: le_trans (froD _ _) _; rewrite addrC mulrDl; apply: ler_add => //; apply: le_trans h1 _.
  apply: le_trans (ler_wpmul2l _ h3) _; first by rewrite divr_ge0 // ltW.
  by rewrite mulrA divfK // gt_eqF.
have pos (K : starField) N' (X : 'M[K]_(N, p.+1)) (Y : 'M[K]_(N', p.+1)) T : tyler_solution Y T -> (0 < N')%N.
  by move=> sT; exact: spanning_N (tyler_spanning sT).
split=> X S X0 cond sol.
  have [e0 [C [e00 C0 h]]] := (C121_tyler p N0).1 X S X0 cond sol; exists e0, C; split=> // N' Y e f eigh nrm init Y0 tv ee ok hn pi f0.
  have [cY [T0 sT0] hY] := h N' Y e Y0 tv ee; have [T sT hT] := (C85_computed p (pos _ _ X Y T0 sT0)).1 Y Y0 cY.
  have i0 : 0 <= C * e by rewrite mulr_ge0 //; exact: tv_ge0 tv.
  have f1 : 0 < f / (1 + C * e) by rewrite divr_gt0 // ltr_spaddl ?ltr01.
  have [t t0 ht] := hT eigh nrm init _ ok hn pi f1; exists t => // tol tt; have [n hh] := ht tol tt; exists n => m s d k nm r.
  exact: tri i0 f0 (hh _ _ _ _ nm r) (hY T nrm hn sT).
have [e0 [C [e00 C0 h]]] := (C121_tyler p N0).2 X S X0 cond sol; exists e0, C; split=> // N' Y e f eigh nrm init Y0 tv ee ok hn pi f0.
have [cY [T0 sT0] hY] := h N' Y e Y0 tv ee; have [T sT hT] := (C85_computed p (pos _ _ X Y T0 sT0)).2 Y Y0 cY.
have i0 : 0 <= C * e by rewrite mulr_ge0 //; exact: tv_ge0 tv.
have f1 : 0 < f / (1 + C * e) by rewrite divr_gt0 // ltr_spaddl ?ltr01.
have [t t0 ht] := hT eigh nrm init _ ok hn pi f1; exists t => // tol tt; have [n hh] := ht tol tt; exists n => m s d k nm r.
exact: tri i0 f0 (hh _ _ _ _ nm r) (hY T nrm hn sT).
Qed.

(* ------------------------------------------------------------------ examples *)
(* five samples equal to 1 on the line, one of which is replaced by any z other than 0 *)
Example C121_ex_student (K : starField) (z : K) : z != 0 -> let X : 'M[K]_(5, 1) := const_mx 1 in let Y : 'M[K]_(5, 1) := \matrix_(i, j) (if i == ord_max then z else 1) in
  [/\ student_solution 1 X 1%:M, forall i, row i Y != 0, forall i, maha (1%:M : 'M[K]_1) (samp X i) <= 1, tv_le (1 / 5%:R) X Y &
      1 / 5%:R * (1 + 1%:R) * (1 + 1) < 1 :> R].
Proof.
move=> z0 X Y; have sX i : samp X i = 1%:M by apply/matrixP => a b; rewrite !mxE (ord1 a) (ord1 b).
have m1 i : maha (1%:M : 'M[K]_1) (samp X i) = 1.
  by rewrite sX /maha invmx1 !mulmx1 /adj map_mx1 trmx1 !mxE eqxx toR1.
split.
- split; first exact: pd1.
  rewrite /wsum (eq_bigr (fun=> @ofR K 5%:R^-1 *: 1%:M)) => [|i _]; last first.
    rewrite m1 /outer sX; congr (@ofR K _ *: _); first by rewrite -[1%:R]/1 mulrAC divff ?mul1r // gt_eqF // addr_gt0 ?ltr01.
    by rewrite mul1mx /adj map_mx1 trmx1.
  by rewrite sumr_const card_ord -scaler_nat scalerA -(rmorph_nat (@ofR K)) -rmorphM mulfV ?pnatr_eq0 // (rmorph1 (@ofR K)) scale1r.
- move=> i; apply/eqP => /matrixP /(_ 0 0) /eqP; rewrite !mxE; case: ifP => _; by rewrite ?(negbTE z0) ?oner_eq0.
- by move=> i; rewrite m1.
- apply: (@tv_replace _ _ _ _ _ 1); apply: (@leq_trans #|[set (ord_max : 'I_5)]|); last (by rewrite cards1); apply: subset_leq_card; apply/subsetP => i; rewrite !inE.
  by apply: contraR => ni; apply/eqP/matrixP => a b; rewrite !mxE (negbTE ni).
- by rewrite -[1%:R]/1 -mulrA -[(1 + 1) * _]/(2%:R * 2%:R) -natrM mul1r mulrC ltr_pdivr_mulr ?ltr0n // mul1r ltr_nat.
Qed.
(* for the samples of an example of Tyler's equation, taking each m times and adding one sample z gives sets as close to
   them as one likes *)
Example C121_ex_tyler (K : starField) : exists (X : 'M[K]_(3, 2)) S, [/\ forall i, row i X != 0, tyler_condition X, tyler_solution X S &
  forall (e0 : R) (z : 'rV[K]_2), 0 < e0 -> z != 0 -> exists N' (Y : 'M[K]_(N', 2)) e, [/\ forall i, row i Y != 0, exists i, row i Y = z, tv_le e X Y & e <= e0]].
Proof.
have [X [S [[_ X0] irr sol _ _]]] := C77_C79_hypotheses K ltr01; exists X, S; split=> //; first exact: (tyler_necessary X0 sol irr).
move=> e0 z e00 z0; have [k hk] := arch 1 e00; pose m := k.+1.
pose Z : 'M[K]_(m * 3, 2) := \matrix_(i, j) X (mxtens_unindex i).2 j; have rZ i : row i Z = row (mxtens_unindex i).2 X by apply/rowP => j; rewrite !mxE.
have tZ : tv_le 0 X Z.
  apply: (@tv_repeat _ _ _ _ _ _ (fun i => (mxtens_unindex i).2) m) => // j; rewrite -[RHS]card_ord -(card_imset predT (f := fun a : 'I_m => mxtens_index (a, j))).
    apply: eq_card => i; rewrite !inE; apply/eqP/imsetP => [<-|[a _ ->]]; last by rewrite mxtens_indexK.
    by exists (mxtens_unindex i).1 => //; rewrite -surjective_pairing mxtens_unindexK.
  by move=> a b /(congr1 (fun i => (@mxtens_unindex m 3 i).1)); rewrite !mxtens_indexK.
have mm : (0 < m * 3)%N by [].
exists (m * 3 + 1)%N, (col_mx Z z), (0 + 1%:R / (m * 3 + 1)%:R); split.
- by move=> i; case: (split_ordP i) => j ->; rewrite ?rowKu ?rowKd ?rZ //; apply/eqP => e; move/eqP: z0; apply; rewrite -e; apply/rowP => l; rewrite mxE (ord1 j).
- by exists (rshift _ 0); rewrite rowKd; apply/rowP => l; rewrite mxE.
- have [_ h2 _ h4] := C121_distances K 2; exact: h4 tZ (h2 _ _ Z z mm).
- rewrite add0r ler_pdivr_mulr ?ltr0n ?addn1 //; apply: ltW; apply: lt_le_trans hk _; rewrite mulrC; apply: ler_wpmul2l; first exact: ltW.
  by rewrite ler_nat; apply: leq_trans (leqnSn k) _; rewrite -/m; apply: leq_trans (leq_pmulr m (isT : 0 < 3)%N) _.
Qed.

Print Assumptions C121_distances.
Print Assumptions C121_student.
Print Assumptions C121_student_results.
Print Assumptions C121_tyler.
Print Assumptions C121_tyler_results.
Print Assumptions C121_ex_student.
Print Assumptions C121_ex_tyler.
