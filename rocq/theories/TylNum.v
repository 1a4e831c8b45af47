(* The derivative used for C103, in the notations of the standard library.  Nothing here models code. *)
From Coq Require Import Reals Lra.
From Coquelicot Require Import Coquelicot.
Local Open Scope R_scope.
Lemma d_ln (q : R -> R) (q' : R) : 0 < q 0 -> is_derive q 0 q' -> is_derive (fun s => ln (q s)) 0 (/ q 0 * q').
Proof.
intros q0 hq; replace (/ q 0 * q') with (q' * / q 0) by ring.
apply (is_derive_comp ln q 0 (/ q 0) q'); [|exact hq].
auto_derive; [exact q0 | field; lra].
Qed.
(* two functions equal near 0 have the same derivative *)
Lemma derive_near (f g : R -> R) (e a b : R) : 0 < e -> (forall s, Rabs s < e -> f s = g s) -> is_derive f 0 a -> is_derive g 0 b -> a = b.
Proof.
intros e0 h hf hg; assert (hg' : is_derive g 0 a).
{ apply (is_derive_ext_loc f); [|exact hf]; exists (mkposreal e e0); intros y hy; apply h.
  unfold ball in hy; simpl in hy; unfold AbsRing_ball, abs, minus, plus, opp in hy; simpl in hy; rewrite Ropp_0, Rplus_0_r in hy; exact hy. }
rewrite <- (is_derive_unique _ _ _ hg'); apply is_derive_unique; exact hg.
Qed.
