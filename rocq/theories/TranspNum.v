(* Derivatives used for the parallel transport and the retractions.  Nothing here models code. *)
From Coq Require Import Reals Lra.
From Coquelicot Require Import Coquelicot.
Local Open Scope R_scope.
Lemma d_expc (r t c : R) : is_derive (fun t => exp (t * r) * c) t (exp (t * r) * (r * c)).
Proof. auto_derive; [exact I | ring]. Qed.
(* z' = r z has the only solutions z(0) e^(r t) *)
Lemma d_damped (z : R -> R) (r t : R) : is_derive z t (r * z t) -> is_derive (fun s => z s * exp (- (r * s))) t 0.
Proof.
intros h; assert (e : is_derive (fun s => exp (- (r * s))) t (- r * exp (- (r * t)))).
  auto_derive; [exact I | ring].
replace 0 with (plus (mult (r * z t) (exp (- (r * t)))) (mult (z t) (- r * exp (- (r * t))))).
  apply (is_derive_mult z (fun s => exp (- (r * s))) t (r * z t) (- r * exp (- (r * t))) h e); intros; apply Rmult_comm.
unfold plus, mult; simpl; unfold mult; simpl; ring.
Qed.
Lemma linear_ode (z : R -> R) (r : R) : (forall t, is_derive z t (r * z t)) -> forall t, z t = exp (t * r) * z 0.
Proof.
intros h t; set (f := fun s => z s * exp (- (r * s))).
assert (d : forall s, is_derive f s 0) by (intros s; apply d_damped; apply h).
assert (e : f t = f 0).
  destruct (MVT_gen f 0 t (fun _ => 0)) as [c [_ hc]].
  - intros; apply d.
  - intros; apply continuity_pt_filterlim; apply (ex_derive_continuous f); exists 0; apply d.
  - lra.
unfold f in e; rewrite Rmult_0_r, Ropp_0, exp_0, Rmult_1_r in e; rewrite <- e.
rewrite exp_Ropp; field_simplify; [|apply Rgt_not_eq, exp_pos].
replace (t * r) with (r * t) by ring; field; apply Rgt_not_eq, exp_pos.
Qed.
Lemma d_spvt (x u v t : R) : is_derive (fun t => x * exp (/ x * (t * u)) * (/ x * v)) t (u * / x * (x * exp (/ x * (t * u)) * (/ x * v))).
Proof. auto_derive; [exact I | ring]. Qed.
