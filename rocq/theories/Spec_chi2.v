(* The chi-squared law with d degrees of freedom: the law of |z|^2, z standard normal in dimension d.
   In polar coordinates the density of s = |z| is proportional to s^(d-1) exp(-s^2/2). *)
From Coq Require Import Reals.
From Coquelicot Require Import Coquelicot.
Local Open Scope R_scope.
Definition radial (d : nat) (s : R) : R := s ^ (d - 1) * exp (- (s ^ 2 / 2)).
(* its integral over [0, +oo) *)
Definition mass (d : nat) (M : R) : Prop := is_lim (fun A => RInt (radial d) 0 A) p_infty M.
(* F is the probability of |z|^2 <= x *)
Definition chi2_probability (d : nat) (x F : R) : Prop := exists2 M, mass d M & F = RInt (radial d) 0 (sqrt x) / M.
(* e is the expectation of h(|z|^2) *)
Definition chi2_expectation (d : nat) (h : R -> R) (e : R) : Prop := exists M m : R,
  mass d M /\ is_lim (fun A => RInt (fun s => h (s ^ 2) * radial d s) 0 A) p_infty m /\ e = m / M.
