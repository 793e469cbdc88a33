(** Integrals over halo mass, stated without reference to the program. *)
From Coq Require Import Reals.
From Coquelicot Require Import Coquelicot.
Local Open Scope R_scope.

(** n masses in geometric progression: m0, m0 e^dx, m0 e^(2dx), ... *)
Definition log_masses (n : nat) (m : nat -> R) (m0 dx : R) : Prop := forall i, (i < n)%nat -> m i = m0 * exp (INR i * dx).
(** the integral of F over the mass, int_{m0}^{m1} F(m) dm *)
Definition over_mass (F : R -> R) (m0 m1 : R) : R := RInt F m0 m1.
(** the integrand per logarithm of the mass, m F(m) as a function of ln m, has a second derivative of at most K *)
Definition curvature (F : R -> R) (K m0 m1 : R) : Prop := exists G1 G2 : R -> R, forall x, ln m0 <= x <= ln m1 ->
  is_derive (fun y => exp y * F (exp y)) x (G1 x) /\ is_derive G1 x (G2 x) /\ Rabs (G2 x) <= K.
(** f is twice differentiable and its third derivative is at most M m^(-7/2) (stated for the increments of the second derivative) *)
Definition third_order (f : R -> R) (M a b : R) : Prop := exists f1 f2 : R -> R, (forall s, a <= s <= b -> is_derive f s (f1 s)) /\ (forall s, a <= s <= b -> is_derive f1 s (f2 s)) /\
  (forall c s t, a <= c -> c <= s -> s <= t -> t <= b -> Rabs (f2 t - f2 s) <= M / (c ^ 3 * sqrt c) * (t - s)).
