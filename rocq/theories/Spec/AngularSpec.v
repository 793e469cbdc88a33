(** What the angular correlation function stands for, and the smoothness its accuracy is stated for. *)
From Coq Require Import Reals.
From Coquelicot Require Import Coquelicot.
Local Open Scope R_scope.

(** Limber's double integral over distance x and separation u along the line of sight, n the product of the two distributions of
    distance *)
Definition limber_integral (n xi : R -> R) (x0 x1 u0 u1 theta : R) : R :=
  2 * RInt (fun x => n x * RInt (fun u => xi (sqrt (theta ^ 2 * x ^ 2 + u ^ 2))) u0 u1) x0 x1.
(** xi has three derivatives from [lo] on, of which the j-th falls at least like r^(-j-1/2) *)
Definition falling (xi xi1 xi2 xi3 : R -> R) (B lo : R) : Prop :=
  forall r, lo <= r -> is_derive xi r (xi1 r) /\ is_derive xi1 r (xi2 r) /\ is_derive xi2 r (xi3 r) /\
    Rabs (xi r) <= B / sqrt r /\ Rabs (xi1 r) <= B / (r * sqrt r) /\ Rabs (xi2 r) <= B / (r ^ 2 * sqrt r) /\ Rabs (xi3 r) <= B / (r ^ 3 * sqrt r).
(** n varies over distances of at least [ell] *)
Definition varies (n n1 n2 n3 : R -> R) (N ell x0 x1 : R) : Prop :=
  forall x, x0 <= x <= x1 -> is_derive n x (n1 x) /\ is_derive n1 x (n2 x) /\ is_derive n2 x (n3 x) /\
    Rabs (n x) <= N /\ Rabs (n1 x) <= N / ell /\ Rabs (n2 x) <= N / ell ^ 2 /\ Rabs (n3 x) <= N / ell ^ 3.
