(** Spherical-overdensity masses. *)
From Coq Require Import Reals.
Local Open Scope R_scope.
(** a sphere of radius r holds mass m at delta times the mean density rho *)
Definition encloses (delta rho r m : R) : Prop := 4 / 3 * PI * r ^ 3 * (delta * rho) = m.
