(** Vocabulary for the halo-exclusion properties. *)
From Coq Require Import Reals Arith.
Local Open Scope R_scope.

(** A halo of mass m and mean density rho fills a sphere of radius R. *)
Definition sphere_radius (rho m R0 : R) : Prop := 0 < R0 /\ 4 / 3 * PI * R0 ^ 3 * rho = m.
