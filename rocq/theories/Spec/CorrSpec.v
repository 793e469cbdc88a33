(** The isotropic Fourier integral in ln k: xi(r) = 1/(2 pi^2) int P(k) k^2 sin(kr)/(kr) k dln k, between two wavenumbers. *)
From Coq Require Import Reals.
From Coquelicot Require Import Coquelicot.
Local Open Scope R_scope.
Definition xi_integrand (P : R -> R) (r l : R) : R := P l * exp l ^ 3 * (sin (exp l * r) / (exp l * r)).
Definition xi_between (P : R -> R) (r l0 l1 : R) : R := / (2 * PI ^ 2) * RInt (xi_integrand P r) l0 l1.
