(** Circular velocity in SI units, independently of the program. *)
From Coq Require Import Reals.
Local Open Scope R_scope.
Definition newton_G : R := 6673 / 10 ^ 14.                      (* m^3 kg^-1 s^-2 *)
Definition solar_mass : R := 198841 * 10 ^ 25.                  (* kg *)
Definition megaparsec : R := 30856775814913673 * 10 ^ 6.        (* m *)
(** the velocity, in m/s, of a circular orbit at radius r Mpc/h around a mass of m solar masses / h *)
Definition circular_velocity (little_h m r : R) : R := sqrt (newton_G * (m / little_h * solar_mass) / (r / little_h * megaparsec)).
