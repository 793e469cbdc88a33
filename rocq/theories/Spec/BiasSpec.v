(** Peak-background split, independently of the program. *)
From Coq Require Import Reals.
From Coquelicot Require Import Coquelicot.
Local Open Scope R_scope.

(** [g nu] is the mass fraction per unit ln nu, up to a constant.  The
    peak-background split bias at nu is 1 - (2/delta_c) dln g / dln nu. *)
Definition pbs_bias (g : R -> R) (delta_c nu b : R) : Prop :=
  exists s, is_derive (fun l => ln (g (exp l))) (ln nu) s /\ b = 1 - 2 / delta_c * s.

(** Multiplicity functions in terms of nu = (delta_c/sigma)^2: Press-Schechter,
    Sheth-Tormen, Tinker et al. (2010). *)
Definition ps_multiplicity (nu : R) : R := sqrt nu * exp (- nu / 2).
Definition st_multiplicity (q p nu : R) : R := (1 + Rpower (q * nu) (- p)) * sqrt (q * nu) * exp (- q * nu / 2).
Definition tinker_multiplicity (beta gamma phi eta nu : R) : R :=
  (1 + Rpower (beta * sqrt nu) (- 2 * phi)) * Rpower (sqrt nu) (2 * eta + 1) * exp (- gamma * nu / 2).

(** "the integral of f over all nu > 0 is zero": it is arbitrarily small on
    every large enough interval *)
Definition integrates_to_zero (f : R -> R) : Prop :=
  forall eps, 0 < eps -> exists a0 b0, 0 < a0 < b0 /\
    forall a b, 0 < a <= a0 -> b0 <= b -> exists v, is_RInt f a b v /\ Rabs v < eps.
