(** What tools.populate asks the random number generator for, per halo
    (/repo/src/halomod/tools.py:399-411; the bookkeeping around the draws is
    modelled in Populate.v). *)
From Coq Require Import Reals.
From Verif Require Import Model.HOD.
Local Open Scope R_scope.

(** tools.py:399  [rng.binomial(1, hodmod.central_occupation(masses))] *)
Definition populate_central_prob (h : hod) (m : R) : R := central_occupation h m.
(** tools.py:411  [poisson.rvs(hodmod.ns(masses))] *)
Definition populate_satellite_mean (h : hod) (m : R) : R := ns h m.
(** tools.py:403-405: with the central condition only haloes that received a
    central are passed to the satellite draw *)
Definition populate_conditional (h : hod) : bool := h_central h.
