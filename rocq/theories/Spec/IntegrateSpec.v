(** Projection along the line of sight, and a selection function in distance. *)
From Coq Require Import Reals List.
From Coquelicot Require Import Coquelicot.
Local Open Scope R_scope.
(** the projected correlation function at transverse separation rp, line-of-sight separations from p0 to p1 (both signs) *)
Definition line_of_sight (xi : R -> R) (rp p0 p1 : R) : R := 2 * RInt (fun p => xi (sqrt (rp ^ 2 + p ^ 2))) p0 p1.
(** px is the distribution in distance x(z) of the redshift distribution pz: pz dz = px dx *)
Definition same_distribution (x : R -> R) (pz px : R -> R) (z : R) : Prop := forall l, is_derive x z l -> pz z = px (x z) * l.
