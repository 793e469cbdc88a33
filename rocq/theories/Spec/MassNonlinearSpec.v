(** The nonlinear mass: the mass of the sphere on which the linear field of redshift z has rms delta_c. *)
From Coq Require Import Reals.
From Coquelicot Require Import Coquelicot.
Local Open Scope R_scope.
(** at redshift z the rms of the linear field on radius r is sigma r * D z *)
Definition collapse_radius (sigma D : R -> R) (delta_c z r : R) : Prop := 0 < r /\ sigma r * D z = delta_c.
(** a successful minimisation stops where the gradient of its objective vanishes *)
Definition stationary (f : R -> R) (x : R) : Prop := is_derive f x 0.
