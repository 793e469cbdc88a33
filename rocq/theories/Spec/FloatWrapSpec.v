(** The periodic image of a coordinate, and being one up to rounding. *)
From Coq Require Import Reals.
Local Open Scope R_scope.

(** [y] is [x] moved by no box length or one, with an error of at most [err] *)
Definition image_within (err lo hi x y : R) : Prop := y = x \/ Rabs (y - (x + (hi - lo))) <= err \/ Rabs (y - (x - (hi - lo))) <= err.
