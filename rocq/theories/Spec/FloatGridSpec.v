(** How many points a half-open grid start, start + step, ... below stop has. *)
From Coq Require Import Reals.
Local Open Scope R_scope.

Definition points_below (start stop step : R) (n : nat) : Prop :=
  (forall i, (i < n)%nat -> start + INR i * step < stop) /\ (forall i, (n <= i)%nat -> stop <= start + INR i * step).
