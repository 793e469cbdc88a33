(** Specification for the density solver: what scipy's interpolation guarantees, and the density above a mass. *)
From Coq Require Import Reals List Arith.
From Verif Require Import Spec.QuadSpec.
Local Open Scope R_scope.
(** interpolation through points with increasing abscissae *)
Definition interpolates_list (s : list R -> list R -> R -> R) : Prop := forall (x y : list R) i, List.length x = List.length y -> (i < List.length x)%nat ->
  (forall a b, (a < b < List.length x)%nat -> nth a x 0 < nth b x 0) -> s x y (nth i x 0) = nth i y 0.
(** ... that stays between neighbouring ordinates (true of linear interpolation; of a cubic when it does not overshoot) *)
Definition stays_between (s : list R -> list R -> R -> R) : Prop := forall (x y : list R) i t, List.length x = List.length y -> (S i < List.length x)%nat ->
  (forall a b, (a < b < List.length x)%nat -> nth a x 0 < nth b x 0) -> nth i x 0 <= t <= nth (S i) x 0 ->
  Rmin (nth i y 0) (nth (S i) y 0) <= s x y t <= Rmax (nth i y 0) (nth (S i) y 0).
(** trapezoidal integral (in ln m, spacing h) of the per-ln-mass density g over the grid masses i0, ..., n-1 *)
Definition density_from (h : R) (g : nat -> R) (n i0 : nat) : R := trapezoid_rule h (n - 1 - i0) (fun i => g (i0 + i)%nat).
