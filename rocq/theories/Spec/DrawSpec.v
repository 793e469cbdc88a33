(** What it means for radii to be drawn from a mass profile, independently of the program. *)
From Coq Require Import Reals List.
From Coquelicot Require Import Coquelicot.
From Verif Require Import Spec.ProfileSpec.
Local Open Scope R_scope.

(** p is the fraction, within c, of the mass of the density f that lies within x *)
Definition mass_fraction (f : R -> R) (c x p : R) : Prop := exists a b, mass_integral f x a /\ mass_integral f c b /\ p = a / b.

(** g takes the value y_i at u_i, and is strictly increasing on the unit interval *)
Definition increasing_fit (us ys : list R) (g : R -> R) : Prop :=
  (forall i, (i < length us)%nat -> g (nth i us 0) = nth i ys 0) /\ (forall u v, 0 <= u -> u < v -> v <= 1 -> g u < g v).

(** how many of a list of numbers satisfy a test *)
Fixpoint number_at_most (b : R) (l : list R) : nat :=
  match l with nil => 0 | cons a r => (if Rle_dec a b then 1 else 0) + number_at_most b r end.

(** a linear map of the coordinates that preserves lengths: a rotation or a reflection *)
Definition isometry (M : R * R * R -> R * R * R) : Prop :=
  (forall k a b d, M (k * a, k * b, k * d) = (let '(x, y, z) := M (a, b, d) in (k * x, k * y, k * z))) /\
  (forall a b d, (let '(x, y, z) := M (a, b, d) in x ^ 2 + y ^ 2 + z ^ 2) = a ^ 2 + b ^ 2 + d ^ 2).
