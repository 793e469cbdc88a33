(** Hypotheses about the external quadrature (scipy's InterpolatedUnivariateSpline(x, y).integral(a, b))
    and mass grids, stated without reference to the program. *)
From Coq Require Import Reals List Arith.
From Verif Require Import Model.RBool.
Import ListNotations.
Local Open Scope R_scope.

Definition quadrature := list R -> list R -> R -> R -> R.
Definition arr (n : nat) (f : nat -> R) : list R := map f (seq 0 n).
(** interpolation is linear in the data, so is its integral: holds exactly for every interpolating spline *)
Definition q_linear (I : quadrature) : Prop := forall n x f g c a b,
  I (arr n x) (arr n (fun i => f i + c * g i)) a b = I (arr n x) (arr n f) a b + c * I (arr n x) (arr n g) a b.
(** integrals of non-negative data are non-negative (true of linear interpolation; of a cubic when it does not overshoot) *)
Definition q_positive (I : quadrature) : Prop := forall n x f a b, a <= b ->
  (forall i, (i < n)%nat -> 0 <= f i) -> 0 <= I (arr n x) (arr n f) a b.
Definition q_additive (I : quadrature) : Prop := forall x y a b c, I x y a b + I x y b c = I x y a c.
(** FITPACK's splint takes the spline to be zero outside its knots *)
Definition q_zero_outside (I : quadrature) : Prop := forall x y b,
  (forall a, a <= lmin x -> I x y a b = I x y (lmin x) b) /\ (forall a, lmax x <= a -> lmax x <= b -> I x y a b = 0).

(** a mass (or wavenumber, or separation) grid: positive and increasing *)
Definition grid (n : nat) (x : nat -> R) : Prop := (0 < n)%nat /\ (forall i, (i < n)%nat -> 0 < x i) /\ (forall i j, (i < j < n)%nat -> x i < x j).
(** the interpolating property of a spline *)
Definition interpolates (s : list R -> list R -> R -> R) : Prop := forall n x y i, grid n x -> (i < n)%nat -> s (arr n x) (arr n y) (x i) = y i.

(** a quadrature with all these properties: the integral of the left-constant interpolant *)
Fixpoint stepF (x y : list R) (t : R) : R :=
  match x, y with
  | a :: ((b :: _) as x'), v :: y' => v * (Rmax a (Rmin t b)) + stepF x' y' t
  | _, _ => 0
  end.
Definition step_quad : quadrature := fun x y a b => stepF x y b - stepF x y a.
