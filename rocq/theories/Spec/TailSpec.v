(** How a tabulated function continues outside its table: k 0 < ... < k (n-1) are the tabulated points, P the function. *)
From Coq Require Import Reals List Arith.
From Verif Require Import Spec.HMSpec.
Local Open Scope R_scope.

(** a straight-line fit (scipy's UnivariateSpline of degree 1) returns the line when the data lie on one *)
Definition reproduces_lines (us : list R -> list R -> R -> R) : Prop := forall m (z : nat -> R) a b t, (2 <= m)%nat ->
  (forall i j, (i < j < m)%nat -> z i < z j) -> us (arr m z) (arr m (fun i => a + b * z i)) t = a + b * t.

Definition last_ten (n i : nat) : Prop := (i < n)%nat /\ (n <= i + 10)%nat.
Definition first_ten (n i : nat) : Prop := (i < n)%nat /\ (i < 10)%nat.
(** the continuation of P at x by the tabulated points in [ends]: the same power law if they lie on one, zero if one of them is not
    positive, positive if they all are *)
Definition power_law_at (ends : nat -> Prop) (k : nat -> R) (P : R -> R) (x : R) : Prop :=
  (forall A p, 0 < A -> (forall i, ends i -> P (k i) = A * Rpower (k i) p) -> P x = A * Rpower x p) /\
  ((exists i, ends i /\ P (k i) <= 0) -> P x = 0) /\ ((forall i, ends i -> 0 < P (k i)) -> 0 < P x).
Definition power_law_tail (n : nat) (k : nat -> R) (P : R -> R) : Prop := forall x, k (n - 1)%nat < x -> power_law_at (last_ten n) k P x.
Definition power_law_head (n : nat) (k : nat -> R) (P : R -> R) : Prop := forall x, 0 < x < k 0%nat -> power_law_at (first_ten n) k P x.
Definition zero_tail (n : nat) (k : nat -> R) (P : R -> R) : Prop := forall x, k (n - 1)%nat < x -> P x = 0.
Definition zero_head (k : nat -> R) (P : R -> R) : Prop := forall x, x < k 0%nat -> P x = 0.
Definition flat_head (k : nat -> R) (P : R -> R) : Prop := forall x, x < k 0%nat -> P x = P (k 0%nat).
(** proportional to g below the table, and continuous there *)
Definition proportional_head (g : R -> R) (k : nat -> R) (P : R -> R) : Prop :=
  g (k 0%nat) <> 0 -> forall x, x < k 0%nat -> P x = P (k 0%nat) * (g x / g (k 0%nat)).

(** an example of such a fit: the line through the first two points *)
Definition chord (x y : list R) (t : R) : R :=
  match x, y with
  | x0 :: x1 :: _, y0 :: y1 :: _ => y0 + (y1 - y0) / (x1 - x0) * (t - x0)
  | _, _ => 0
  end.
