(** Specification of the quadrature rules, written without reference to the
    program: sums of elementary panel rules. *)
From Coq Require Import Reals Lia Lra Arith.
Local Open Scope R_scope.

(** f 0 + ... + f (n-1) *)
Fixpoint bigsum (n : nat) (f : nat -> R) : R :=
  match n with O => 0 | S p => bigsum p f + f p end.

(** Composite Simpson rule over the k double intervals [0,2], [2,4], ...,
    [2k-2, 2k] of a grid with spacing h. *)
Definition simpson_rule (h : R) (k : nat) (f : nat -> R) : R :=
  bigsum k (fun p => h / 3 * (f (2*p)%nat + 4 * f (2*p+1)%nat + f (2*p+2)%nat)).

(** Composite trapezoidal rule over the first n intervals. *)
Definition trapezoid_rule (h : R) (n : nat) (f : nat -> R) : R :=
  bigsum n (fun p => h / 2 * (f p + f (p+1)%nat)).

(** Simpson on all but the last interval, trapezoid on the last one: the rule
    for an even number 2k+2 of points. *)
Definition simpson_trap_rule (h : R) (k : nat) (f : nat -> R) : R :=
  simpson_rule h k f + h / 2 * (f (2*k)%nat + f (2*k+1)%nat).

(** The 1D weights (in units of h/3) of those rules for n points: 1,4,2,...,4,1
    for odd n; 1,4,2,...,4,5/2,3/2 for even n. *)
Definition w1 (n i : nat) : R :=
  if Nat.even n then
    if (i =? n - 1)%nat then 3/2 else if (i =? n - 2)%nat then 5/2
    else if (i =? 0)%nat then 1 else if Nat.odd i then 4 else 2
  else if (i =? 0)%nat then 1 else if (i =? n - 1)%nat then 1
  else if Nat.odd i then 4 else 2.

Definition cubic (c0 c1 c2 c3 x : R) : R := c0 + c1*x + c2*x^2 + c3*x^3.
