(** Partial Ogata sums and the stopping rule, independent of the chunk loop. *)
From Coq Require Import Reals List.
From Verif Require Import Model.Hankel.
Import ListNotations.
Local Open Scope R_scope.

(** sum of the first [n] terms, term number 1 first *)
Definition partial_sum (term : nat -> R) (n : nat) : R :=
  fold_right Rplus 0 (map term (seq 1 n)).

(** the sequence compared by the convergence test: 100, 0, S(c), S(2c), ... *)
Definition chunk_sum (term : nat -> R) (c j : nat) : R := partial_sum term (j * c).
Definition previous_sum (term : nat -> R) (c j : nat) : R :=
  match j with O => 100 | S j' => chunk_sum term c j' end.

Definition close (atol rtol a b : R) : Prop := Rabs (a - b) <= atol + rtol * Rabs b.

(** the loop stops after [j] chunks *)
Definition stops (atol rtol : R) (nmax c : nat) (term : nat -> R) (j : nat) : Prop :=
  close atol rtol (previous_sum term c j) (chunk_sum term c j) \/ (nmax <= 1 + j * c)%nat.

(** [j] is the first stopping index *)
Definition first_stop (atol rtol : R) (nmax c : nat) (term : nat -> R) (j : nat) : Prop :=
  stops atol rtol nmax c term j /\ forall i, (i < j)%nat -> ~ stops atol rtol nmax c term i.
