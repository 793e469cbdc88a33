(** Discrete probability used to state what the HOD pair functions mean:
    expectations as sums of series, with no reference to the program. *)
From Coq Require Import Reals.
From Coquelicot Require Import Coquelicot.
Local Open Scope R_scope.

(** Poisson probability of n events *)
Definition pois (lam : R) (n : nat) : R := exp (- lam) * (lam ^ n / INR (fact n)).

(** [f c n] is a quantity depending on whether there is a central (c) and on the
    number n of satellites. *)

(** Independent: central with probability p, satellites Poisson(lam). *)
Definition mean_indep (p lam : R) (f : bool -> nat -> R) (v : R) : Prop :=
  is_series (fun n => pois lam n * ((1 - p) * f false n + p * f true n)) v.

(** Central condition: satellites Poisson(mu) if there is a central, none otherwise. *)
Definition mean_cond (p mu : R) (f : bool -> nat -> R) (v : R) : Prop :=
  exists s, is_series (fun n => pois mu n * f true n) s /\ v = p * s + (1 - p) * f false 0%nat.

(** quantities: number of satellites, number of ordered satellite pairs,
    satellite weight, pair weights *)
Definition c2R (c : bool) : R := if c then 1 else 0.
Definition sat_number (c : bool) (n : nat) : R := INR n.
Definition sat_pairs_number (c : bool) (n : nat) : R := INR n * (INR n - 1).
Definition ss_weight (ts : R) (c : bool) (n : nat) : R := ts ^ 2 * (INR n * (INR n - 1)).
Definition cs_weight (tc ts : R) (c : bool) (n : nat) : R := (c2R c * tc) * (INR n * ts).
(** squared deviation of the satellite number / central number from a mean *)
Definition sat_sqdev (mu : R) (c : bool) (n : nat) : R := (INR n - mu) ^ 2.
Definition cen_sqdev (mu : R) (c : bool) (n : nat) : R := (c2R c - mu) ^ 2.
