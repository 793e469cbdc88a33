(** What a populated catalogue should be, written halo by halo and without
    arrays, masks or slices. *)
From Coq Require Import List Arith.
Import ListNotations.

(** Number of haloes before [i] that received a central galaxy. *)
Definition centrals_before (cdraw : nat -> nat) (i : nat) : nat :=
  length (filter (fun j => 0 <? cdraw j) (seq 0 i)).

(** How many satellites halo [i] received.  Without the central condition the
    draws are indexed by halo; with it, only haloes with a central get a draw,
    in halo order. *)
Definition sat_count (central : bool) (cdraw sdraw : nat -> nat) (i : nat) : nat :=
  if central then
    if 0 <? cdraw i then sdraw (centrals_before cdraw i) else 0
  else sdraw i.

(** The catalogue as a list of (halo label, position). *)
Section Catalogue.
  Context {M P : Type}.
  Variable sampler : nat -> nat -> M -> P -> list P.
  Variables (mass : nat -> M) (ctr : nat -> P).
  Variables (central : bool) (N : nat) (cdraw sdraw : nat -> nat).

  Definition centrals : list (nat * P) :=
    map (fun i => (i, ctr i)) (filter (fun i => 0 <? cdraw i) (seq 0 N)).

  Definition halos_with_sats : list nat :=
    filter (fun i => 0 <? sat_count central cdraw sdraw i) (seq 0 N).

  (** The k-th call of the sampler serves the k-th halo that has satellites. *)
  Fixpoint satellites_from (k : nat) (hs : list nat) : list (nat * P) :=
    match hs with
    | [] => []
    | i :: hs' =>
        map (pair i) (sampler k (sat_count central cdraw sdraw i) (mass i) (ctr i))
        ++ satellites_from (S k) hs'
    end.

  Definition satellites : list (nat * P) := satellites_from 0 halos_with_sats.
  Definition catalogue : list (nat * P) := centrals ++ satellites.
End Catalogue.

(** Which inputs the theorems speak about: one centre and one central draw
    (0 or 1: a binomial with one trial) per halo; one satellite draw per halo
    that was kept; an output buffer with one row per galaxy drawn. *)
Definition draws_ok {M P : Type} (central : bool) (centres : list P)
    (masses : list M) (cgal sgal : list nat) (buffer : list P) : Prop :=
  length centres = length masses /\
  length cgal = length masses /\
  Forall (fun c => c <= 1) cgal /\
  length sgal = (if central then length (filter (fun c => 0 <? c) cgal)
                 else length masses) /\
  length buffer = fold_right Nat.add 0 cgal + fold_right Nat.add 0 sgal.

(** How many haloes before [i] have satellites. *)
Definition sat_rank (count : nat -> nat) (i : nat) : nat :=
  length (filter (fun j => 0 <? count j) (seq 0 i)).
