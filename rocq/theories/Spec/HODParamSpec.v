(** Comparing two HODs at one halo mass. *)
From Coq Require Import Reals.
From Verif Require Import Model.HOD.
Local Open Scope R_scope.

(** [h'] puts no more into a halo of mass m than [h], in every count and pair count *)
Definition fewer (h' h : hod) (m : R) : Prop :=
  central_occupation h' m <= central_occupation h m /\ satellite_occupation h' m <= satellite_occupation h m /\
  total_occupation h' m <= total_occupation h m /\ ss_pairs h' m <= ss_pairs h m /\ cs_pairs h' m <= cs_pairs h m.
