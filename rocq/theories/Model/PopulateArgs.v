(** Which profile and which HOD tools.populate uses: /repo/src/halomod/tools.py:349-357, 388-411, 445-448.
    The halo model is its configuration of profiles and concentrations (Model.TracerUpdate) and its HOD; HODs are values of an arbitrary
    type.  Only the choice of the components and the failures of missing ones are modelled here; the catalogue itself is Model.Populate. *)
From Coq Require Import List Reals.
From Verif Require Import Model.NumpyList Model.Populate Model.TracerUpdate.
Import ListNotations.

Inductive pcall (A : Type) : Type := PReturned (a : A) | PZeroDivision | PAttributeError.
Arguments PReturned {A} _. Arguments PZeroDivision {A}. Arguments PAttributeError {A}.
Definition of_outcome {A} (o : outcome A) : pcall A := match o with Returned a => PReturned a | RaisedZeroDivision => PZeroDivision end.

Section Args.
  Variables (K H X : Type) (dX : X).
  (** tools.py:388-390: halomodel.halo_profile and halomodel.hod replace the arguments *)
  Definition components (hm : option (conf K * H)) (profile : option (prof K)) (hodmod : option H) : option (prof K) * option H :=
    match hm with Some (c, h) => (Some (halo_profile K c), Some h) | None => (profile, hodmod) end.

  (** profile.populate for a profile; hodmod._central; the binomial and Poisson draws for an HOD (tools.py:399, 411) *)
  Variable sampler : prof K -> nat -> nat -> X -> vec3 -> list vec3.
  Variables (central : H -> bool) (cgal sgal : H -> list nat).
  (** tools.py:393-480.  A missing HOD fails at once (tools.py:399); a missing profile fails when the first satellite is placed (tools.py:448) *)
  Definition populate_call (hm : option (conf K * H)) (profile : option (prof K)) (hodmod : option H)
      (centres : list vec3) (masses : list X) (empty : list vec3) (edges : option edges_arg) : pcall (list vec3 * list nat * nat) :=
    match components hm profile hodmod with
    | (_, None) => PAttributeError
    | (Some p, Some h) => of_outcome (populate dX (sampler p) None (central h) centres masses (cgal h) (sgal h) empty edges)
    | (None, Some h) =>
        if Nat.eqb (nsum (sgal h)) 0 then of_outcome (populate dX (fun _ _ _ _ => []) None (central h) centres masses (cgal h) (sgal h) empty edges)
        else PAttributeError
    end.
End Args.
