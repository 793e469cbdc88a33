(** CMRelation.mass_nonlinear and the mass-definition part of CMRelation.__init__,
    /repo/src/halomod/concentration.py:109-173.  The filter and the growth factor belong to hmf and are arguments. *)
From Coq Require Import Reals List Bool.
From Verif Require Import Model.RBool Model.HODFloat Model.Profiles Model.Concentration.
Import ListNotations.
Local Open Scope R_scope.

(** what filter0, growth, delta_c and mean_density0 provide: filter.sigma, growth_factor, delta_c,
    r |-> filter.radius_to_mass(r, mean_density0) *)
Record cm_inputs := mkCmInputs { ci_sigma : R -> R; ci_growth : R -> R; ci_delta_c : R; ci_r2m : R -> R }.

(** the inner function [model], concentration.py:156-159 *)
Definition mnl_objective (i : cm_inputs) (z lnr : R) : R := (ci_sigma i (exp lnr) * ci_growth i z - ci_delta_c i) ^ 2.
(** mass_nonlinear, concentration.py:146-173: [minimize f x0] is res.x[0] if res.success, else nothing; the starting
    point is 1.0.  On failure the result is 0 (with a warning, not modelled). *)
Definition mass_nonlinear (minimize : (R -> R) -> R -> option R) (i : cm_inputs) (z : R) : R :=
  match minimize (mnl_objective i z) 1 with
  | Some x => ci_r2m i (exp x)
  | None => 0
  end.

(** the mass definition a relation ends up with, and whether it warns, concentration.py:127, 136-142;
    [native] is the class's native_mdefs *)
Definition cm_mdef {A : Type} (eqb : A -> A -> bool) (native : list A) (mdef : option A) : res (A * bool) :=
  bind (match mdef with
        | None => match native with d :: _ => Ok d | [] => Raise IndexError end
        | Some d => Ok d
        end) (fun d => Ok (d, negb (existsb (eqb d) native))).
