(** Model of /repo/src/halomod/halo_model.py: the tracer-density protocol of TracerHaloModel (944-988),
    and the choice of tracer profile and concentration (1081-1159).

    External (hmf): how the base class stores parameters.  A dictionary parameter is stored by an arbitrary
    rule [assign old new]; the base update is an arbitrary function of all parameters and keywords, which may
    raise.  _find_m_min is a function [solve] of the other parameters, of the hod_params of the clone it works
    on (self.clone(hod_params={"M_min": self.Mmin})), and of the density; it is modelled in FindMmin.v.
    hod_params holds numbers here. *)
From Coq Require Import Reals List Bool String.
From Verif Require Import Model.Profiles.
Import ListNotations.
Local Open Scope R_scope.
Local Open Scope string_scope.

Definition dict := string -> option R.
Definition empty : dict := fun _ => None.
Definition single (k : string) (v : R) : dict := fun k' => if String.eqb k k' then Some v else None.

Section Protocol.
  Variable P : Type.                                   (* every other parameter *)
  Variable K : Type.                                   (* the other keywords of one call *)
  Variable assign : dict -> dict -> dict.
  Variable Mmin : P -> R.
  Variable solve : P -> dict -> R -> res R.
  (** the base update with the remaining keywords: new parameters, new hod_params, and whether it raised *)
  Variable base_update : P -> dict -> option dict -> K -> P * dict * res unit.

  Record state : Type := mkS { oth : P; hodp : dict; dens : option R }.
  (** one call of update: the outer option is the presence of the keyword *)
  Record call : Type := mkC { c_dens : option (option R); c_hod : option dict; c_oth : K }.

  (** _find_m_min(ng) in a given state, halo_model.py:1672-1678: works on a clone with M_min := Mmin *)
  Definition find_m_min (p : P) (d : dict) (ng : R) : res R := solve p (assign d (single "M_min" (Mmin p))) ng.

  (** the last lines of __init__ and of update, halo_model.py:973-975 and 986-988 *)
  Definition resolve (s : state) : state * res unit :=
    match dens s with
    | None => (s, Ok tt)
    | Some ng => match find_m_min (oth s) (hodp s) ng with
                 | Ok m => (mkS (oth s) (assign (hodp s) (single "M_min" m)) (dens s), Ok tt)
                 | Raise e => (s, Raise e)
                 end
    end.

  (** __init__ after super().__init__, halo_model.py:957-975 *)
  Definition init (p : P) (hod_params : option dict) (tracer_density : option R) : state * res unit :=
    resolve (mkS p (match hod_params with Some d => d | None => empty end) tracer_density).

  (** halo_model.py:979-982 *)
  Definition new_density (s : state) (c : call) : option R :=
    match c_dens c with
    | Some d => d
    | None => match c_hod c with Some d => match d "M_min" with Some _ => None | None => dens s end | None => dens s end
    end.
  (** update, halo_model.py:977-988 *)
  Definition update (s : state) (c : call) : state * res unit :=
    match base_update (oth s) (hodp s) (c_hod c) (c_oth c) with
    | (p, d, Raise e) => (mkS p d (new_density s c), Raise e)
    | (p, d, Ok _) => resolve (mkS p d (new_density s c))
    end.
  (** a history of calls; an exception is caught by the caller and the object is used further *)
  Definition run (s : state) (l : list call) : state := fold_left (fun s c => fst (update s c)) l s.
End Protocol.

(** *** tracer profile and concentration, halo_model.py:1081-1159 *)
Section Defaults.
  Variable M : Type.                                   (* model classes *)
  Variable meqb : M -> M -> bool.
  Definition params := list (string * R).
  (** a concentration relation is built from its model, parameters and the profile (model, parameters) it is for *)
  Record conc : Type := mkConc { c_model : M; c_params : params; c_prof_model : M; c_prof_params : params }.
  Record prof : Type := mkProf { p_model : M; p_params : params; p_conc : conc }.
  Record conf : Type := mkConf {
    hp_model : M; hp_params : params; hc_model : M; hc_params : params;
    tp_model : option M; tp_params : params; tc_model : option M; tc_params : params }.
  Definition falsy (p : params) : bool := match p with [] => true | _ => false end.

  (** halo_model.py:386-419 *)
  Definition halo_concentration (c : conf) : conc := mkConc (hc_model c) (hc_params c) (hp_model c) (hp_params c).
  Definition halo_profile (c : conf) : prof := mkProf (hp_model c) (hp_params c) (halo_concentration c).
  (** halo_model.py:1105-1111, 1149-1152 *)
  Definition tr_profile_params (c : conf) (m : M) : params := if falsy (tp_params c) && meqb m (hp_model c) then hp_params c else tp_params c.
  (** halo_model.py:1081-1137 *)
  Definition tracer_concentration (c : conf) : conc :=
    match tc_model c with
    | None => halo_concentration c
    | Some cm =>
        let '(pm, pp) := match tp_model c with None => (hp_model c, hp_params c) | Some m => (m, tr_profile_params c m) end in
        mkConc cm (if falsy (tc_params c) && meqb cm (hc_model c) then hc_params c else tc_params c) pm pp
    end.
  (** halo_model.py:1143-1160 *)
  Definition tracer_profile (c : conf) : prof :=
    match tp_model c with
    | None => halo_profile c
    | Some m => mkProf m (tr_profile_params c m) (tracer_concentration c)
    end.
End Defaults.
