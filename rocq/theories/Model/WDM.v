(** Model of /repo/src/halomod/wdm.py: the class factory (18-43) and HaloModelWDM (49-118). *)
From Coq Require Import Reals Bool String List.
From Verif Require Import Model.RBool Model.ExtSpline.
Import ListNotations.
Local Open Scope R_scope.
Local Open Scope string_scope.

(** ** Python classes and their [_defaults] dictionaries.
    A class has at most one base class and may own a [_defaults] dictionary;
    dictionaries are mutable objects on a heap. *)
Record cls := mkCls { c_base : option string; c_own : option nat }.
Definition dict := string -> option R.
Record world := mkWorld { w_cls : string -> option cls; w_heap : nat -> dict }.
(** attribute lookup [C._defaults] along the base classes; [fuel] bounds the length of the chain *)
Fixpoint lookup_defaults (fuel : nat) (w : world) (name : string) : option nat :=
  match fuel with
  | O => None
  | S k => match w_cls w name with
           | None => None
           | Some c => match c_own c with Some d => Some d | None => match c_base c with Some b => lookup_defaults k w b | None => None end end
           end
  end.
(** dict.update with one item *)
Definition dset (d : dict) (k : string) (v : R) : dict := fun x => if String.eqb x k then Some v else d x.
Definition heap_set (h : nat -> dict) (i : nat) (d : dict) : nat -> dict := fun j => if Nat.eqb j i then d else h j.
(** name.endswith("WDM"), name[:-3], wdm.py:20-21 *)
Fixpoint ends_wdm (s : string) : bool := String.eqb s "WDM" || match s with EmptyString => false | String _ t => ends_wdm t end.
Fixpoint take_str (n : nat) (s : string) : string := match n, s with S k, String c t => String c (take_str k t) | _, _ => EmptyString end.
Definition strip_wdm (s : string) : string := if ends_wdm s then take_str (String.length s - 3) s else s.
(** CMRelationWDMRescaled, wdm.py:18-43.  The generated class K = type(name+"WDM", (x,), {}) owns no
    [_defaults], so [K._defaults.update(...)] updates the dictionary found on its base classes.
    [None]: AttributeError (no such relation). *)
Definition wdm_factory (fuel : nat) (w : world) (name : string) : option world :=
  match lookup_defaults fuel w (strip_wdm name) with
  | None => None
  | Some d => Some (mkWorld (w_cls w) (heap_set (w_heap w) d
      (dset (dset (dset (dset (w_heap w d) "g1" 60) "g2" 0.17) "beta0" 0.026) "beta1" 0.04)))
  end.
(** a history: each call either succeeds or raises and leaves the world as it was *)
Definition wdm_step (fuel : nat) (w : world) (name : string) : world := match wdm_factory fuel w name with Some w' => w' | None => w end.
Definition wdm_run (fuel : nat) (w : world) (names : list string) : world := fold_left (wdm_step fuel) names w.
(** the defaults a user sees for a relation *)
Definition defaults_of (fuel : nat) (w : world) (name : string) : dict :=
  match lookup_defaults fuel w name with Some d => w_heap w d | None => fun _ => None end.

(** The relation classes of concentration.py and which of them own a [_defaults]
    (lines 107, 290, 346, 373, 426, 500, 534, 636; Ludlow2016* 687-702 own none) *)
Definition cm_classes (name : string) : option cls :=
  if String.eqb name "CMRelation" then Some (mkCls None (Some 0%nat))
  else if String.eqb name "Bullock01" then Some (mkCls (Some "CMRelation") (Some 1%nat))
  else if String.eqb name "Bullock01Power" then Some (mkCls (Some "CMRelation") (Some 2%nat))
  else if String.eqb name "Maccio07" then Some (mkCls (Some "CMRelation") (Some 3%nat))
  else if String.eqb name "Duffy08" then Some (mkCls (Some "Bullock01Power") (Some 4%nat))
  else if String.eqb name "Zehavi11" then Some (mkCls (Some "Bullock01Power") (Some 5%nat))
  else if String.eqb name "Ludlow16" then Some (mkCls (Some "CMRelation") (Some 6%nat))
  else if String.eqb name "Ludlow16Empirical" then Some (mkCls (Some "CMRelation") (Some 7%nat))
  else if String.eqb name "Ludlow2016" then Some (mkCls (Some "Ludlow16") None)
  else if String.eqb name "Ludlow2016Empirical" then Some (mkCls (Some "Ludlow16Empirical") None)
  else None.

(** ** method dispatch of the generated class.  [super(self.__class__, self)] starts
    the search at the base of the DYNAMIC class of the instance, not at the base of
    the class defining the method (wdm.py:26, 31).  A chain of classes is listed from the
    dynamic class upwards; [Gen] marks the generated class (whose methods call super that
    way), [Sub] a user subclass without own methods, [Base] a relation with its own method. *)
Inductive kind := Sub | Gen | Base.
(** first class in the chain that defines the method, with the rest of the chain *)
Fixpoint find_method (chain : list kind) : option kind :=
  match chain with [] => None | Sub :: t => find_method t | k :: _ => Some k end.
(** running the method: [Some n] = returned after n calls, [None] = recursion limit reached *)
Fixpoint run_method (limit : nat) (dyn : list kind) (start : list kind) : option nat :=
  match limit with
  | O => None
  | S l => match find_method start with
           | Some Gen => match run_method l dyn (tl dyn) with Some n => Some (S n) | None => None end
           | Some _ => Some 1%nat
           | None => Some 0%nat
           end
  end.
Definition call_method (limit : nat) (dyn : list kind) : option nat := run_method limit dyn dyn.

(** ** HaloModelWDM at one wavenumber *)
Section Smooth.
  (** mean_density, rho_gtm[0] *)
  Variables (rho rho_h : R).
  (** wdm.py:62-65 *)
  Definition f_halos : R := rho_h / rho.
  (** 112-118 *)
  Definition mean_density_halos : R := rho_h.
  Definition mean_density_smooth : R := (1 - f_halos) * rho.
  (** 104-109 *)
  Definition bias_smooth (b_eff : R) : R := (1 - f_halos * b_eff) / (1 - f_halos).
  (** 76-83 *)
  Definition power_hh_matter (p1h p2h : R) : R := (p1h + p2h) * rho ^ 2 / rho_h ^ 2.
  (** 85-92; [pch] is the Simpson integral of m dndm b u(k|m) *)
  Definition power_sh (b_eff phc pch : R) : R := bias_smooth b_eff * phc * pch / rho_h.
  (** 94-97 *)
  Definition power_ss (b_eff phc : R) : R := bias_smooth b_eff ^ 2 * phc.
  (** 67-74 *)
  Definition power_auto_wdm (b_eff phc p1h p2h pch : R) : R :=
    (1 - f_halos) ^ 2 * power_ss b_eff phc + 2 * (1 - f_halos) * f_halos * power_sh b_eff phc pch + f_halos ^ 2 * power_hh_matter p1h p2h.
  (** bias_effective_matter, halo_model.py:873-896; [I] is the spline integral of m dndm b over ln m *)
  Definition wdm_bias_effective (force_unity : bool) (I : R) : R := if force_unity then 1 else I / rho_h.
  (** the NoExclusion 2-halo matter power where u = 1, halo_model.py:697-753: the integral of
      dndm m b / mean_density_in_halos squared, optionally renormalised *)
  Definition wdm_power_2h (force_unity : bool) (I phc : R) : R :=
    (I / rho_h) ^ 2 * (if force_unity then (wdm_bias_effective force_unity I / (I / rho_h)) ^ 2 else 1) * phc.
End Smooth.

(** Quantities HaloModelWDM does NOT override: [power_auto_matter_fnc] (halo_model.py:859-862) and
    [corr_auto_matter_fnc] (847-852) are inherited and read only the 1- and 2-halo callables;
    the array [power_auto_matter] is overridden (wdm.py:67-74).  [wdm_matter] lists, for one wavenumber k_hm and
    one separation r, what a user reads from the three attributes. *)
Record wdm_reads := mkReads { read_power_array : R; read_power_fnc : R; read_corr : R }.
Definition wdm_matter (rho rho_h b_eff phc p1h p2h pch : R) (xi1 xi2 : R) : wdm_reads :=
  mkReads (power_auto_wdm rho rho_h b_eff phc p1h p2h pch)
          (sum_callable (fun _ => p1h) (fun _ => p2h) 0 0) (sum_callable (fun _ => xi1) (fun _ => xi2) 1 0).
