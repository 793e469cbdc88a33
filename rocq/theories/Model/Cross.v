(** Model of /repo/src/halomod/cross_correlations.py:38-378. *)
From Coq Require Import Reals List Bool Arith.
From Verif Require Import Model.RBool Model.Quad Model.ExtSpline Model.Profiles Model.HOD Model.HaloModel.
Import ListNotations.
Local Open Scope R_scope.

(** a _HODCross instance: the two HODs, the three coefficients and self_pairs as functions of mass *)
Record cross : Type := mkCross { x_h1 : hod; x_h2 : hod; x_Rss : R -> R; x_Rcs : R -> R; x_Rsc : R -> R; x_self : R -> R }.
(** ConstantCorr, cross_correlations.py:153-169 *)
Definition ConstantCorr (h1 h2 : hod) (rss rcs rsc : R) : cross := mkCross h1 h2 (fun _ => rss) (fun _ => rcs) (fun _ => rsc) (fun _ => 0).

(** sigma_central / sigma_satellite (hod.py:206-208, 260-267) with nan: the square root of a negative number is None *)
Definition nsqrt (x : R) : option R := if Rltb x 0 then None else Some (sqrt x).
Definition sigc (h : hod) (m : R) : option R :=
  match h_kind h, h_sigc h with
  | Bulk, _ => Some 0
  | Poisson, Some s => Some (s m)
  | Poisson, None => nsqrt (central_occupation h m * (1 - central_occupation h m))
  end.
Definition sigs (h : hod) (m : R) : option R := match h_sigs h with Some s => Some (s m) | None => nsqrt (satellite_occupation h m) end.
(** a + x * y * r where x or y may be nan (nan even for r = 0) *)
Definition with_corr (a : R) (x y : option R) (r : R) : option R := match x, y with Some x, Some y => Some (a + x * y * r) | _, _ => None end.

(** cross_correlations.py:108-123 *)
Definition ss_cross_pairs (c : cross) (m : R) : option R :=
  match with_corr (satellite_occupation (x_h1 c) m * satellite_occupation (x_h2 c) m) (sigs (x_h1 c) m) (sigs (x_h2 c) m) (x_Rss c m) with
  | Some v => Some (v - x_self c m) | None => None end.
(** 125-137 *)
Definition cs_cross_pairs (c : cross) (m : R) : option R :=
  with_corr (central_occupation (x_h1 c) m * satellite_occupation (x_h2 c) m) (sigc (x_h1 c) m) (sigs (x_h2 c) m) (x_Rcs c m).
(** 139-150 *)
Definition sc_cross_pairs (c : cross) (m : R) : option R :=
  with_corr (central_occupation (x_h2 c) m * satellite_occupation (x_h1 c) m) (sigc (x_h2 c) m) (sigs (x_h1 c) m) (x_Rsc c m).

Section CC.
  Variable splint : list R -> list R -> R -> R -> R.
  Variable spline : nat -> list R -> list R -> R -> R.
  Variable uspline : list R -> list R -> R -> R.
  Variable hankel : tmode -> (R -> R) -> R -> R.
  Variable simp : list R -> list R -> R.               (* scipy's simpson(y, x=x) *)
  Variables (h1 h2 : dmhm) (t1 t2 : tracer) (c : cross).  (* halo_model_1, halo_model_2, cross_hod *)

  Definition isnum (o : option R) : bool := match o with Some _ => true | None => false end.
  Definition num (o : option R) : R := match o with Some v => v | None => 0 end.
  (** the mask, cross_correlations.py:239-245 *)
  Definition okmass (i : nat) : bool := isnum (ss_cross_pairs c (d_m h1 i)) && isnum (sc_cross_pairs c (d_m h1 i)) && isnum (cs_cross_pairs c (d_m h1 i)).
  Definition kept : list nat := filter okmass (seq 0 (d_nm h1)).
  (** 251-255 *)
  Definition integ1 (ik i : nat) : R :=
    d_dndm h1 i * (t_ukm t1 ik i * t_ukm t2 ik i * num (ss_cross_pairs c (d_m h1 i)) + t_ukm t1 ik i * num (sc_cross_pairs c (d_m h1 i)) + t_ukm t2 ik i * num (cs_cross_pairs c (d_m h1 i))).
  (** table of power_1h_cross_fnc, 235-259 *)
  Definition p1h_cross (ik : nat) : R :=
    simp (map (integ1 ik) kept) (map (d_m h1) kept) / (mean_tracer_den splint h1 t1 * mean_tracer_den splint h2 t2).
  Definition power_1h_cross : res (R -> R) := efun spline uspline (tab (d_nk h1) (d_k h1)) (tab (d_nk h1) p1h_cross) ExtPowerLaw ExtPowerLaw true.

  (** b1, b2 of power_2h_cross_fnc, 283-322.  Simplification: simpson(y, x=log(m)) is taken as the equispaced
      rule (the mass grid is equispaced in log m). *)
  Definition b_cross (h : dmhm) (t : tracer) (ik : nat) : R :=
    let f i := d_dndm h i * d_bias h i * tot_int (t_hod t) (d_m h i) * t_ukm t ik i * d_m h i in
    match tracer_mmin (t_hod t) with
    | Some x => if Rltb (d_m h 0%nat) x then splint (tab (d_nm h) (fun i => ln (d_m h i))) (tab (d_nm h) f) (ln x) (ln (d_m h (d_nm h - 1)%nat))
                else scipy_simpson (d_nm h) (ln (d_m h 1%nat / d_m h 0%nat)) f
    | None => scipy_simpson (d_nm h) (ln (d_m h 1%nat / d_m h 0%nat)) f
    end.
  (** 324-329 *)
  Definition p2h_cross (ik : nat) : R :=
    b_cross h1 t1 ik * b_cross h2 t2 ik * d_phc h1 (d_k h1 ik) / (mean_tracer_den splint h1 t1 * mean_tracer_den splint h2 t2).
  (** 331-337 *)
  Definition power_2h_cross : res (R -> R) := efun spline uspline (tab (d_nk h1) (d_k h1)) (tab (d_nk h1) p2h_cross) (ExtCallable (d_plin h1)) ExtPowerLaw true.
  (** 266-275 and 344-355 (finer Hankel step) *)
  Definition corr_1h_cross : res (R -> R) := to_corr spline uspline hankel ToR h1 power_1h_cross.
  Definition corr_2h_cross : res (R -> R) := to_corr spline uspline hankel ToRfine h1 power_2h_cross.
  (** 362-364 *)
  Definition power_cross : res (R -> R) := bind power_1h_cross (fun a => bind power_2h_cross (fun b => Ok (fun k => a k + b k))).
  (** 371-373 *)
  Definition corr_cross : res (R -> R) := bind corr_1h_cross (fun a => bind corr_2h_cross (fun b => Ok (fun r => a r + b r + 1))).
End CC.
