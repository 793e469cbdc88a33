(** The array shapes of CrossCorrelations, /repo/src/halomod/cross_correlations.py:235-337: its two halo models are built from separate dictionaries (191-222), so their mass and
    wavenumber grids need not have the same length. *)
From Coq Require Import Reals List Bool Arith.
From Verif Require Import Model.RBool Model.ExtSpline Model.Profiles Model.HOD Model.HaloModel Model.Cross.
Local Open Scope R_scope.

Section Shapes.
  Variable splint : list R -> list R -> R -> R -> R.
  Variable spline : nat -> list R -> list R -> R -> R.
  Variable uspline : list R -> list R -> R -> R.
  Variable hankel : tmode -> (R -> R) -> R -> R.
  Variable simp : list R -> list R -> R.
  Variables (h1 h2 : dmhm) (t1 t2 : tracer) (c : cross).

  (** power_1h_cross_fnc, 235-259: the boolean mask has the length of hm1.m and selects columns of hm2.tracer_profile_ukm (IndexError if the lengths differ, line 249); then u1 * u2
      multiplies arrays with one row per wavenumber of either model (ValueError if they cannot be broadcast, 252).  Simplification: both models have at least two wavenumbers (a single
      row would be broadcast). *)
  Definition power_1h_cross_arrays : res (R -> R) :=
    if negb (d_nm h1 =? d_nm h2)%nat then Raise IndexError
    else if negb (d_nk h1 =? d_nk h2)%nat then Raise ValueError
    else power_1h_cross splint spline uspline simp h1 h2 t1 t2 c.
  (** power_2h_cross_fnc, 283-337: b1 * b2 (325-326); the masses are integrated over separately *)
  Definition power_2h_cross_arrays : res (R -> R) :=
    if negb (d_nk h1 =? d_nk h2)%nat then Raise ValueError
    else power_2h_cross splint spline uspline h1 h2 t1 t2.
  (** power_cross_fnc, 362-364 *)
  Definition power_cross_arrays : res (R -> R) := bind power_1h_cross_arrays (fun a => bind power_2h_cross_arrays (fun b => Ok (fun k => a k + b k))).
  (** corr_cross_fnc, 266-275, 344-355, 371-373 *)
  Definition corr_cross_arrays : res (R -> R) :=
    bind (to_corr spline uspline hankel ToR h1 power_1h_cross_arrays) (fun a => bind (to_corr spline uspline hankel ToRfine h1 power_2h_cross_arrays) (fun b => Ok (fun r => a r + b r + 1))).
End Shapes.
