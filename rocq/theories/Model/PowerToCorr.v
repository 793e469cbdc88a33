(** Model of /repo/src/halomod/tools.py:276-327, power_to_corr. *)
From Coq Require Import Reals List Bool Arith ZArith.
From Verif Require Import Model.RBool Model.Quad Model.Grids.
Import ListNotations.
Local Open Scope R_scope.

(** tools.py:302-308 *)
Definition ptc_minsteps : R := 8.
Definition ptc_mink : R := / 1000000.
Definition ptc_temp_min_k : R := 1.
(** 314-316 *)
Definition ptc_min_k (rr : R) : R := (2 * IZR (rceil ((ptc_temp_min_k * rr / PI - 1) / 2)) + 5 / 10) * PI / rr.
Definition ptc_maxk (rr : R) : R := Rmax (5015 / 10 * PI / rr) (ptc_min_k rr).
(** 319 *)
Definition ptc_nk (rr : R) : Z :=
  rceil (ln (ptc_maxk rr / ptc_mink) / ln (ptc_maxk rr / (ptc_maxk rr - PI / (ptc_minsteps * rr)))).
(** 321: np.linspace(log(mink), log(maxk), int(nk), retstep=True) *)
Definition ptc_dlnk (rr : R) : R := (ln (ptc_maxk rr) - ln ptc_mink) / INR (Z.to_nat (ptc_nk rr) - 1).
Definition ptc_lnk (rr : R) (i : nat) : R := ln ptc_mink + INR i * ptc_dlnk rr.
(** 322-325 for one separation; [P] is power_func *)
Definition ptc_one (P : R -> R) (rr : R) : R :=
  5 / 10 / PI ^ 2 * scipy_simpson (Z.to_nat (ptc_nk rr)) (ptc_dlnk rr)
    (fun i => P (ptc_lnk rr i) * exp (ptc_lnk rr i) ^ 2 * sin (exp (ptc_lnk rr i) * rr) / rr).
(** 296-300 and the assignment of line 325: np.zeros_like(r) has the dtype of r, and storing a float in an integer array
    truncates it towards zero *)
Definition store (integers : bool) (v : R) : R := if integers then IZR (py_int v) else v.
Definition power_to_corr (P : R -> R) (integers : bool) (r : list R) : list R := map (fun rr => store integers (ptc_one P rr)) r.
