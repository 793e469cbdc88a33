(** Occupations and fractions in double precision: Zheng05 centrals (/repo/src/halomod/hod.py:338-340), the number under the square root of
    their standard deviation (hod.py:260-263), HOD.total_occupation (169-171), TracerHaloModel.satellite_fraction and central_fraction (halo_model.py:1268-1286).

    The library's log10 and erf are arguments: they return doubles, nothing else is known about their accuracy.  The exact-real versions are in
    Model/HOD.v. *)
From Coq Require Import Reals.
From Verif Require Import Model.Float64.
Local Open Scope R_scope.

Section Lib.
  Variables lib_log10 lib_erf : R -> R.
  Definition float_zheng_co (Mmin sig m : R) : R := rnd (/ 2 * rnd (1 + lib_erf (rnd (rnd (lib_log10 m - Mmin) / sig)))).
End Lib.
Definition float_variance_central (co : R) : R := rnd (co * rnd (1 - co)).
Definition float_total (c s : R) : R := rnd (c + s).
Definition float_satellite_fraction (s mean : R) : R := rnd (s / mean).
Definition float_central_fraction (s mean : R) : R := rnd (1 - float_satellite_fraction s mean).
