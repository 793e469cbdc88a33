(** Unit factor of the HI occupation: HOD.unit_conversion (/repo/src/halomod/hod.py:177-179), Spinelli19.unit_conversion (hod.py:638-653) and
    TracerHaloModel.mean_tracer_den_unit (halo_model.py:1242-1245).

    scipy.constants and astropy.constants are external: Planck's constant, the speed of light, the proton and electron masses, Boltzmann's
    constant, the kiloparsec in metres and the solar mass in kilograms are arguments.  [H0] is in km/s/Mpc, [E] is cosmo.efunc. *)
From Coq Require Import Reals.
Local Open Scope R_scope.

Record constants := mkConst { c_planck : R; c_light : R; c_proton : R; c_electron : R; c_boltzmann : R; c_kpc : R; c_sun : R }.
Record cosmology := mkCosmo { cos_H0 : R; cos_E : R -> R }.

(** hod.py:643-647 *)
Definition a12 : R := 2869 / 10 ^ 18.
Definition nu21 : R := 142 * 10 ^ 7.
Definition hi_const (k : constants) : R :=
  (3 * a12 * c_planck k * c_light k ^ 3) / (32 * PI * (c_proton k + c_electron k) * c_boltzmann k * nu21 ^ 2).
(** hod.py:648-653 *)
Definition mpcoverh_3 (k : constants) (cosmo : cosmology) : R := ((c_kpc k * 1000) / (cos_H0 cosmo / 100)) ^ 3.
Definition hubble (k : constants) (cosmo : cosmology) (z : R) : R := cos_H0 cosmo * cos_E cosmo z * 1000 / (c_kpc k * 1000).
Definition spinelli_unit (k : constants) (cosmo : cosmology) (z : R) : R :=
  hi_const k * ((1 + z) ^ 2 / hubble k cosmo z) / mpcoverh_3 k cosmo * c_sun k.
(** hod.py:177-179, every other class *)
Definition plain_unit (k : constants) (cosmo : cosmology) (z : R) : R := 1.
(** halo_model.py:1245 *)
Definition mean_tracer_den_unit (density : R) (unit : constants -> cosmology -> R -> R) (k : constants) (cosmo : cosmology) (z : R) : R :=
  density * unit k cosmo z.
