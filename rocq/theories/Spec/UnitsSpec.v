(** Brightness temperature of neutral hydrogen, in SI units.

      T = 3 h_P c^3 A_12 / (32 pi k_B m_H nu^2)  *  (1+z)^2 / H(z)  *  rho

    with rho the comoving mass density in kg/m^3 and H in 1/s (e.g. Furlanetto, Oh & Briggs 2006). *)
From Coq Require Import Reals.
From Verif Require Import Model.Units.
Local Open Scope R_scope.

Definition metres_per_mpc (k : constants) : R := 1000 * c_kpc k.
(** Einstein coefficient (per second) and frequency (Hz) of the 21 cm line, rounded as usual in the field *)
Definition einstein_A : R := 2.869 / 10 ^ 15.
Definition line_frequency : R := 1.42 * 10 ^ 9.
(** H0 in km/s/Mpc to 1/s *)
Definition H_si (k : constants) (cosmo : cosmology) (z : R) : R := cos_H0 cosmo * cos_E cosmo z * 1000 / metres_per_mpc k.
Definition brightness_temperature (k : constants) (cosmo : cosmology) (z rho : R) : R :=
  3 * c_planck k * c_light k ^ 3 * einstein_A / (32 * PI * c_boltzmann k * (c_proton k + c_electron k) * line_frequency ^ 2) * ((1 + z) ^ 2 / H_si k cosmo z) * rho.
Definition little_h (cosmo : cosmology) : R := cos_H0 cosmo / 100.
(** a density of [d] solar masses, or of [d] solar masses / h, per (Mpc/h)^3, in kg/m^3 *)
Definition rho_from_msun (k : constants) (cosmo : cosmology) (d : R) : R := d * c_sun k / (metres_per_mpc k / little_h cosmo) ^ 3.
Definition rho_from_msun_over_h (k : constants) (cosmo : cosmology) (d : R) : R := d * (c_sun k / little_h cosmo) / (metres_per_mpc k / little_h cosmo) ^ 3.

Definition physical (k : constants) : Prop :=
  0 < c_planck k /\ 0 < c_light k /\ 0 < c_proton k /\ 0 < c_electron k /\ 0 < c_boltzmann k /\ 0 < c_kpc k /\ 0 < c_sun k.
Definition expanding (cosmo : cosmology) : Prop := 0 < cos_H0 cosmo /\ forall z, 0 <= z -> 0 < cos_E cosmo z.
