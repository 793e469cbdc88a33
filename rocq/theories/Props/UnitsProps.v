(** Tracer densities in the unit of the HOD (C130). *)
From Coq Require Import Reals Lra.
From Verif Require Import Model.Units Spec.UnitsSpec.
Local Open Scope R_scope.

Lemma spec_nu : line_frequency = nu21. Proof. unfold line_frequency, nu21. simpl. lra. Qed.
Lemma spec_a : einstein_A = a12. Proof. unfold einstein_A, a12. simpl. lra. Qed.
Lemma nu21_pos : 0 < nu21. Proof. unfold nu21. nra. Qed.
Lemma a12_pos : 0 < a12. Proof. unfold a12. apply Rdiv_lt_0_compat; [lra|apply pow_lt; lra]. Qed.

(** C130: for the HI model, mean_tracer_den_unit is the brightness temperature (in kelvin) of a density of that many solar masses per
    (Mpc/h)^3.  Halo masses are in solar masses / h, and so is the HI mass of a halo: read in that unit the result is the brightness
    temperature times h *)
Theorem c130_brightness_temperature : forall k cosmo z d, physical k -> expanding cosmo -> 0 <= z ->
  mean_tracer_den_unit d spinelli_unit k cosmo z = brightness_temperature k cosmo z (rho_from_msun k cosmo d) /\
  mean_tracer_den_unit d spinelli_unit k cosmo z = little_h cosmo * brightness_temperature k cosmo z (rho_from_msun_over_h k cosmo d).
Proof.
  intros k cosmo z d (A & B & C & D & E & F & G) [H0 HE] Hz. specialize (HE z Hz). pose proof PI_RGT_0. pose proof nu21_pos.
  unfold mean_tracer_den_unit, spinelli_unit, brightness_temperature, rho_from_msun, rho_from_msun_over_h, hi_const, mpcoverh_3, hubble, H_si, metres_per_mpc, little_h. rewrite spec_nu, spec_a.
  split; field; repeat split; lra.
Qed.
Print Assumptions c130_brightness_temperature.

(** so read as solar masses / h it is the brightness temperature exactly in a universe with H0 = 100 (or when there is no hydrogen), and
    otherwise wrong *)
Theorem c130_mass_unit_matters : forall k cosmo z d, physical k -> expanding cosmo -> 0 <= z -> 0 < d ->
  (mean_tracer_den_unit d spinelli_unit k cosmo z = brightness_temperature k cosmo z (rho_from_msun_over_h k cosmo d) <-> cos_H0 cosmo = 100) /\
  (cos_H0 cosmo < 100 -> mean_tracer_den_unit d spinelli_unit k cosmo z < brightness_temperature k cosmo z (rho_from_msun_over_h k cosmo d)).
Proof.
  intros k cosmo z d P X Hz Hd. destruct (c130_brightness_temperature k cosmo z d P X Hz) as [_ ->].
  assert (T : 0 < brightness_temperature k cosmo z (rho_from_msun_over_h k cosmo d)).
  { destruct P as (A & B & C & D & E & F & G). destruct X as [H0 HE]. specialize (HE z Hz). pose proof PI_RGT_0. pose proof nu21_pos. pose proof a12_pos.
    unfold brightness_temperature, rho_from_msun_over_h, H_si, metres_per_mpc, little_h. rewrite spec_nu, spec_a.
    assert (0 < c_light k ^ 3) by (apply pow_lt; auto). assert (0 < (1 + z) ^ 2) by (apply pow_lt; lra). assert (0 < nu21 ^ 2) by (apply pow_lt; auto).
    repeat (first [assumption | apply Rdiv_lt_0_compat | apply pow_lt | apply Rmult_lt_0_compat]); lra. }
  unfold little_h. set (T0 := brightness_temperature _ _ _ _) in *. destruct X as [H0 _]. split; [split; intros H|intros H].
  - assert (cos_H0 cosmo / 100 = 1); [|lra]. apply (Rmult_eq_reg_r T0); lra.
  - rewrite H. lra.
  - apply (Rmult_lt_reg_r (/ T0)); [apply Rinv_0_lt_compat; auto|]. rewrite Rmult_assoc, Rinv_r by lra. lra.
Qed.
Print Assumptions c130_mass_unit_matters.

(** the factor varies with the cosmology and redshift as H0^2 (1+z)^2 / E(z), is positive, and is 1 for every other HOD *)
Theorem c130_scaling : forall k c1 c2 z1 z2, physical k -> expanding c1 -> expanding c2 -> 0 <= z1 -> 0 <= z2 ->
  0 < spinelli_unit k c1 z1 /\
  spinelli_unit k c1 z1 / spinelli_unit k c2 z2 = (cos_H0 c1 / cos_H0 c2) ^ 2 * ((1 + z1) / (1 + z2)) ^ 2 * (cos_E c2 z2 / cos_E c1 z1) /\
  forall d, mean_tracer_den_unit d plain_unit k c1 z1 = d.
Proof.
  intros k c1 c2 z1 z2 (A & B & C & D & E & F & G) [H1 E1] [H2 E2] Z1 Z2. specialize (E1 z1 Z1). specialize (E2 z2 Z2). pose proof PI_RGT_0. pose proof nu21_pos. pose proof a12_pos.
  unfold spinelli_unit, hi_const, mpcoverh_3, hubble, mean_tracer_den_unit, plain_unit. repeat split; [| |intros; lra].
  - assert (0 < c_light k ^ 3) by (apply pow_lt; auto). assert (0 < (1 + z1) ^ 2) by (apply pow_lt; lra). assert (0 < nu21 ^ 2) by (apply pow_lt; auto).
    repeat (first [assumption | apply Rdiv_lt_0_compat | apply pow_lt | apply Rmult_lt_0_compat]); lra.
  - field. repeat split; lra.
Qed.
Print Assumptions c130_scaling.

(** *** a concrete case: unit constants, H0 = 70, the code's answer is 7/10 of the temperature *)
Example seventy : let k := mkConst 1 1 1 1 1 1 1 in let cosmo := mkCosmo 70 (fun z => 1 + z) in
  physical k /\ expanding cosmo /\ mean_tracer_den_unit 2 spinelli_unit k cosmo 1 = 7 / 10 * brightness_temperature k cosmo 1 (rho_from_msun_over_h k cosmo 2).
Proof.
  intros k cosmo. assert (P : physical k) by (unfold physical, k; simpl; lra). assert (X : expanding cosmo) by (split; simpl; [lra|intros; lra]).
  repeat split; auto; try apply P; try apply X. destruct (c130_brightness_temperature k cosmo 1 2 P X ltac:(lra)) as [_ ->]. f_equal. unfold little_h, cosmo. simpl. lra.
Qed.
