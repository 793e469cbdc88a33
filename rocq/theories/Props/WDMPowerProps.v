(** C138: where the smooth component of a WDM framework appears. *)
From Coq Require Import Reals Lra Lia Psatz.
From Verif Require Import Model.RBool Model.ExtSpline Model.WDM.
Local Open Scope R_scope.

(** the array minus the function: the halo-halo part of the array IS the function (the two powers of the halo fraction cancel), and
    the rest is phc (1 - f b) (1 - f b + 2 f p), f the mass fraction in haloes, b their bias, p the normalised transform of the haloes *)
Theorem c138_difference : forall rho rho_h b phc p1h p2h pch xi1 xi2, 0 < rho -> 0 < rho_h -> rho_h <> rho ->
  let w := wdm_matter rho rho_h b phc p1h p2h pch xi1 xi2 in let f := rho_h / rho in
  read_power_array w - read_power_fnc w = phc * (1 - f * b) * (1 - f * b + 2 * f * (pch / rho_h)).
Proof.
  intros rho rho_h b phc p1h p2h pch xi1 xi2 R0 H0 N w f. unfold w, wdm_matter, sum_callable. simpl. unfold power_auto_wdm, power_ss, power_sh, power_hh_matter, bias_smooth, f_halos.
  unfold f. field. repeat split; try lra.
Qed.
Print Assumptions c138_difference.

(** so the two agree at a wavenumber only in two degenerate cases *)
Theorem c138_agree_iff : forall rho rho_h b phc p1h p2h pch xi1 xi2, 0 < rho -> 0 < rho_h -> rho_h <> rho -> phc <> 0 ->
  let w := wdm_matter rho rho_h b phc p1h p2h pch xi1 xi2 in let f := rho_h / rho in
  read_power_array w = read_power_fnc w <-> f * b = 1 \/ 1 - f * b + 2 * f * (pch / rho_h) = 0.
Proof.
  intros rho rho_h b phc p1h p2h pch xi1 xi2 R0 H0 N P w f. assert (D := c138_difference rho rho_h b phc p1h p2h pch xi1 xi2 R0 H0 N). cbv zeta in D. fold w f in D. split.
  - intros E. assert (Z : phc * (1 - f * b) * (1 - f * b + 2 * f * (pch / rho_h)) = 0) by lra. apply Rmult_integral in Z. destruct Z as [Z|Z]; [|now right].
    apply Rmult_integral in Z. destruct Z as [Z|Z]; [contradiction|left; lra].
  - intros [Z|Z]; [replace (1 - f * b) with 0 in D by lra|rewrite Z in D]; lra.
Qed.
Print Assumptions c138_agree_iff.

(** finding: whenever haloes hold part of the mass with f b < 1 (some mass is smooth) the array exceeds the function by at least phc (1 - f b)^2,
    and the correlation function, which reads only the halo terms, has no smooth part either: it is unchanged when the smooth component changes *)
Theorem c138_function_misses_smooth_refuted : forall rho rho_h b phc p1h p2h pch xi1 xi2, 0 < rho_h < rho -> rho_h / rho * b < 1 -> 0 < phc -> 0 <= pch ->
  let w := wdm_matter rho rho_h b phc p1h p2h pch xi1 xi2 in
  read_power_fnc w < read_power_fnc w + phc * (1 - rho_h / rho * b) ^ 2 <= read_power_array w /\
  forall rho' b' phc' pch', let w' := wdm_matter rho' rho_h b' phc' p1h p2h pch' xi1 xi2 in read_power_fnc w' = read_power_fnc w /\ read_corr w' = read_corr w.
Proof.
  intros rho rho_h b phc p1h p2h pch xi1 xi2 H F P Q w. split; [|intros; split; reflexivity].
  assert (D := c138_difference rho rho_h b phc p1h p2h pch xi1 xi2 ltac:(lra) ltac:(lra) ltac:(lra)). cbv zeta in D. fold w in D.
  assert (0 < rho_h / rho) by (apply Rdiv_lt_0_compat; lra). set (f := rho_h / rho) in *.
  assert (0 <= pch / rho_h) by (apply Rmult_le_pos; [auto|left; apply Rinv_0_lt_compat; lra]). set (q := pch / rho_h) in *. set (t := 1 - f * b) in *. assert (T : 0 < t) by (unfold t; lra).
  assert (X1 : 0 < phc * t ^ 2) by (apply Rmult_lt_0_compat; auto; apply pow_lt; auto).
  assert (X2 : 0 <= phc * t * (2 * f * q)). { apply Rmult_le_pos; [apply Rmult_le_pos; lra|]. apply Rmult_le_pos; lra. }
  clearbody f q t. split; [lra|]. replace (phc * t * (t + 2 * f * q)) with (phc * t ^ 2 + phc * t * (2 * f * q)) in D by ring. lra.
Qed.
Print Assumptions c138_function_misses_smooth_refuted.

(** finding: the reported halo fraction divides a comoving density by a physical one.  If the mean density grows as (1+z)^3 while the density in haloes is
    comoving (as in hmf), the fraction is the true one over (1+z)^3, hence right at z = 0 only, and the "smooth" density exceeds the comoving matter density
    as soon as (1+z)^3 > 1 + F *)
Theorem c138_fraction_at_redshift_refuted : forall rho0 rho_h z, 0 < rho0 -> 0 < rho_h <= rho0 -> 0 <= z ->
  let F := rho_h / rho0 in let rho := rho0 * (1 + z) ^ 3 in
  f_halos rho rho_h = F / (1 + z) ^ 3 /\ (f_halos rho rho_h = F <-> z = 0) /\ mean_density_smooth rho rho_h = rho0 * ((1 + z) ^ 3 - F) /\
  (1 + F < (1 + z) ^ 3 <-> rho0 < mean_density_smooth rho rho_h).
Proof.
  intros rho0 rho_h z R0 H Z F rho. assert (P : 0 < (1 + z) ^ 3) by (apply pow_lt; lra). assert (FP : 0 < F) by (apply Rdiv_lt_0_compat; lra).
  assert (E : f_halos rho rho_h = F / (1 + z) ^ 3) by (unfold f_halos, rho, F; field; split; lra).
  assert (M : mean_density_smooth rho rho_h = rho0 * ((1 + z) ^ 3 - F)) by (unfold mean_density_smooth; rewrite E; unfold rho; field; lra).
  split; [exact E|]. split; [|split; [exact M|]].
  - rewrite E. split; [|intros ->; replace (1 + 0) with 1 by ring; rewrite pow1; field].
    intros Q. assert (Q' : F = F * (1 + z) ^ 3). { apply (f_equal (fun t => t * (1 + z) ^ 3)) in Q. unfold Rdiv in Q. rewrite Rmult_assoc, Rinv_l in Q by lra. lra. }
    assert (Q2 : (1 + z) ^ 3 = 1) by (apply (Rmult_eq_reg_l F); lra). destruct Z as [Z|Z]; auto. exfalso. assert (1 < (1 + z) ^ 3); [|lra]. apply Rlt_pow_R1; [lra|lia].
  - rewrite M. split; intros Q; nra.
Qed.
Print Assumptions c138_fraction_at_redshift_refuted.

(** non-vacuity: a quarter of the mass smooth *)
Example c138_case : let w := wdm_matter 4 3 1 10 1 2 3 0 0 in read_power_array w = 7.375 /\ read_power_fnc w = 3.
Proof. simpl. unfold wdm_matter, sum_callable, power_auto_wdm, power_ss, power_sh, power_hh_matter, bias_smooth, f_halos. simpl. split; lra. Qed.
