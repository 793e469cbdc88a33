(** The number virial_velocity returns, in physical units (C137). *)
From Coq Require Import Reals Lra Psatz.
From Verif Require Import Model.RBool Model.Profiles Spec.VelocitySpec Proofs.ProfileProofs2 Props.ProfileProps.
Local Open Scope R_scope.

Lemma mp_pos : 0 < megaparsec. Proof. unfold megaparsec. apply Rmult_lt_0_compat; [lra|apply pow_lt; lra]. Qed.
Lemma sm_pos : 0 < solar_mass. Proof. unfold solar_mass. apply Rmult_lt_0_compat; [lra|apply pow_lt; lra]. Qed.
Lemma ratio_bounds : 8027 ^ 2 < solar_mass / megaparsec < 8028 ^ 2.
Proof.
  assert (M := mp_pos). assert (E : solar_mass / megaparsec = 198841 * 10 ^ 19 / 30856775814913673) by (unfold solar_mass, megaparsec; field).
  rewrite E. split; [apply (Rmult_lt_reg_r 30856775814913673)|apply (Rmult_lt_reg_r 30856775814913673)]; try lra; unfold Rdiv; rewrite Rmult_assoc, Rinv_l by lra; lra.
Qed.
Lemma ratio_sqrt : 8027 < sqrt (solar_mass / megaparsec) < 8028.
Proof.
  destruct ratio_bounds as [A B]. split.
  - rewrite <- (sqrt_pow2 8027) by lra. apply sqrt_lt_1_alt. split; [|exact A]. apply pow2_ge_0.
  - rewrite <- (sqrt_pow2 8028) by lra. apply sqrt_lt_1_alt. split; [|exact B]. apply Rlt_le. apply Rdiv_lt_0_compat; [apply sm_pos|apply mp_pos].
Qed.

(** C137: the number returned is the circular velocity at the virial radius divided by sqrt(solar mass in kg / megaparsec in m) = 8027.5 m/s, independently of the Hubble parameter;
    so it is a velocity neither in m/s nor in km/s (8.03 times too small), and grows as the cube root of the mass *)
Theorem c137_unit : forall o m lh, inst_ok o -> 0 < m -> 0 < lh -> exists v, virial_velocity o (Some m) None = Ok v /\
  circular_velocity lh m (halo_mass_to_radius o m false) = v * sqrt (solar_mass / megaparsec) /\
  8.027 * v < circular_velocity lh m (halo_mass_to_radius o m false) / 1000 < 8.028 * v.
Proof.
  intros o m lh O Hm Hl. destruct (c39_virial_velocity o m None O Hm) as [_ [_ [_ [v [E [V Q]]]]]]. exists v. split; auto.
  set (r := halo_mass_to_radius o m false) in *. assert (HR : 0 < r) by (unfold r; apply hmr_pos).
  assert (C : circular_velocity lh m r = v * sqrt (solar_mass / megaparsec)).
  { unfold circular_velocity. assert (A := mp_pos). assert (B := sm_pos). rewrite <- (sqrt_pow2 v) by lra. rewrite <- sqrt_mult_alt by apply pow2_ge_0. f_equal.
    assert (Z : v ^ 2 = newton_G * m / r) by (apply (Rmult_eq_reg_r r); [|lra]; rewrite Q; replace (6.673 * / 10 ^ 11) with newton_G by (unfold newton_G; simpl; lra); field; lra). rewrite Z. field. repeat split; lra. }
  split; auto. rewrite C. destruct ratio_sqrt as [A B]. assert (v * 8027 < v * sqrt (solar_mass / megaparsec) < v * 8028) by (split; apply Rmult_lt_compat_l; auto). lra.
Qed.
Print Assumptions c137_unit.
Theorem c137_cube_root : forall o m k, inst_ok o -> 0 < m -> 0 < k -> exists v w, virial_velocity o (Some m) None = Ok v /\ virial_velocity o (Some (k ^ 3 * m)) None = Ok w /\ w = k * v.
Proof.
  intros o m k O Hm K. assert (K3 : 0 < k ^ 3) by now apply pow_lt. assert (Hm' : 0 < k ^ 3 * m) by now apply Rmult_lt_0_compat.
  destruct (c39_virial_velocity o m None O Hm) as [_ [_ [_ [v [E [V Q]]]]]]. destruct (c39_virial_velocity o (k ^ 3 * m) None O Hm') as [_ [_ [_ [w [E' [W Q']]]]]].
  exists v, w. split; auto. split; auto. assert (P := hmr_pos o m false).
  assert (HM : halo_mass_to_radius o (k ^ 3 * m) false = k * halo_mass_to_radius o m false).
  { rewrite <- (hmr_hrm o O (k * halo_mass_to_radius o m false) false) by (apply Rmult_lt_0_compat; auto). f_equal. rewrite <- (hrm_hmr o O m false Hm) at 1. unfold halo_radius_to_mass. field. }
  rewrite HM in Q'. assert (Z : w ^ 2 = (k * v) ^ 2).
  { apply (Rmult_eq_reg_r (k * halo_mass_to_radius o m false)); [|apply Rgt_not_eq, Rmult_lt_0_compat; auto]. rewrite Q'.
    replace ((k * v) ^ 2 * (k * halo_mass_to_radius o m false)) with (k ^ 3 * (v ^ 2 * halo_mass_to_radius o m false)) by ring. rewrite Q. ring. }
  assert (0 < k * v) by (apply Rmult_lt_0_compat; auto). assert (F : sqrt (w ^ 2) = sqrt ((k * v) ^ 2)) by (f_equal; exact Z). rewrite !sqrt_pow2 in F by lra. exact F.
Qed.
Print Assumptions c137_cube_root.
Example c137_met : exists o m, inst_ok o /\ 0 < m.
Proof. exists (mkInst 200 1 1 0 (fun _ => 1) (fun _ => 5)), 1. unfold inst_ok. simpl. repeat split; lra. Qed.
