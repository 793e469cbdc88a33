(** Projected and angular correlation functions (integrate_corr.py): C70-C73, C99, C100. *)
From Coq Require Import Reals List Bool Arith Lia Lra.
From Coquelicot Require Import Coquelicot.
From Verif Require Import Model.RBool Model.SpecialFn Model.SimpsonX Model.IntegrateCorr Spec.IntegrateSpec Proofs.SimpsonXProofs Proofs.ExtSplineProofs Proofs.IntegrateProofs Proofs.ProfileConv Proofs.Calc.
Import ListNotations.
Local Open Scope R_scope.

(** ** C100: the irregular Simpson rule *)
Lemma incr_hd_last : forall x, incr x -> hd 0 x <= last x 0.
Proof. intros x H. induction H; simpl; try lra. cbn [hd] in IHincr. change (match t with [] => b | _ :: _ => last t 0 end) with (last (b :: t) 0). lra. Qed.
Theorem c100_exact_on_quadratics : forall A B C x, (3 <= length x)%nat -> incr x ->
  is_RInt (fun t => A + B * t + C * t ^ 2) (hd 0 x) (last x 0) (simpx x (map (fun t => A + B * t + C * t ^ 2) x)).
Proof.
  intros A B C x L H. rewrite simpx_pts_eq, simpx_quadratic by auto.
  apply (ftc (fun t : R => A * t + B * t ^ 2 / 2 + C * t ^ 3 / 3) (fun t => A + B * t + C * t ^ 2)); [now apply incr_hd_last| |].
  - intros t _. auto_derive; auto. field.
  - intros t _. apply (@ex_derive_continuous R_AbsRing R_NormedModule). auto_derive. auto.
Qed.
Theorem c100_linear : forall f g k x, simpx x (map (fun t => f t + k * g t) x) = simpx x (map f x) + k * simpx x (map g x).
Proof. intros. rewrite !simpx_pts_eq. apply simpx_linear. Qed.
Theorem c100_positive : forall f x, incr x -> quasi_uniform x -> (forall t, In t x -> 0 <= f t) -> 0 <= simpx x (map f x).
Proof. intros. rewrite simpx_pts_eq. now apply simpx_positive. Qed.
(** and the condition on the grid is needed: intervals of lengths 1 and 3 give a point a negative weight *)
Theorem c100_irregular_refuted : exists x f, incr x /\ (forall t, 0 <= f t) /\ simpx x (map f x) < 0.
Proof.
  exists [0; 1; 4], (fun t => if Req_EM_T t 0 then 1 else 0). split; [repeat constructor; lra|]. split; [intros; destruct (Req_EM_T t 0); lra|].
  cbn [map]. destruct (Req_EM_T 0 0); [|lra]. destruct (Req_EM_T 1 0); [lra|]. destruct (Req_EM_T 4 0); [lra|]. unfold simpx; cbn [combine]. rewrite simpx_3. unfold panel; cbn [fst snd]. lra.
Qed.
(** the grids the package builds: linear ones always, logarithmic ones when consecutive points are within a factor 2 *)
Theorem c100_linspace_regular : forall a b n, a < b -> incr (linspace a b n) /\ quasi_uniform (linspace a b n).
Proof. intros. split; [now apply linspace_incr|now apply linspace_qu]. Qed.
Theorem c100_logspace_regular : forall a b n, 0 < a < b -> b <= 2 ^ (n - 1) * a -> incr (logspace a b n) /\ quasi_uniform (logspace a b n).
Proof. intros. split; [now apply logspace_incr|now apply logspace_qu]. Qed.

(** ** C70 *)
Lemma flat_in : forall zmin zmax z, zmin <= z <= zmax -> flat_z_dist zmin zmax z = 1 / (zmax - zmin).
Proof. intros zmin zmax z [A B]. unfold flat_z_dist. replace (Rleb zmin z) with true by (symmetry; now apply Rleb_spec). replace (Rleb z zmax) with true by (symmetry; now apply Rleb_spec). reflexivity. Qed.
Lemma flat_out : forall zmin zmax z, z < zmin \/ zmax < z -> flat_z_dist zmin zmax z = 0.
Proof. intros zmin zmax z [H|H]; unfold flat_z_dist. - replace (Rleb zmin z) with false by (symmetry; now apply Rleb_false). auto. - replace (Rleb z zmax) with false by (symmetry; now apply Rleb_false). now rewrite andb_false_r. Qed.
Theorem c70_flat_range : forall zmin zmax z, zmin < zmax -> 0 <= flat_z_dist zmin zmax z /\ (0 < flat_z_dist zmin zmax z <-> zmin <= z <= zmax).
Proof.
  intros zmin zmax z H. assert (P : 0 < 1 / (zmax - zmin)) by (apply Rdiv_lt_0_compat; lra).
  destruct (Rlt_dec z zmin); [rewrite flat_out by auto; split; [lra|split; lra]|]. destruct (Rlt_dec zmax z); [rewrite flat_out by auto; split; [lra|split; lra]|]. rewrite flat_in by lra. split; [lra|split; lra].
Qed.
Theorem c70_flat_normalised : forall zmin zmax A B, zmin < zmax -> A <= zmin -> zmax <= B -> is_RInt (flat_z_dist zmin zmax) A B 1.
Proof.
  intros zmin zmax A B H HA HB.
  assert (I1 : is_RInt (flat_z_dist zmin zmax) A zmin 0) by (apply rint_zero; auto; intros; apply flat_out; lra).
  assert (I2 : is_RInt (flat_z_dist zmin zmax) zmin zmax 1).
  { apply (rext _ (fun _ => 1 / (zmax - zmin))); [lra|intros; apply flat_in; lra|]. eapply rint_eq; [apply (is_RInt_const (V:=R_NormedModule))|]. unfold scal; simpl; unfold mult; simpl. field. lra. }
  assert (I3 : is_RInt (flat_z_dist zmin zmax) zmax B 0) by (apply rint_zero; auto; intros; apply flat_out; lra).
  apply (rint_eq _ _ _ (0 + 1 + 0)); [apply (chasles _ _ _ _ _ _ (chasles _ _ _ _ _ _ I1 I2) I3)|simpl; lra].
Qed.
Lemma isclose1_spec : forall v, isclose1 v = true <-> Rabs (v - 1) <= 1 / 100000000 + 1 / 100.
Proof. intros. unfold isclose1. apply Rleb_spec. Qed.
(** the default selection is accepted as it is, for every redshift range and number of points *)
Theorem c70_flat_accepted : forall zmin zmax n, zmin < zmax -> (2 <= n)%nat -> check_p (mkSel (flat_z_dist zmin zmax) None) (linspace zmin zmax n) = Some (flat_z_dist zmin zmax).
Proof.
  intros zmin zmax n H N. unfold check_p, p_integral; cbn [s_int s_f]. rewrite simpx_pts_eq. rewrite (simpx_ext _ (fun t => 1 / (zmax - zmin) + 0 * t)). 2: { intros t Ht. apply linspace_in in Ht; [|lra]. rewrite flat_in by lra. ring. }
  rewrite simpx_affine by (rewrite ?linspace_len; auto using linspace_incr). rewrite linspace_last, linspace_hd by lia.
  replace (1 / (zmax - zmin) * zmax + 0 * zmax ^ 2 / 2 - (1 / (zmax - zmin) * zmin + 0 * zmin ^ 2 / 2)) with 1 by (field; lra). replace (isclose1 1) with true; auto. symmetry. apply isclose1_spec. replace (1 - 1) with 0 by ring. rewrite Rabs_R0. lra.
Qed.
(** what is returned has integral 1 to 1% in every case, exactly 1 when it was rescaled *)
Theorem c70_check_normalises : forall p z q, s_int p = None -> check_p p z = Some q ->
  Rabs (simpx z (map q z) - 1) <= 1 / 100000000 + 1 / 100 /\ (1 / 100000000 + 1 / 100 < Rabs (p_integral p z - 1) -> simpx z (map q z) = 1) /\ (Rabs (p_integral p z - 1) <= 1 / 100000000 + 1 / 100 -> q = s_f p).
Proof.
  intros p z q S H. unfold check_p in H. cbv zeta in H. assert (I : p_integral p z = simpx z (map (s_f p) z)) by (unfold p_integral; now rewrite S). destruct (isclose1 (p_integral p z)) eqn:C.
  - injection H as <-. apply isclose1_spec in C. rewrite <- I. split; auto. split; auto. intros K. lra.
  - assert (C' : 1 / 100000000 + 1 / 100 < Rabs (p_integral p z - 1)). { apply Rnot_le_lt. intros K. apply isclose1_spec in K. congruence. }
    destruct (Reqb (p_integral p z) 0) eqn:Z; [discriminate|]. injection H as <-. assert (N : p_integral p z <> 0) by (intros K; apply Reqb_spec in K; congruence).
    assert (E : simpx z (map (fun t => s_f p t / p_integral p z) z) = 1). { rewrite simpx_pts_eq. rewrite (simpx_ext _ (fun t => / p_integral p z * s_f p t)) by (intros; unfold Rdiv; ring). rewrite simpx_scal, <- simpx_pts_eq, <- I. field. auto. }
    rewrite E. split; [replace (1 - 1) with 0 by ring; rewrite Rabs_R0; lra|]. split; auto. intros K. lra.
Qed.
(** nan exactly when the integral vanishes *)
Theorem c70_nan_iff : forall p z, check_p p z = None <-> p_integral p z = 0.
Proof.
  intros p z. unfold check_p. cbv zeta. destruct (isclose1 (p_integral p z)) eqn:C.
  - split; [discriminate|]. intros K. rewrite K in C. apply isclose1_spec in C. replace (0 - 1) with (-1) in C by ring. rewrite Rabs_left in C by lra. lra.
  - destruct (Reqb (p_integral p z) 0) eqn:Z. + apply Reqb_spec in Z. tauto. + split; [discriminate|]. intros K. apply Reqb_spec in K. congruence.
Qed.
(** the amplitude of an unnormalised selection is irrelevant... *)
Theorem c70_scale_invariant : forall p z k q1 q2, s_int p = None -> k <> 0 -> let kp := mkSel (fun t => k * s_f p t) None in
  isclose1 (p_integral p z) = false -> isclose1 (p_integral kp z) = false -> check_p p z = Some q1 -> check_p kp z = Some q2 -> forall t, q1 t = q2 t.
Proof.
  intros p z k q1 q2 S K kp C1 C2 H1 H2 t. unfold check_p in *. rewrite C1 in H1. rewrite C2 in H2. cbv zeta in *. destruct (Reqb (p_integral p z) 0) eqn:Z1; [discriminate|]. destruct (Reqb (p_integral kp z) 0); [discriminate|].
  injection H1 as <-. injection H2 as <-. assert (I : p_integral kp z = k * p_integral p z). { unfold p_integral. rewrite S. unfold kp; cbn [s_int s_f]. rewrite !simpx_pts_eq. apply simpx_scal. }
  rewrite I. unfold kp; cbn [s_f]. assert (p_integral p z <> 0) by (intros Q; apply Reqb_spec in Q; congruence). field. auto.
Qed.
(** ...but one within 1% of normalisation is left as it is, so rescaling by less than 1% changes the result *)
Theorem c70_tolerance_window : forall zmin zmax n k, zmin < zmax -> (2 <= n)%nat -> Rabs (k - 1) <= 1 / 100 -> check_p (mkSel (fun t => k * flat_z_dist zmin zmax t) None) (linspace zmin zmax n) = Some (fun t => k * flat_z_dist zmin zmax t).
Proof.
  intros zmin zmax n k H N K. unfold check_p, p_integral; cbn [s_int s_f]. rewrite simpx_pts_eq. rewrite (simpx_ext _ (fun t => k * (1 / (zmax - zmin)) + 0 * t)). 2: { intros t Ht. apply linspace_in in Ht; [|lra]. rewrite flat_in by lra. ring. }
  rewrite simpx_affine by (rewrite ?linspace_len; auto using linspace_incr). rewrite linspace_last, linspace_hd by lia.
  replace (k * (1 / (zmax - zmin)) * zmax + 0 * zmax ^ 2 / 2 - (k * (1 / (zmax - zmin)) * zmin + 0 * zmin ^ 2 / 2)) with k by (field; lra). replace (isclose1 k) with true; auto. symmetry. apply isclose1_spec. lra.
Qed.
(** finding: AngularCF's default selection is flat in redshift also when p_of_z is False; evaluated at distances it is 0, and the
    result is nan (or 0 without the check) *)
Theorem c70_default_selection_of_distance : forall c xi zmin zmax lu0 lu1 zn un th, zmax < c_dist c zmin * c_h c -> c_dist c zmin * c_h c <= c_dist c zmax * c_h c ->
  let p := mkSel (flat_z_dist zmin zmax) None in
  angular_corr_gal c xi p None zmin zmax lu0 lu1 zn un true false th = None /\ angular_corr_gal c xi p None zmin zmax lu0 lu1 zn un false false th = Some 0.
Proof.
  intros c xi zmin zmax lu0 lu1 zn un th H1 H2 p. set (g := linspace (c_dist c zmin * c_h c) (c_dist c zmax * c_h c) zn).
  assert (Z : forall t, In t g -> flat_z_dist zmin zmax t = 0). { intros t Ht. apply linspace_in in Ht; auto. apply flat_out. lra. }
  split.
  - unfold angular_corr_gal, selected, angular_grid. fold g. replace (check_p p g) with (@None (R -> R)); auto. symmetry. apply c70_nan_iff. unfold p_integral, p; cbn [s_int s_f]. rewrite simpx_pts_eq, (simpx_ext _ (fun _ => 0)) by auto. apply simpx_zero.
  - unfold angular_corr_gal, selected, angular_grid. fold g. cbv zeta. f_equal. unfold limber. replace (map (distance c false) g) with g by (symmetry; apply map_id). rewrite simpx_pts_eq.
    set (u := logspace _ _ _). rewrite (simpx_ext _ (fun _ => 0)), simpx_zero by (intros t Ht; rewrite (map_ext _ (fun _ => 0)), simpx_pts_eq, simpx_zero; [auto|]; intros v; unfold p_integ; cbn [s_f p]; rewrite Z by auto; ring). ring.
Qed.
Example c70_nonvacuous : check_p (mkSel (fun t => 2 * flat_z_dist 0 1 t) None) (linspace 0 1 3) <> None.
Proof. intros H. apply c70_nan_iff in H. unfold p_integral in H; cbn [s_int s_f] in H. rewrite simpx_pts_eq, simpx_scal, (simpx_ext _ (fun t => 1 + 0 * t)) in H.
  - rewrite simpx_affine in H by (rewrite ?linspace_len; auto; apply linspace_incr; lra). rewrite linspace_last, linspace_hd in H by lia. lra.
  - intros t Ht. apply linspace_in in Ht; [|lra]. rewrite flat_in by lra. lra.
Qed.
Print Assumptions c70_flat_normalised.
Print Assumptions c70_check_normalises.
Print Assumptions c70_default_selection_of_distance.
Print Assumptions c100_positive.
