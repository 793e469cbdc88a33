(** C143: accuracy of the mass integrals of the halo model (halo_model.py, halo_exclusion.py, cross_correlations.py). *)
From Coq Require Import Reals List Bool Arith Lia Lra Psatz.
From Coquelicot Require Import Coquelicot.
From Verif Require Import Model.RBool Model.Quad Model.SplineInt Model.ExtSpline Model.Exclusion Model.Profiles Model.HOD Model.HaloModel Model.Cross Model.SimpsonX Model.IntegrateCorr.
From Verif Require Import Spec.HMSpec Spec.ExclSpec Spec.MassIntegralSpec Proofs.HMProofs Proofs.Calc Proofs.MassIntegralProofs Props.HaloModelProps Props.CrossProps Props.FindMminProps Props.HMTotalProps Props.SimpsonErrorProps.
Import ListNotations.
Local Open Scope R_scope.

Definition sampled (h : dmhm) (f : nat -> R) (F : R -> R) : Prop := forall i, (i < d_nm h)%nat -> f i = F (d_m h i).
Definition top (h : dmhm) : R := d_m h (d_nm h - 1)%nat.

Lemma trapezoid_ext : forall n dx f g, (1 <= n)%nat -> (forall i, (i < n)%nat -> f i = g i) -> np_trapezoid n dx f = np_trapezoid n dx g.
Proof. intros n dx f g N E. unfold np_trapezoid, cumulative_trapezoid. apply sum_ext. intros i Hi. apply in_seq in Hi. rewrite !E by lia. reflexivity. Qed.
(** ** the 1-halo matter correlation of profiles with a self-convolution: trapezoidal rule *)
Theorem c143_one_halo_correlation : forall I spline uspline hk h lam xi ir n L K m0,
  d_lam h = Some lam -> corr_1h_matter I spline uspline hk h = Ok xi -> interpolates (spline 3%nat) -> grid (d_nr h) (d_r h) -> (ir < d_nr h)%nat ->
  let dx := ln 10 * d_dlog10m h in
  0 < m0 -> 0 < dx -> (1 <= d_nm h)%nat -> log_masses (d_nm h) (d_m h) m0 dx -> d_rho0 h <> 0 ->
  sampled h (d_dndm h) n -> sampled h (lam ir) L ->
  let F m := n m * m ^ 2 * L m in curvature F K m0 (top h) ->
  Rabs (xi (d_r h ir) - (over_mass F m0 (top h) / d_rho0 h ^ 2 - 1)) <= K * dx ^ 2 / 12 * (ln (top h) - ln m0) / d_rho0 h ^ 2.
Proof.
  intros I spline uspline hk h lam xi ir n L K m0 HL H HI G Hi dx P DX N1 LM R0 SN SL F C. unfold corr_1h_matter in H. rewrite HL in H. cbv beta iota delta [bind] in H.
  rewrite (efun_node _ _ _ _ _ _ _ _ _ _ HI G Hi H). fold dx.
  assert (X := mass_trapezoid F K m0 dx (d_nm h) (d_m h) P DX LM N1 C).
  rewrite (trapezoid_ext _ _ _ (fun i => d_m h i * F (d_m h i))) by (auto; intros i Li; unfold F; rewrite SN, SL by auto; ring). unfold np_trapezoid.
  match goal with |- Rabs (?a / ?r - 1 - (?b / _ - 1)) <= _ => replace (a / r - 1 - (b / r - 1)) with ((a - b) / r) by (field; auto) end.
  assert (RP : 0 < / d_rho0 h ^ 2) by (apply Rinv_0_lt_compat; rewrite <- Rsqr_pow2; now apply Rsqr_pos_lt).
  match goal with |- Rabs (?a / ?r) <= ?b / _ => change (Rabs (a * / r) <= b * / r) end. rewrite Rabs_mult, (Rabs_right (/ d_rho0 h ^ 2)) by lra. apply Rmult_le_compat_r; [lra|exact X].
Qed.
Print Assumptions c143_one_halo_correlation.

(** ** the 2-halo terms: Simpson's rule *)
Lemma ratio_close : forall S Q A J d e, 0 < J -> 0 <= e < 1 -> Rabs (S - A) <= d * J -> Rabs (Q - J) <= e * J ->
  let t := A / J in let eta := (d + e * Rabs t) / (1 - e) in Rabs ((S / Q) ^ 2 - t ^ 2) <= eta * (2 * Rabs t + eta).
Proof.
  intros S Q A J d e J0 [E0 E1] HS HQ t eta. assert (QJ : (1 - e) * J <= Q) by (apply Rabs_le_between in HQ; lra). assert (Q0 : 0 < Q) by (assert (0 < (1 - e) * J) by (apply Rmult_lt_0_compat; lra); lra).
  assert (TA : A = t * J) by (unfold t; field; lra).
  assert (B : Rabs (S - t * Q) <= (d + e * Rabs t) * J).
  { replace (S - t * Q) with ((S - A) + t * (J - Q)) by (rewrite TA; ring). eapply Rle_trans; [apply Rabs_triang|]. rewrite Rabs_mult, (Rabs_minus_sym J Q). assert (Rabs t * Rabs (Q - J) <= Rabs t * (e * J)) by (apply Rmult_le_compat_l; [apply Rabs_pos|auto]). lra. }
  assert (EP : 0 <= d + e * Rabs t). { assert (0 <= (d + e * Rabs t) * J) by (eapply Rle_trans; [apply Rabs_pos|exact B]). destruct (Rle_dec 0 (d + e * Rabs t)); auto. exfalso. assert ((d + e * Rabs t) * J < 0) by nra. lra. }
  assert (D : Rabs (S / Q - t) <= eta).
  { replace (S / Q - t) with ((S - t * Q) / Q) by (field; lra). unfold Rdiv at 1. rewrite Rabs_mult, (Rabs_right (/ Q)) by (left; now apply Rinv_0_lt_compat).
    apply (Rmult_le_reg_r Q); auto. rewrite Rmult_assoc, Rinv_l, Rmult_1_r by lra. eapply Rle_trans; [exact B|]. unfold eta. 
    apply (Rmult_le_reg_r (1 - e)); [lra|]. replace ((d + e * Rabs t) / (1 - e) * Q * (1 - e)) with ((d + e * Rabs t) * Q) by (field; lra).
    rewrite Rmult_assoc. apply Rmult_le_compat_l; auto. lra. }
  replace ((S / Q) ^ 2 - t ^ 2) with ((S / Q - t) * (2 * t + (S / Q - t))) by ring. rewrite Rabs_mult.
  apply Rmult_le_compat; try apply Rabs_pos; auto. eapply Rle_trans; [apply Rabs_triang|]. rewrite Rabs_mult, (Rabs_right 2) by lra. lra.
Qed.
Lemma step_dx : forall n m m0 dx, (2 <= n)%nat -> 0 < m0 -> log_masses n m m0 dx -> ln (m 1%nat / m 0%nat) = dx.
Proof. intros n m m0 dx N P L. rewrite !L by lia. replace (m0 * exp (INR 1 * dx) / (m0 * exp (INR 0 * dx))) with (exp dx); [apply ln_exp|]. simpl. rewrite Rmult_1_l, Rmult_0_l, exp_0. field. lra. Qed.
Lemma first_mass : forall n m m0 dx, (1 <= n)%nat -> log_masses n m m0 dx -> m 0%nat = m0.
Proof. intros n m m0 dx N L. rewrite L by lia. simpl. rewrite Rmult_0_l, exp_0. ring. Qed.

(** accuracy of scipy's spline integral for one integrand: it is external, so its relative error is a parameter *)
Definition spline_error (I : quadrature) (h : dmhm) (F : R -> R) (m0 e : R) : Prop :=
  Rabs (I (arr (d_nm h) (fun i => ln (d_m h i))) (arr (d_nm h) (fun i => d_m h i * F (d_m h i))) (ln m0) (ln (top h)) - over_mass F m0 (top h)) <= e * over_mass F m0 (top h).

Section TwoHalo.
  Variables (I : quadrature) (spline : nat -> list R -> list R -> R -> R) (uspline : list R -> list R -> R -> R) (hk : tmode -> (R -> R) -> R -> R) (h : dmhm).
  Variables (n b : R -> R) (m0 dx : R).
  Hypotheses (NE : d_noexcl h = true) (SD : d_sd h = None) (HI : interpolates (spline 3%nat)) (GK : grid (d_nk h) (d_k h)).
  Hypotheses (P0 : 0 < m0) (DX : 0 < dx) (N3 : (3 <= d_nm h)%nat) (LM : log_masses (d_nm h) (d_m h) m0 dx).
  Hypotheses (SN : sampled h (d_dndm h) n) (SB : sampled h (d_bias h) b).
  Lemma lm_grid : grid (d_nm h) (d_m h).
  Proof.
    split; [lia|]. split.
    - intros i Hi. rewrite LM by auto. apply Rmult_lt_0_compat; auto. apply exp_pos.
    - intros i j Hij. rewrite !LM by lia. apply Rmult_lt_compat_l; auto. apply exp_increasing. apply Rmult_lt_compat_r; auto. apply lt_INR. lia.
  Qed.
  (** matter, with the large-scale bias forced to 1 *)
  Theorem c143_two_halo_forced : forall P i u K e, d_unity h = true -> q_linear I -> d_rhoh h <> 0 -> (i < d_nk h)%nat -> power_2h_matter_noexcl I spline uspline hk h = Ok P ->
    sampled h (d_ukm h i) u -> let w v m := n m * m * b m * v m in let J := over_mass (w (fun _ => 1)) m0 (top h) in
    curvature (w u) K m0 (top h) -> 0 < J -> 0 <= e < 1 -> spline_error I h (w (fun _ => 1)) m0 e ->
    let t := over_mass (w u) m0 (top h) / J in
    let eta := (3 / 2 * K * dx ^ 2 * (ln (top h) - ln m0) / J + e * Rabs t) / (1 - e) in
    Rabs (P (d_k h i) - d_phc h (d_k h i) * t ^ 2) <= Rabs (d_phc h (d_k h i)) * (eta * (2 * Rabs t + eta)).
  Proof.
    intros P i u K e U L RH Hi H SU w J C J0 E SE t eta. rewrite (c61_exact I spline uspline hk h P i NE SD U L HI GK lm_grid Hi RH H). cbv zeta.
    rewrite (step_dx (d_nm h) (d_m h) m0 dx) by (auto; lia).
    rewrite (simpson_ext _ _ _ (fun im => d_m h im * w u (d_m h im))) by (intros im Li; unfold bias_integrand, w; rewrite SN, SB, SU by auto; ring).
    assert (S := mass_simpson (w u) K m0 dx (d_nm h) (d_m h) P0 DX LM ltac:(lia) N3 C). fold (top h) in S.
    unfold large_scale_quadrature. rewrite (arr_ext _ (bias_integrand h (fun _ => 1)) (fun im => d_m h im * w (fun _ => 1) (d_m h im))) by (intros im Li; unfold bias_integrand, w; rewrite SN, SB by auto; ring).
    unfold spline_error in SE. fold (top h). rewrite (first_mass (d_nm h) (d_m h) m0 dx) by (auto; lia). fold J in SE.
    rewrite <- Rmult_minus_distr_l, Rabs_mult. apply Rmult_le_compat_l; [apply Rabs_pos|]. apply (ratio_close _ _ _ J); auto.
    eapply Rle_trans; [exact S|]. right. field. lra.
  Qed.
  (** where the profile is 1 (large scales) this is the halo-centre power: what is left vanishes with the mass step and with the spline's error *)
  Theorem c143_large_scales : forall P i K e, d_unity h = true -> q_linear I -> d_rhoh h <> 0 -> (i < d_nk h)%nat -> power_2h_matter_noexcl I spline uspline hk h = Ok P ->
    sampled h (d_ukm h i) (fun _ => 1) -> let w m := n m * m * b m in let J := over_mass w m0 (top h) in
    curvature w K m0 (top h) -> 0 < J -> 0 <= e < 1 -> spline_error I h w m0 e ->
    let eta := (3 / 2 * K * dx ^ 2 * (ln (top h) - ln m0) / J + e) / (1 - e) in
    Rabs (P (d_k h i) - d_phc h (d_k h i)) <= Rabs (d_phc h (d_k h i)) * (eta * (2 + eta)).
  Proof.
    intros P i K e U L RH Hi H SU w J C J0 E SE eta.
    assert (EW : forall m, n m * m * b m * 1 = w m) by (intros; unfold w; ring).
    assert (OM : over_mass (fun m => n m * m * b m * 1) m0 (top h) = J) by (unfold J, over_mass; apply RInt_ext; intros; apply EW).
    assert (C' : curvature (fun m => n m * m * b m * 1) K m0 (top h)).
    { destruct C as [G1 [G2 C]]. exists G1, G2. intros x Hx. destruct (C x Hx) as [D1 D2]. split; auto. apply (is_derive_ext (fun y => exp y * w (exp y))); auto. intros y. now rewrite EW. }
    assert (SE' : spline_error I h (fun m => n m * m * b m * 1) m0 e).
    { unfold spline_error in *. rewrite OM. rewrite (arr_ext _ (fun i => d_m h i * (n (d_m h i) * d_m h i * b (d_m h i) * 1)) (fun i => d_m h i * w (d_m h i))) by (intros; now rewrite EW). exact SE. }
    assert (X := c143_two_halo_forced P i (fun _ => 1) K e U L RH Hi H SU). cbv zeta beta in X. rewrite OM in X. specialize (X C' J0 E SE').
    replace (J / J) with 1 in X by (field; lra). rewrite Rabs_R1, pow1, !Rmult_1_r in X. exact X.
  Qed.
  (** matter, with the bias left free *)
  Theorem c143_two_halo_free : forall P i u K, d_unity h = false -> d_rhoh h <> 0 -> (i < d_nk h)%nat -> power_2h_matter_noexcl I spline uspline hk h = Ok P ->
    sampled h (d_ukm h i) u -> let w m := n m * m * b m * u m in curvature w K m0 (top h) ->
    let t := over_mass w m0 (top h) / d_rhoh h in let eta := 3 / 2 * K * dx ^ 2 * (ln (top h) - ln m0) / Rabs (d_rhoh h) in
    Rabs (P (d_k h i) - d_phc h (d_k h i) * t ^ 2) <= Rabs (d_phc h (d_k h i)) * (eta * (2 * Rabs t + eta)).
  Proof.
    intros P i u K U RH Hi H SU w C t eta. rewrite (c61_unforced I spline uspline hk h P i NE SD U HI GK lm_grid Hi RH H).
    rewrite (step_dx (d_nm h) (d_m h) m0 dx) by (auto; lia).
    rewrite (simpson_ext _ _ _ (fun im => d_m h im * w (d_m h im))) by (intros im Li; unfold bias_integrand, w; rewrite SN, SB, SU by auto; ring).
    assert (S := mass_simpson w K m0 dx (d_nm h) (d_m h) P0 DX LM ltac:(lia) N3 C). fold (top h) in S.
    rewrite <- Rmult_minus_distr_l, Rabs_mult. apply Rmult_le_compat_l; [apply Rabs_pos|]. set (s := scipy_simpson _ _ _) in *.
    assert (RP : 0 < Rabs (d_rhoh h)) by now apply Rabs_pos_lt.
    assert (D : Rabs (s / d_rhoh h - t) <= eta).
    { unfold t. replace (s / d_rhoh h - over_mass w m0 (top h) / d_rhoh h) with ((s - over_mass w m0 (top h)) * / d_rhoh h) by (field; auto). rewrite Rabs_mult, Rabs_Rinv by auto. unfold eta. unfold Rdiv at 2. apply Rmult_le_compat_r; [left; now apply Rinv_0_lt_compat|exact S]. }
    replace ((s / d_rhoh h) ^ 2 - t ^ 2) with ((s / d_rhoh h - t) * (2 * t + (s / d_rhoh h - t))) by ring. rewrite Rabs_mult.
    apply Rmult_le_compat; try apply Rabs_pos; auto. eapply Rle_trans; [apply Rabs_triang|]. rewrite Rabs_mult, (Rabs_right 2) by lra. lra.
  Qed.
  (** a tracer whose occupation is integrated over the whole mass range *)
  Theorem c143_two_halo_tracer : forall t P i u K e, cut (t_hod t) = false -> q_linear I -> mean_tracer_den I h t <> 0 -> (i < d_nk h)%nat -> power_2h_tracer_noexcl I spline uspline hk h t = Ok P ->
    sampled h (t_ukm t i) u -> let N m := central_occupation (t_hod t) m + satellite_occupation (t_hod t) m in
    let w m := n m * b m * N m * u m in let d m := n m * N m in let J := over_mass d m0 (top h) in
    curvature w K m0 (top h) -> 0 < J -> 0 <= e < 1 -> spline_error I h d m0 e ->
    let s := over_mass w m0 (top h) / J in
    let eta := (3 / 2 * K * dx ^ 2 * (ln (top h) - ln m0) / J + e * Rabs s) / (1 - e) in
    Rabs (P (d_k h i) - d_phc h (d_k h i) * s ^ 2) <= Rabs (d_phc h (d_k h i)) * (eta * (2 * Rabs s + eta)).
  Proof.
    intros t P i u K e CU L MD Hi H SU N w d J C J0 E SE s eta.
    rewrite (auto_amplitude I spline uspline hk h t P i NE SD L HI GK Hi MD H).
    assert (TM : tracer_mmin (t_hod t) = None) by (unfold tracer_mmin; now rewrite CU).
    assert (TI : forall m, tot_int (t_hod t) m = N m) by (intros m; unfold tot_int, cen_int; now rewrite CU).
    assert (B : b_cross I h t i = scipy_simpson (d_nm h) dx (fun im => d_m h im * w (d_m h im))).
    { unfold b_cross. rewrite TM. rewrite (step_dx (d_nm h) (d_m h) m0 dx) by (auto; lia). apply simpson_ext. intros im Li. rewrite TI, SN, SB, SU by auto. unfold w. ring. }
    assert (D : mean_tracer_den I h t = I (arr (d_nm h) (fun i => ln (d_m h i))) (arr (d_nm h) (fun i => d_m h i * d (d_m h i))) (ln m0) (ln (top h))).
    { unfold mean_tracer_den, tint. rewrite TM, mint_eq by apply lm_grid. unfold lo_lim, hi_lim. fold (top h). rewrite (first_mass (d_nm h) (d_m h) m0 dx) by (auto; lia). f_equal.
      apply arr_ext. intros im Li. rewrite TI, SN by auto. reflexivity. }
    assert (S := mass_simpson w K m0 dx (d_nm h) (d_m h) P0 DX LM ltac:(lia) N3 C). fold (top h) in S. rewrite <- B in S. unfold spline_error in SE. rewrite <- D in SE. fold J in SE.
    rewrite (Rmult_comm _ (d_phc h (d_k h i))), <- Rmult_minus_distr_l, Rabs_mult. apply Rmult_le_compat_l; [apply Rabs_pos|]. apply (ratio_close _ _ _ J); auto.
    eapply Rle_trans; [exact S|]. right. field. lra.
  Qed.
End TwoHalo.
(** two tracers in two models, each integrated over its whole mass range: each amplitude has its own Simpson error *)
Lemma amplitude_error : forall I h t n b u K m0 dx i, cut (t_hod t) = false -> 0 < m0 -> 0 < dx -> (3 <= d_nm h)%nat -> log_masses (d_nm h) (d_m h) m0 dx ->
  sampled h (d_dndm h) n -> sampled h (d_bias h) b -> sampled h (t_ukm t i) u ->
  let w m := n m * b m * (central_occupation (t_hod t) m + satellite_occupation (t_hod t) m) * u m in curvature w K m0 (top h) ->
  Rabs (b_cross I h t i - over_mass w m0 (top h)) <= 3 / 2 * K * dx ^ 2 * (ln (top h) - ln m0).
Proof.
  intros I h t n b u K m0 dx i CU P0 DX N3 LM SN SB SU w C.
  assert (S := mass_simpson w K m0 dx (d_nm h) (d_m h) P0 DX LM ltac:(lia) N3 C). fold (top h) in S.
  replace (b_cross I h t i) with (scipy_simpson (d_nm h) dx (fun im => d_m h im * w (d_m h im))); [exact S|].
  unfold b_cross, tracer_mmin. rewrite CU. rewrite (step_dx (d_nm h) (d_m h) m0 dx) by (auto; lia). apply simpson_ext. intros im Li.
  unfold tot_int, cen_int. rewrite CU, SN, SB, SU by auto. unfold w. ring.
Qed.
Theorem c143_two_halo_cross : forall I h1 h2 t1 t2 i n1 n2 b1 b2 u1 u2 K1 K2 m1 m2 dx1 dx2,
  cut (t_hod t1) = false -> cut (t_hod t2) = false -> 0 < m1 -> 0 < m2 -> 0 < dx1 -> 0 < dx2 -> (3 <= d_nm h1)%nat -> (3 <= d_nm h2)%nat ->
  log_masses (d_nm h1) (d_m h1) m1 dx1 -> log_masses (d_nm h2) (d_m h2) m2 dx2 ->
  sampled h1 (d_dndm h1) n1 -> sampled h2 (d_dndm h2) n2 -> sampled h1 (d_bias h1) b1 -> sampled h2 (d_bias h2) b2 -> sampled h1 (t_ukm t1 i) u1 -> sampled h2 (t_ukm t2 i) u2 ->
  let w1 m := n1 m * b1 m * (central_occupation (t_hod t1) m + satellite_occupation (t_hod t1) m) * u1 m in
  let w2 m := n2 m * b2 m * (central_occupation (t_hod t2) m + satellite_occupation (t_hod t2) m) * u2 m in
  curvature w1 K1 m1 (top h1) -> curvature w2 K2 m2 (top h2) ->
  let B1 := over_mass w1 m1 (top h1) in let B2 := over_mass w2 m2 (top h2) in
  let e1 := 3 / 2 * K1 * dx1 ^ 2 * (ln (top h1) - ln m1) in let e2 := 3 / 2 * K2 * dx2 ^ 2 * (ln (top h2) - ln m2) in
  let c := d_phc h1 (d_k h1 i) / (mean_tracer_den I h1 t1 * mean_tracer_den I h2 t2) in
  Rabs (p2h_cross I h1 h2 t1 t2 i - B1 * B2 * c) <= Rabs c * (e1 * Rabs B2 + Rabs B1 * e2 + e1 * e2).
Proof.
  intros I h1 h2 t1 t2 i n1 n2 b1 b2 u1 u2 K1 K2 m1 m2 dx1 dx2 C1 C2 P1 P2 D1 D2 N1 N2 L1 L2 S1 S2 Z1 Z2 U1 U2 w1 w2 V1 V2 B1 B2 e1 e2 c.
  assert (X := amplitude_error I h1 t1 n1 b1 u1 K1 m1 dx1 i C1 P1 D1 N1 L1 S1 Z1 U1 V1). assert (Y := amplitude_error I h2 t2 n2 b2 u2 K2 m2 dx2 i C2 P2 D2 N2 L2 S2 Z2 U2 V2).
  fold w1 in X. fold w2 in Y. fold B1 in X. fold B2 in Y. fold e1 in X. fold e2 in Y. unfold p2h_cross. set (A1 := b_cross I h1 t1 i) in *. set (A2 := b_cross I h2 t2 i) in *.
  replace (A1 * A2 * d_phc h1 (d_k h1 i) / (mean_tracer_den I h1 t1 * mean_tracer_den I h2 t2) - B1 * B2 * c) with (c * ((A1 - B1) * B2 + B1 * (A2 - B2) + (A1 - B1) * (A2 - B2))) by (unfold c, Rdiv; ring).
  rewrite Rabs_mult. apply Rmult_le_compat_l; [apply Rabs_pos|]. assert (Q1 := Rabs_pos (A1 - B1)). assert (Q2 := Rabs_pos (A2 - B2)). assert (Q3 := Rabs_pos B1). assert (Q4 := Rabs_pos B2).
  eapply Rle_trans; [apply Rabs_triang|]. apply Rplus_le_compat; [eapply Rle_trans; [apply Rabs_triang|]; apply Rplus_le_compat|]; rewrite Rabs_mult; apply Rmult_le_compat; lra.
Qed.
Print Assumptions c143_two_halo_cross.

(** ** Simpson's rule over the mass itself *)
Lemma map_seq_shift : forall (A : Type) len (f : nat -> A) a, map f (seq a len) = map (fun i => f (a + i)%nat) (seq 0 len).
Proof.
  intros A. induction len as [|len IH]; intros f a; simpl; auto. f_equal; [f_equal; lia|]. rewrite (IH f (S a)), (IH (fun i => f (a + i)%nat) 1%nat). apply map_ext. intros. f_equal. lia.
Qed.
Lemma exp_INR_mult : forall k x, exp (INR k * x) = exp x ^ k.
Proof. induction k; intros x; [simpl; rewrite Rmult_0_l; apply exp_0|]. rewrite S_INR, Rmult_plus_distr_r, exp_plus, IHk, Rmult_1_l. simpl. ring. Qed.
(** the masses of a logarithmic grid between two of its indices *)
Lemma geo_logspace : forall n m m0 dx a len, log_masses n m m0 dx -> 0 < m0 -> (2 <= len)%nat -> (a + len <= n)%nat ->
  map m (seq a len) = logspace (m a) (m (a + len - 1)%nat) len.
Proof.
  intros n m m0 dx a len L P N A. unfold logspace, linspace. rewrite map_map, map_seq_shift. apply map_ext_in. intros i Hi. apply in_seq in Hi.
  assert (N1 : 0 < INR (len - 1)) by (apply lt_0_INR; lia). rewrite !L by lia. rewrite !ln_mult, !ln_exp by (auto; apply exp_pos).
  replace (a + len - 1)%nat with (a + (len - 1))%nat by lia. rewrite (plus_INR a (len - 1)), (plus_INR a i).
  replace (ln m0 + INR a * dx + INR i * ((ln m0 + (INR a + INR (len - 1)) * dx - (ln m0 + INR a * dx)) / INR (len - 1))) with (ln m0 + (INR a + INR i) * dx) by (field; lra).
  rewrite exp_plus, exp_ln by auto. reflexivity.
Qed.
Lemma geo_simpson : forall n m m0 dx a len f M, log_masses n m m0 dx -> 0 < m0 -> 0 < dx -> exp dx <= 2 -> (3 <= len)%nat -> (a + len <= n)%nat -> 0 <= M ->
  let lo := m a in let hi := m (a + len - 1)%nat in third_order f M lo hi ->
  Rabs (simpx (map m (seq a len)) (map f (map m (seq a len))) - over_mass f lo hi) <= 3 / 4 * M * exp dx ^ 4 * (exp dx - 1) ^ 3 * (sqrt hi - sqrt lo).
Proof.
  intros n m m0 dx a len f M L P DX Q N A HM lo hi [f1 [f2 [D1 [D2 D3]]]]. rewrite (geo_logspace n m m0 dx) by (auto; lia). fold lo hi.
  assert (EL : lo = m0 * exp (INR a * dx)) by (apply L; lia). assert (EH : hi = m0 * exp (INR (a + len - 1) * dx)) by (apply L; lia).
  assert (LP : 0 < lo) by (rewrite EL; apply Rmult_lt_0_compat; auto; apply exp_pos).
  assert (Q1 : 1 < exp dx) by (rewrite <- exp_0; now apply exp_increasing).
  apply (c139_log_grid f f1 f2 M lo hi len (exp dx)); auto.
  - split; auto. rewrite EL, EH. apply Rmult_lt_compat_l; auto. apply exp_increasing, Rmult_lt_compat_r; auto. apply lt_INR. lia.
  - rewrite EL, EH. replace (a + len - 1)%nat with (a + (len - 1))%nat by lia. rewrite plus_INR, Rmult_plus_distr_r, exp_plus. rewrite (exp_INR_mult (len - 1)). ring.
Qed.
(** the 1-halo cross power of two tracers whose pair counts are defined at every mass *)
Theorem c143_one_halo_cross : forall I h1 h2 t1 t2 c i n SS SC CS u1 u2 M m0 dx,
  (3 <= d_nm h1)%nat -> 0 < m0 -> 0 < dx -> exp dx <= 2 -> log_masses (d_nm h1) (d_m h1) m0 dx -> 0 <= M ->
  sampled h1 (d_dndm h1) n -> sampled h1 (t_ukm t1 i) u1 -> sampled h1 (t_ukm t2 i) u2 ->
  (forall j, (j < d_nm h1)%nat -> ss_cross_pairs c (d_m h1 j) = Some (SS (d_m h1 j)) /\ sc_cross_pairs c (d_m h1 j) = Some (SC (d_m h1 j)) /\ cs_cross_pairs c (d_m h1 j) = Some (CS (d_m h1 j))) ->
  let F m := n m * (u1 m * u2 m * SS m + u1 m * SC m + u2 m * CS m) in third_order F M m0 (top h1) ->
  let N := mean_tracer_den I h1 t1 * mean_tracer_den I h2 t2 in N <> 0 ->
  Rabs (p1h_cross I (fun y x => simpx x y) h1 h2 t1 t2 c i - over_mass F m0 (top h1) / N) <= 3 / 4 * M * exp dx ^ 4 * (exp dx - 1) ^ 3 * (sqrt (top h1) - sqrt m0) / Rabs N.
Proof.
  intros I h1 h2 t1 t2 c i n SS SC CS u1 u2 M m0 dx N3 P DX Q L HM SN S1 S2 PC F TO N N0.
  assert (KE : kept h1 c = seq 0 (d_nm h1)).
  { unfold kept. assert (E : forall l, (forall j, In j l -> okmass h1 c j = true) -> filter (okmass h1 c) l = l). { induction l as [|a l IH]; intros Hl; simpl; auto. rewrite Hl by (simpl; auto). f_equal. apply IH. intros; apply Hl; simpl; auto. }
    apply E. intros j Hj. apply in_seq in Hj. destruct (PC j ltac:(lia)) as [A [B C]]. unfold okmass. rewrite A, B, C. reflexivity. }
  assert (X := geo_simpson (d_nm h1) (d_m h1) m0 dx 0 (d_nm h1) F M L P DX Q N3 ltac:(lia) HM). cbv zeta in X. replace (0 + d_nm h1 - 1)%nat with (d_nm h1 - 1)%nat in X by lia. fold (top h1) in X.
  rewrite (first_mass (d_nm h1) (d_m h1) m0 dx) in X by (auto; lia). specialize (X TO).
  unfold p1h_cross. rewrite KE. fold N.
  rewrite (map_ext_in (integ1 h1 t1 t2 c i) (fun j => F (d_m h1 j))). 2: { intros j Hj. apply in_seq in Hj. destruct (PC j ltac:(lia)) as [A [B C]]. unfold integ1. rewrite A, B, C. unfold num, F. rewrite SN, S1, S2 by lia. reflexivity. }
  rewrite <- (map_map (d_m h1) F). set (s := simpx _ _) in *. set (J := over_mass F m0 (top h1)) in *.
  replace (s / N - J / N) with ((s - J) * / N) by (field; auto). rewrite Rabs_mult, Rabs_Rinv by auto. match goal with |- _ <= ?b / _ => change (Rabs (s - J) * / Rabs N <= b * / Rabs N) end.
  apply Rmult_le_compat_r; [left; apply Rinv_0_lt_compat; now apply Rabs_pos_lt|exact X].
Qed.
Print Assumptions c143_one_halo_cross.
(** the mean bias of the haloes of a mass range, as used by power_hh: the range is cut down to whole cells of the mass grid, by less than one cell at each end *)
Lemma convex_filter : forall (p : nat -> bool) n s, (forall i j k, (i < j < k)%nat -> p i = true -> p k = true -> p j = true) ->
  exists a len, filter p (seq s n) = seq a len /\ ((0 < len)%nat -> (s <= a)%nat /\ (a + len <= s + n)%nat).
Proof.
  intros p n. induction n as [|n IH]; intros s C; [exists 0%nat, 0%nat; split; [reflexivity|lia]|].
  destruct (IH (S s) C) as [a [len [E B]]]. simpl. destruct (p s) eqn:PS.
  - destruct len as [|len]; [exists s, 1%nat; rewrite E; split; [reflexivity|lia]|]. assert (AS : a = S s).
    { destruct (B ltac:(lia)) as [B1 B2]. destruct (Nat.eq_dec a (S s)); auto. exfalso. assert (PA : p a = true). { apply (proj1 (proj1 (filter_In p a (seq (S s) n)) ltac:(rewrite E; simpl; auto))) || (assert (X : In a (filter p (seq (S s) n))) by (rewrite E; simpl; auto); apply filter_In in X; apply X). }
      assert (PM : p (S s) = true) by (apply (C s (S s) a); auto; lia). assert (X : In (S s) (filter p (seq (S s) n))) by (apply filter_In; split; auto; apply in_seq; lia). rewrite E in X. apply in_seq in X. lia. }
    subst a. exists s, (S (S len)). rewrite E. split; [reflexivity|intros _; specialize (B ltac:(lia)); lia].
  - exists a, len. split; auto. intros Hl. specialize (B Hl). lia.
Qed.
Theorem c143_halo_bias : forall h n b m0 dx mn mx M1 M2, (1 <= d_nm h)%nat -> 0 < m0 -> 0 < dx -> exp dx <= 2 -> log_masses (d_nm h) (d_m h) m0 dx -> 0 <= M1 -> 0 <= M2 ->
  sampled h (d_dndm h) n -> sampled h (d_bias h) b -> m0 <= Rpower 10 mn -> Rpower 10 mn * exp (3 * dx) <= Rpower 10 mx -> Rpower 10 mx <= top h ->
  exists lo hi, Rpower 10 mn <= lo < Rpower 10 mn * exp dx /\ Rpower 10 mx * exp (- dx) < hi <= Rpower 10 mx /\
    (third_order (fun m => b m * n m) M1 lo hi -> third_order n M2 lo hi -> let J := over_mass n lo hi in 0 < J ->
     let g := 3 / 4 * exp dx ^ 4 * (exp dx - 1) ^ 3 * (sqrt hi - sqrt lo) / J in g * M2 < 1 -> let t := over_mass (fun m => b m * n m) lo hi / J in
     Rabs (get_b (fun y x => simpx x y) h mn mx - t) <= g * (M1 + Rabs t * M2) / (1 - g * M2)).
Proof.
  intros h n b m0 dx mn mx M1 M2 N1 P DX Q L HM1 HM2 SN SB LO WI HI. set (A := Rpower 10 mn) in *. set (B := Rpower 10 mx) in *. assert (A0 : 0 < A) by apply exp_pos.
  set (mm := fun k => m0 * exp (INR k * dx)). assert (E1 : 1 < exp dx) by (rewrite <- exp_0; now apply exp_increasing).
  assert (MS : forall k, mm (S k) = mm k * exp dx) by (intros k; unfold mm; rewrite S_INR, Rmult_plus_distr_r, exp_plus, Rmult_1_l; ring).
  assert (MP : forall k, 0 < mm k) by (intros; apply Rmult_lt_0_compat; auto; apply exp_pos).
  assert (MI : forall i j, (i < j)%nat -> mm i < mm j) by (intros i j H; apply Rmult_lt_compat_l; auto; apply exp_increasing, Rmult_lt_compat_r; auto; now apply lt_INR).
  assert (MLE : forall i j, (i <= j)%nat -> mm i <= mm j) by (intros i j H; destruct (Nat.eq_dec i j); [subst; lra|left; apply MI; lia]).
  assert (E3 : exp (3 * dx) = exp dx * exp dx * exp dx) by (rewrite <- !exp_plus; f_equal; ring).
  assert (ME : forall i, (i < d_nm h)%nat -> d_m h i = mm i) by (intros; now apply L).
  assert (TE : top h = mm (d_nm h - 1)%nat) by (apply ME; lia).
  assert (FIRST : forall k, A <= mm k -> exists i, (i <= k)%nat /\ A <= mm i < A * exp dx).
  { induction k as [|k IH]; intros Hk.
    - exists 0%nat. split; auto. split; auto. assert (mm 0%nat = m0) by (unfold mm; simpl; rewrite Rmult_0_l, exp_0; ring). nra.
    - destruct (Rle_lt_dec A (mm k)) as [H|H]; [destruct (IH H) as [i [I1 I2]]; exists i; split; auto|]. exists (S k). split; auto. split; auto. rewrite MS. nra. }
  assert (E31 : 1 <= exp dx * exp dx * exp dx) by nra. assert (AB : A <= B) by nra.
  destruct (FIRST (d_nm h - 1)%nat ltac:(lra)) as [i [I1 I2]].
  assert (J1 := MS i). assert (J2 := MS (S i)). assert (J3 : mm (S (S i)) < B) by (rewrite J2, J1; nra).
  assert (IN : (S (S i) < d_nm h)%nat). { destruct (Nat.lt_ge_cases (S (S i)) (d_nm h)); auto. exfalso. assert (mm (d_nm h - 1)%nat <= mm (S (S i))) by (apply MLE; lia). lra. }
  set (p := fun i => Rleb A (d_m h i) && Rleb (d_m h i) B).
  assert (PT : forall k, (k < d_nm h)%nat -> p k = true <-> A <= mm k <= B).
  { intros k Hk. unfold p. rewrite (ME k Hk), andb_true_iff, !Rleb_spec. tauto. }
  destruct (convex_filter (fun i => p i && (i <? d_nm h)%nat) (d_nm h) 0) as [a [len [E HB]]].
  { intros x y z H1 H2 H3. apply andb_true_iff in H2. apply andb_true_iff in H3. destruct H2 as [H2 X2], H3 as [H3 X3]. apply Nat.ltb_lt in X2. apply Nat.ltb_lt in X3. apply PT in H2; auto. apply PT in H3; auto.
    apply andb_true_iff. split; [|apply Nat.ltb_lt; lia]. apply PT; [lia|]. assert (mm x < mm y) by (apply MI; lia). assert (mm y < mm z) by (apply MI; lia). lra. }
  assert (SE : sel h mn mx = seq a len).
  { rewrite <- E. unfold sel. fold A B. apply filter_ext_in. intros k Hk. apply in_seq in Hk. fold (p k). replace (k <? d_nm h)%nat with true by (symmetry; apply Nat.ltb_lt; lia). now rewrite andb_true_r. }
  assert (IS : forall k, In k (seq a len) <-> (k < d_nm h)%nat /\ A <= mm k <= B).
  { intros k. rewrite <- E, filter_In, in_seq, andb_true_iff, Nat.ltb_lt. split; [intros [H1 [H2 H3]]; split; auto; now apply PT|intros [H1 H2]; split; [lia|split; auto; now apply PT]]. }
  assert (I_0 : In i (seq a len)) by (apply IS; split; [lia|]; assert (mm i < mm (S (S i))) by (apply MI; lia); lra).
  assert (I_2 : In (S (S i)) (seq a len)) by (apply IS; split; [lia|]; assert (mm i < mm (S (S i))) by (apply MI; lia); lra).
  apply in_seq in I_0. apply in_seq in I_2. assert (LEN : (3 <= len)%nat) by lia. destruct (HB ltac:(lia)) as [_ HB2]. simpl in HB2.
  assert (AA : A <= mm a <= B) by (apply IS; apply in_seq; lia). assert (AZ : A <= mm (a + len - 1)%nat <= B) by (apply IS; apply in_seq; lia).
  exists (mm a), (mm (a + len - 1)%nat). split; [|split].
  - split; [lra|]. eapply Rle_lt_trans; [apply (MLE a i); lia|lra].
  - split; [|lra]. apply (Rmult_lt_reg_r (exp dx)); [lra|]. rewrite Rmult_assoc, <- exp_plus, Rplus_opp_l, exp_0, Rmult_1_r, <- MS. replace (S (a + len - 1)) with (a + len)%nat by lia.
    destruct (Rlt_le_dec B (mm (a + len)%nat)) as [H|H]; auto. exfalso. destruct (Nat.lt_ge_cases (a + len) (d_nm h)) as [H1|H1].
    + assert (X : In (a + len)%nat (seq a len)) by (apply IS; split; auto; split; auto; assert (mm a <= mm (a + len)%nat) by (apply MLE; lia); lra). apply in_seq in X. lia.
    + assert (mm (d_nm h - 1)%nat < mm (a + len)%nat) by (apply MI; lia). lra.
  - intros T1 T2 J J0 g G1 t. unfold get_b. rewrite SE.
    assert (EA : d_m h a = mm a) by (apply ME; lia). assert (EZ : d_m h (a + len - 1)%nat = mm (a + len - 1)%nat) by (apply ME; lia). rewrite <- EA, <- EZ in T1, T2.
    assert (X1 := geo_simpson (d_nm h) (d_m h) m0 dx a len _ M1 L P DX Q LEN HB2 HM1 T1). assert (X2 := geo_simpson (d_nm h) (d_m h) m0 dx a len _ M2 L P DX Q LEN HB2 HM2 T2). cbv zeta in X1, X2.
    rewrite EA, EZ in X1, X2. fold J in X2.
    rewrite (map_ext_in (fun i => d_bias h i * d_dndm h i) (fun j => (fun m => b m * n m) (d_m h j))) by (intros j Hj; apply in_seq in Hj; rewrite SN, SB by lia; reflexivity).
    rewrite (map_ext_in (d_dndm h) (fun j => n (d_m h j))) by (intros j Hj; apply in_seq in Hj; rewrite SN by lia; reflexivity).
    rewrite <- (map_map (d_m h) (fun m => b m * n m)), <- (map_map (d_m h) n). set (S1 := simpx _ (map (fun m => b m * n m) _)) in *. set (S2 := simpx _ (map n _)) in *.
    set (A1 := over_mass (fun m => b m * n m) (mm a) (mm (a + len - 1)%nat)) in *. set (r := sqrt (mm (a + len - 1)%nat) - sqrt (mm a)) in *.
    assert (GJ : forall M, 3 / 4 * M * exp dx ^ 4 * (exp dx - 1) ^ 3 * r = g * M * J) by (intros; unfold g; field; lra). rewrite GJ in X1, X2. clearbody S1 S2 A1 g.
    assert (TA : A1 = t * J) by (unfold t; field; lra). assert (SL : (1 - g * M2) * J <= S2) by (apply Rabs_le_between in X2; lra). assert (SP : 0 < S2) by (assert (0 < (1 - g * M2) * J) by (apply Rmult_lt_0_compat; lra); lra).
    assert (Bn : Rabs (S1 - t * S2) <= g * (M1 + Rabs t * M2) * J).
    { replace (S1 - t * S2) with ((S1 - A1) + t * (J - S2)) by (rewrite TA; ring). eapply Rle_trans; [apply Rabs_triang|]. rewrite Rabs_mult, (Rabs_minus_sym J S2). assert (Rabs t * Rabs (S2 - J) <= Rabs t * (g * M2 * J)) by (apply Rmult_le_compat_l; [apply Rabs_pos|auto]). lra. }
    assert (NN : 0 <= g * (M1 + Rabs t * M2)). { assert (0 <= g * (M1 + Rabs t * M2) * J) by (eapply Rle_trans; [apply Rabs_pos|exact Bn]). destruct (Rle_dec 0 (g * (M1 + Rabs t * M2))); auto. exfalso. assert (g * (M1 + Rabs t * M2) * J < 0) by nra. lra. }
    replace (S1 / S2 - t) with ((S1 - t * S2) / S2) by (field; lra). unfold Rdiv at 1. rewrite Rabs_mult, (Rabs_right (/ S2)) by (left; now apply Rinv_0_lt_compat).
    apply (Rmult_le_reg_r S2); auto. rewrite Rmult_assoc, Rinv_l, Rmult_1_r by lra. eapply Rle_trans; [exact Bn|].
    apply (Rmult_le_reg_r (1 - g * M2)); [lra|]. replace (g * (M1 + Rabs t * M2) / (1 - g * M2) * S2 * (1 - g * M2)) with (g * (M1 + Rabs t * M2) * S2) by (field; lra).
    rewrite Rmult_assoc. apply Rmult_le_compat_l; auto. lra.
Qed.
Print Assumptions c143_halo_bias.

(** a concrete case: dn/dm = m^-3, unit bias, 21 masses from 1 to e^2 *)
Definition I143 : quadrature := fun _ y _ _ => nth 0 y 0 * (1 - exp (-2)).
Definition h143 : dmhm := mkDM 21 (fun i => exp (INR i * (1 / 10))) (fun i => / exp (INR i * (1 / 10)) ^ 3) (fun _ => 1) (/ (10 * ln 10)) 2 (fun i => INR (S i)) [1] (fun _ => 1) (fun _ => 1) (fun _ => 1)
  Linear 2 (fun i => INR (S i)) (fun _ _ => 1) (Some (fun _ _ => 1)) 1 1 200 true true true None.
Lemma top143 : top h143 = exp 2.
Proof. unfold top. cbn [d_nm d_m h143 Nat.sub]. f_equal. replace (INR 20) with 20 by (rewrite INR_IZR_INZ; reflexivity). lra. Qed.
Lemma exp_m2 : 0 < exp (-2) <= 1 / 4.
Proof.
  split; [apply exp_pos|]. assert (A : 2 <= exp 1) by (assert (X := exp_ineq1_le 1); lra). assert (B : exp (-2) = / (exp 1 * exp 1)) by (rewrite <- exp_plus, <- exp_Ropp; f_equal; lra).
  rewrite B. replace (1 / 4) with (/ 4) by lra. apply Rinv_le_contravar; [lra|nra].
Qed.
Lemma lm143 : log_masses (d_nm h143) (d_m h143) 1 (1 / 10).
Proof. intros i _. cbn [d_m h143]. ring. Qed.
Lemma inv143 : forall z, 0 < z -> / z = z * (/ z ^ 3 * z * 1).
Proof. intros. field. lra. Qed.
Lemma cur143 : curvature (fun m => / m ^ 3 * m * 1) 1 1 (top h143).
Proof.
  exists (fun x => - exp (- x)), (fun x => exp (- x)). rewrite top143, ln_1, ln_exp. intros x Hx. split; [|split].
  - apply (is_derive_ext (fun y => exp (- y))).
    + intros y. rewrite exp_Ropp. exact (inv143 _ (exp_pos y)).
    + auto_derive; auto. ring.
  - auto_derive; auto. ring.
  - rewrite Rabs_right by (left; apply exp_pos). rewrite <- exp_0. destruct (Req_dec x 0) as [->|N]; [rewrite Ropp_0; lra|]. left. apply exp_increasing. lra.
Qed.
Lemma int143 : over_mass (fun m => / m ^ 3 * m * 1) 1 (top h143) = 1 - exp (-2).
Proof.
  rewrite (over_mass_log _ 1) by (rewrite ?top143; auto using cur143; try (rewrite <- exp_0 at 2; split; [lra|left; apply exp_increasing; lra]); rewrite <- top143; apply cur143).
  rewrite top143, ln_1, ln_exp. apply is_RInt_unique. replace (1 - exp (-2)) with (- exp (-2) - - exp (- 0)) by (rewrite Ropp_0, exp_0; ring).
  apply (is_RInt_ext (fun y => exp (- y))). { intros y _. rewrite exp_Ropp. exact (inv143 _ (exp_pos y)). }
  replace (-2) with (- (2)) by lra. apply (ftc (fun y => - exp (- y)) (fun y => exp (- y))); [lra| |].
  - intros y _. auto_derive; auto. ring.
  - intros y _. apply (ex_derive_continuous (K := R_AbsRing) (V := R_NormedModule)). auto_derive. auto.
Qed.
Example c143_nonvacuous : exists P, power_2h_matter_noexcl I143 (fun _ => linterp) (fun _ _ _ => 0) (fun _ _ _ => 0) h143 = Ok P /\ Rabs (P 1 - 1) <= 1 / 10.
Proof.
  assert (G : grid (d_nk h143) (d_k h143)). { split; [simpl; lia|]. split; [intros i _; apply (lt_0_INR (S i)); lia|]. intros i j Hij. apply (lt_INR (S i) (S j)). lia. }
  destruct (c98_matter_total I143 (fun _ => linterp) (fun _ _ _ => 0) (fun _ _ _ => 0) h143 G G eq_refl eq_refl) as [_ [[P HP] _]]. exists P. split; [exact HP|].
  assert (X := c143_large_scales I143 (fun _ => linterp) (fun _ _ _ => 0) (fun _ _ _ => 0) h143 (fun m => / m ^ 3) (fun _ => 1) 1 (1 / 10) eq_refl eq_refl interpolates_linterp G
    ltac:(lra) ltac:(lra) ltac:(simpl; lia) lm143 ltac:(intros i _; reflexivity) ltac:(intros i _; reflexivity) P 0%nat 1 0 eq_refl).
  cbv zeta beta in X. assert (J := int143). assert (E := exp_m2). rewrite J in X.
  assert (QL : q_linear I143). { intros n x f g c a b. unfold I143, arr. destruct n; simpl; ring. }
  assert (SE : spline_error I143 h143 (fun m => / m ^ 3 * m * 1) 1 0).
  { unfold spline_error. rewrite J. unfold I143. cbn [arr d_nm d_m h143 seq map nth]. change (INR 0) with 0. rewrite Rmult_0_l, exp_0. match goal with |- Rabs ?a <= _ => replace a with 0 by (field; lra) end. rewrite Rabs_R0. lra. }
  specialize (X QL ltac:(simpl; lra) ltac:(simpl; lia) HP ltac:(intros i _; reflexivity) cur143 ltac:(lra) ltac:(lra) SE). rewrite top143, ln_1, ln_exp in X. cbn [d_k d_phc h143] in X. change (INR 1) with 1 in X. rewrite Rabs_R1 in X.
  set (eta := (3 / 2 * 1 * (1 / 10) ^ 2 * (2 - 0) / (1 - exp (-2)) + 0) / (1 - 0)) in X.
  assert (B : 0 <= eta <= 4 / 100).
  { unfold eta. assert (I4 : 0 < / (1 - exp (-2)) <= 4 / 3). { split; [apply Rinv_0_lt_compat; lra|]. replace (4 / 3) with (/ (3 / 4)) by lra. apply Rinv_le_contravar; lra. }
    replace ((3 / 2 * 1 * (1 / 10) ^ 2 * (2 - 0) / (1 - exp (-2)) + 0) / (1 - 0)) with (3 / 100 * / (1 - exp (-2))) by (field; lra). lra. }
  clearbody eta. nra.
Qed.
Print Assumptions c143_two_halo_forced.
Print Assumptions c143_large_scales.
Print Assumptions c143_two_halo_tracer.
