(** C154: a sample made of two sub-samples, statistics of the whole against those of its parts. *)
From Coq Require Import String Reals Lra Lia Bool Psatz List Arith.
From Verif Require Import Model.RBool Model.SpecialFn Model.Profiles Model.SplineInt Model.ExtSpline Model.Quad Model.Exclusion Model.HOD Model.HaloModel Model.Cross.
From Verif Require Import Spec.HMSpec Proofs.HODProofs Proofs.HMProofs Proofs.ExtSplineProofs Props.HODProps Props.HaloModelProps Props.HaloModelProps2 Props.CauchySchwarzProps Props.CrossProps Props.FindMminProps Props.HMTotalProps.
Import ListNotations.
Local Open Scope R_scope.

(** the tracer [t] counts the galaxies of [t1] and of [t2], which follow the same profile, and no mass integral of the three is cut *)
Definition sample_of (h : dmhm) (t t1 t2 : tracer) : Prop :=
  (forall i, (i < d_nm h)%nat -> let m := d_m h i in
     central_occupation (t_hod t) m = central_occupation (t_hod t1) m + central_occupation (t_hod t2) m /\
     satellite_occupation (t_hod t) m = satellite_occupation (t_hod t1) m + satellite_occupation (t_hod t2) m) /\
  (forall ik i, t_ukm t1 ik i = t_ukm t ik i /\ t_ukm t2 ik i = t_ukm t ik i) /\
  tracer_mmin (t_hod t) = None /\ tracer_mmin (t_hod t1) = None /\ tracer_mmin (t_hod t2) = None.

Lemma mint_pos_any : forall I h f x, q_positive I -> q_zero_outside I -> grid (d_nm h) (d_m h) -> match x with Some v => 0 < v | None => True end ->
  (forall i, (i < d_nm h)%nat -> 0 <= f i) -> 0 <= mint I h f x.
Proof.
  intros I h f x P Z G X F. destruct x as [x|]; [|apply mint_pos; auto; exact Logic.I].
  destruct (Rle_dec x (d_m h (d_nm h - 1)%nat)) as [H|H]; [apply mint_pos; auto; split; auto|].
  assert (N : (0 < d_nm h)%nat) by apply G. assert (PM : 0 < d_m h (d_nm h - 1)%nat) by (apply G; lia).
  rewrite mint_eq by auto. unfold lo_lim. destruct (Z (arr (d_nm h) (fun i => ln (d_m h i))) (arr (d_nm h) (fun i => d_m h i * f i)) (hi_lim h)) as [_ Z2].
  destruct (grid_ln _ _ G) as [_ L]. change arr with tab in *. rewrite L in Z2. rewrite Z2; [lra| |unfold hi_lim; lra]. left. apply ln_increasing; lra.
Qed.
Lemma cauchy_schwarz_any : forall I h x (w f g : nat -> R), q_linear I -> q_positive I -> q_zero_outside I -> grid (d_nm h) (d_m h) -> match x with Some v => 0 < v | None => True end ->
  (forall i, (i < d_nm h)%nat -> 0 <= w i) ->
  mint I h (fun i => w i * (f i * g i)) x ^ 2 <= mint I h (fun i => w i * f i ^ 2) x * mint I h (fun i => w i * g i ^ 2) x.
Proof.
  intros I h x w f g L P Z G X W. apply discriminant.
  - apply mint_pos_any; auto. intros i Hi. apply Rmult_le_pos; auto. apply pow2_ge_0.
  - intros l. assert (Q : 0 <= mint I h (fun i => w i * (l * f i + g i) ^ 2) x) by (apply mint_pos_any; auto; intros i Hi; apply Rmult_le_pos; auto; apply pow2_ge_0).
    rewrite (mint_ext I h _ (fun i => (w i * g i ^ 2 + (2 * l) * (w i * (f i * g i))) + l ^ 2 * (w i * f i ^ 2))) in Q by (intros; ring).
    rewrite (mint_lin I h (fun i => w i * g i ^ 2 + (2 * l) * (w i * (f i * g i))) (fun i => w i * f i ^ 2) (l ^ 2) x L G) in Q.
    rewrite (mint_lin I h (fun i => w i * g i ^ 2) (fun i => w i * (f i * g i)) (2 * l) x L G) in Q. lra.
Qed.
Lemma simpson_plus : forall n dx f g, scipy_simpson n dx (fun i => f i + g i) = scipy_simpson n dx f + scipy_simpson n dx g.
Proof.
  intros. unfold scipy_simpson, sum_over. assert (E : forall l, lsum (map (fun i => scipy_simpson_weight n i * (f i + g i)) l) = lsum (map (fun i => scipy_simpson_weight n i * f i) l) + lsum (map (fun i => scipy_simpson_weight n i * g i) l)).
  { unfold lsum. induction l; simpl; [ring|]. rewrite IHl. ring. } rewrite E. ring.
Qed.
Lemma sqrt_split : forall a b c, 0 <= a -> 0 <= b -> 0 <= c -> c ^ 2 <= a * b -> sqrt (a + 2 * c + b) <= sqrt a + sqrt b.
Proof.
  intros a b c A B C H. assert (SA := sqrt_pos a). assert (SB := sqrt_pos b). apply Rsqr_incr_0_var; [|lra]. unfold Rsqr. rewrite sqrt_sqrt by lra.
  assert (E1 := sqrt_sqrt a A). assert (E2 := sqrt_sqrt b B). assert (c <= sqrt a * sqrt b).
  { rewrite <- sqrt_mult by auto. rewrite <- (sqrt_pow2 c C). apply sqrt_le_1_alt. exact H. } nra.
Qed.

Section Composite.
  Variables (I : quadrature) (spline : nat -> list R -> list R -> R -> R) (uspline : list R -> list R -> R -> R) (hankel : tmode -> (R -> R) -> R -> R).
  Variables (h : dmhm) (t t1 t2 : tracer).
  Hypothesis LI : q_linear I.
  Hypothesis HI : interpolates (spline 3%nat).
  Hypothesis GM : grid (d_nm h) (d_m h).
  Hypothesis GK : grid (d_nk h) (d_k h).
  Hypothesis SO : sample_of h t t1 t2.
  Notation n := (mean_tracer_den I h t).
  Notation n1 := (mean_tracer_den I h t1).
  Notation n2 := (mean_tracer_den I h t2).

  Lemma uncut : forall x, tracer_mmin (t_hod x) = None -> forall m, cen_int (t_hod x) m = central_occupation (t_hod x) m.
  Proof. intros x H m. unfold tracer_mmin in H. unfold cen_int. destruct (cut (t_hod x)); [discriminate|reflexivity]. Qed.
  Lemma parts : forall i, (i < d_nm h)%nat -> let m := d_m h i in
    cen_int (t_hod t) m = cen_int (t_hod t1) m + cen_int (t_hod t2) m /\ satellite_occupation (t_hod t) m = satellite_occupation (t_hod t1) m + satellite_occupation (t_hod t2) m /\
    tot_int (t_hod t) m = tot_int (t_hod t1) m + tot_int (t_hod t2) m.
  Proof.
    intros i Hi m. destruct SO as [O [_ [N [N1 N2]]]]. destruct (O i Hi) as [C S]. unfold tot_int. rewrite !uncut by auto. unfold m. rewrite C, S. split; auto. split; auto. ring.
  Qed.
  Lemma uk1 : forall ik i, t_ukm t1 ik i = t_ukm t ik i. Proof. intros. now apply SO. Qed.
  Lemma uk2 : forall ik i, t_ukm t2 ik i = t_ukm t ik i. Proof. intros. now apply SO. Qed.
  Lemma tint_parts : forall f f1 f2, (forall i, (i < d_nm h)%nat -> f i = f1 i + f2 i) -> tint I h t f = tint I h t1 f1 + tint I h t2 f2.
  Proof.
    intros f f1 f2 F. unfold tint. destruct SO as [_ [_ [-> [-> ->]]]]. rewrite <- mint_plus by auto. now apply mint_ext.
  Qed.
  Lemma den_parts : n = n1 + n2.
  Proof. unfold mean_tracer_den. apply tint_parts. intros i Hi. destruct (parts i Hi) as [_ [_ ->]]. ring. Qed.
  Hypothesis NZ : n <> 0.
  Hypothesis NZ1 : n1 <> 0.
  Hypothesis NZ2 : n2 <> 0.

  (** density, bias, satellite and central counts, mass *)
  Theorem c154_statistics :
    n = n1 + n2 /\ n * bias_effective_tracer I h t = n1 * bias_effective_tracer I h t1 + n2 * bias_effective_tracer I h t2 /\
    n * satellite_fraction I h t = n1 * satellite_fraction I h t1 + n2 * satellite_fraction I h t2 /\
    n * central_fraction I h t = n1 * central_fraction I h t1 + n2 * central_fraction I h t2.
  Proof.
    assert (D := den_parts). split; auto.
    assert (E : forall x y, y <> 0 -> y * (x / y) = x) by (intros; field; auto).
    assert (S : n * satellite_fraction I h t = n1 * satellite_fraction I h t1 + n2 * satellite_fraction I h t2).
    { unfold satellite_fraction. rewrite !E by auto. apply tint_parts. intros i Hi. destruct (parts i Hi) as [_ [-> _]]. ring. }
    split; [|split; auto; unfold central_fraction; rewrite !Rmult_minus_distr_l, S; rewrite D at 1; ring].
    unfold bias_effective_tracer. rewrite !E by auto. apply tint_parts. intros i Hi. destruct (parts i Hi) as [_ [_ ->]]. ring.
  Qed.
  (** power of ten of the effective masses *)
  Theorem c154_mass : q_positive I -> (forall i, (i < d_nm h)%nat -> 0 < d_dndm h i) ->
    (forall x, x = t1 \/ x = t2 -> 0 < mean_tracer_den I h x /\ forall i, (i < d_nm h)%nat -> 0 <= total_occupation (t_hod x) (d_m h i)) ->
    n * pow10 (mass_effective I h t) = n1 * pow10 (mass_effective I h t1) + n2 * pow10 (mass_effective I h t2).
  Proof.
    intros PI_ DN X. destruct SO as [_ [_ [N [N1 N2]]]].
    assert (K : forall x, tracer_mmin (t_hod x) = None -> 0 < mean_tracer_den I h x -> (forall i, (i < d_nm h)%nat -> 0 <= total_occupation (t_hod x) (d_m h i)) ->
      mean_tracer_den I h x * pow10 (mass_effective I h x) = tint I h x (fun i => d_m h i * d_dndm h i * tot_int (t_hod x) (d_m h i))).
    { intros x NX DX TX. set (T := tint I h x _). assert (TE : forall m, tot_int (t_hod x) m = total_occupation (t_hod x) m) by (intros; unfold tot_int; rewrite uncut by auto; reflexivity).
      assert (W : forall i, (i < d_nm h)%nat -> 0 <= d_dndm h i * tot_int (t_hod x) (d_m h i)) by (intros i Hi; rewrite TE; specialize (DN i Hi); specialize (TX i Hi); apply Rmult_le_pos; lra).
      assert (A := average_bounds I h x (d_m h) (d_m h 0%nat) (d_m h (d_nm h - 1)%nat) LI PI_ GM). rewrite NX in A. specialize (A Logic.I DX).
      assert (B : forall i, (i < d_nm h)%nat -> 0 <= weight h x i /\ d_m h 0%nat <= d_m h i <= d_m h (d_nm h - 1)%nat).
      { intros i Hi. repeat split; [now apply W|apply (grid_mono (d_nm h)); auto; lia|apply (grid_mono (d_nm h)); auto; lia]. }
      specialize (A B). destruct A as [A _]. assert (M0 : 0 < d_m h 0%nat) by (apply GM; apply GM).
      assert (TE2 : tint I h x (fun i => weight h x i * d_m h i) = T) by (unfold T, tint; apply mint_ext; intros; unfold weight; ring). rewrite TE2 in A.
      unfold mass_effective. fold T. set (q := T / mean_tracer_den I h x) in *. assert (Q : 0 < q) by lra.
      unfold pow10, Rpower. assert (L10 : 0 < ln 10) by (rewrite <- ln_1; apply ln_increasing; lra). replace (ln q / ln 10 * ln 10) with (ln q) by (field; lra). rewrite exp_ln by auto. unfold q. field. lra. }
    destruct (X t1 (or_introl eq_refl)) as [D1 O1]. destruct (X t2 (or_intror eq_refl)) as [D2 O2].
    rewrite (K t1), (K t2) by auto. rewrite K; auto.
    - apply tint_parts. intros i Hi. destruct (parts i Hi) as [_ [_ ->]]. ring.
    - rewrite den_parts. lra.
    - intros i Hi. destruct SO as [O _]. destruct (O i Hi) as [C S]. specialize (O1 i Hi). specialize (O2 i Hi). unfold total_occupation in *. rewrite C, S. lra.
  Qed.

  (** tracer-matter power at the tabulated wavenumbers *)
  Theorem c154_tracer_matter : forall ik p p1 p2 q q1 q2, (ik < d_nk h)%nat -> d_rho0 h <> 0 ->
    power_1h_tm I spline uspline h t = Ok p -> power_1h_tm I spline uspline h t1 = Ok p1 -> power_1h_tm I spline uspline h t2 = Ok p2 ->
    power_2h_tm I spline uspline h t = Ok q -> power_2h_tm I spline uspline h t1 = Ok q1 -> power_2h_tm I spline uspline h t2 = Ok q2 ->
    n * p (d_k h ik) = n1 * p1 (d_k h ik) + n2 * p2 (d_k h ik) /\ n * q (d_k h ik) = n1 * q1 (d_k h ik) + n2 * q2 (d_k h ik).
  Proof.
    intros ik p p1 p2 q q1 q2 Hk R0 P P1 P2 Q Q1 Q2. unfold power_1h_tm in P, P1, P2. unfold power_2h_tm in Q, Q1, Q2.
    rewrite (efun_node _ _ _ _ _ _ _ _ _ _ HI GK Hk P), (efun_node _ _ _ _ _ _ _ _ _ _ HI GK Hk P1), (efun_node _ _ _ _ _ _ _ _ _ _ HI GK Hk P2),
      (efun_node _ _ _ _ _ _ _ _ _ _ HI GK Hk Q), (efun_node _ _ _ _ _ _ _ _ _ _ HI GK Hk Q1), (efun_node _ _ _ _ _ _ _ _ _ _ HI GK Hk Q2).
    assert (T : forall i, (i < d_nm h)%nat -> tcen h t ik i = tcen h t1 ik i + tcen h t2 ik i).
    { intros i Hi. unfold tcen. destruct (parts i Hi) as [-> [-> _]]. rewrite uk1, uk2. ring. }
    assert (E : forall X y, y <> 0 -> y * (X / (y * d_rho0 h)) = X / d_rho0 h) by (intros; field; auto). split.
    - unfold p1h_tm. rewrite !E by auto. rewrite (tint_parts _ (fun im => d_dndm h im * d_m h im * d_ukm h ik im * tcen h t1 ik im) (fun im => d_dndm h im * d_m h im * d_ukm h ik im * tcen h t2 ik im)); [field; auto|].
      intros i Hi. rewrite T by auto. ring.
    - unfold p2h_tm. rewrite !E by auto. unfold bt_tm. rewrite (tint_parts _ (fun im => d_dndm h im * d_bias h im * tcen h t1 ik im) (fun im => d_dndm h im * d_bias h im * tcen h t2 ik im)); [field; auto|].
      intros i Hi. rewrite T by auto. ring.
  Qed.

  (** 2-halo power: the auto powers of the parts and twice their cross power, weighted by densities *)
  Theorem c154_two_halo : forall ik P P1 P2 X, (ik < d_nk h)%nat -> d_noexcl h = true -> d_sd h = None ->
    power_2h_tracer_noexcl I spline uspline hankel h t = Ok P -> power_2h_tracer_noexcl I spline uspline hankel h t1 = Ok P1 -> power_2h_tracer_noexcl I spline uspline hankel h t2 = Ok P2 ->
    power_2h_cross I spline uspline h h t1 t2 = Ok X ->
    n ^ 2 * P (d_k h ik) = n1 ^ 2 * P1 (d_k h ik) + 2 * n1 * n2 * X (d_k h ik) + n2 ^ 2 * P2 (d_k h ik).
  Proof.
    intros ik P P1 P2 X Hk NX SD HP H1 H2 HX. rewrite (auto_amplitude I spline uspline hankel h t P ik), (auto_amplitude I spline uspline hankel h t1 P1 ik), (auto_amplitude I spline uspline hankel h t2 P2 ik) by auto.
    unfold power_2h_cross in HX. rewrite (efun_node _ _ _ _ _ _ _ _ _ _ HI GK Hk HX). unfold p2h_cross.
    assert (B : b_cross I h t ik = b_cross I h t1 ik + b_cross I h t2 ik).
    { unfold b_cross. cbv zeta. destruct SO as [_ [_ [-> [-> ->]]]]. rewrite <- simpson_plus. apply Props.HaloModelProps.simpson_ext. intros i Hi. destruct (parts i Hi) as [_ [_ ->]]. rewrite uk1, uk2. ring. }
    rewrite B. field. auto.
  Qed.

  (** 1-halo satellite power: between the parts added incoherently and coherently *)
  Theorem c154_satellite_pairs : forall ik p p1 p2, (ik < d_nk h)%nat -> q_positive I -> q_zero_outside I ->
    (forall x, In x [t; t1; t2] -> 0 < h_mmin (t_hod x) <= d_m h 0%nat) -> 0 < n1 -> 0 < n2 ->
    (forall i, (i < d_nm h)%nat -> 0 <= d_dndm h i /\ 0 <= satellite_occupation (t_hod t1) (d_m h i) /\ 0 <= satellite_occupation (t_hod t2) (d_m h i)) ->
    power_1h_ss I spline uspline h t = Ok p -> power_1h_ss I spline uspline h t1 = Ok p1 -> power_1h_ss I spline uspline h t2 = Ok p2 ->
    n1 ^ 2 * p1 (d_k h ik) + n2 ^ 2 * p2 (d_k h ik) <= n ^ 2 * p (d_k h ik) /\
    n * sqrt (p (d_k h ik)) <= n1 * sqrt (p1 (d_k h ik)) + n2 * sqrt (p2 (d_k h ik)).
  Proof.
    intros ik p p1 p2 Hk PQ ZQ MM D1 D2 NN P P1 P2. unfold power_1h_ss in P, P1, P2.
    rewrite (efun_node _ _ _ _ _ _ _ _ _ _ HI GK Hk P), (efun_node _ _ _ _ _ _ _ _ _ _ HI GK Hk P1), (efun_node _ _ _ _ _ _ _ _ _ _ HI GK Hk P2).
    destruct (c60_hod_minimum_mass_never_used I h t ik ZQ GM (MM t ltac:(simpl; auto))) as [-> _].
    destruct (c60_hod_minimum_mass_never_used I h t1 ik ZQ GM (MM t1 ltac:(simpl; auto))) as [-> _].
    destruct (c60_hod_minimum_mass_never_used I h t2 ik ZQ GM (MM t2 ltac:(simpl; auto))) as [-> _].
    set (x := mmin_1h h (d_m h 0%nat) (d_k h ik)). assert (X : 0 < x).
    { assert (M0 : 0 < d_m h 0%nat) by (apply GM; apply GM). unfold x, mmin_1h. destruct (d_turnover h); auto. eapply Rlt_le_trans; [exact M0|apply Rmax_l]. }
    set (w := fun i => t_ukm t ik i ^ 2 * d_dndm h i). set (s1 := fun i => satellite_occupation (t_hod t1) (d_m h i)). set (s2 := fun i => satellite_occupation (t_hod t2) (d_m h i)).
    assert (W : forall i, (i < d_nm h)%nat -> 0 <= w i) by (intros i Hi; apply Rmult_le_pos; [apply pow2_ge_0|now apply NN]).
    set (A := mint I h (fun i => w i * s1 i ^ 2) (Some x)). set (B := mint I h (fun i => w i * s2 i ^ 2) (Some x)). set (C := mint I h (fun i => w i * (s1 i * s2 i)) (Some x)).
    assert (EA : mint I h (fun im => t_ukm t1 ik im ^ 2 * d_dndm h im * ss_pairs (t_hod t1) (d_m h im)) (Some x) = A) by (apply mint_ext; intros; unfold w, s1, ss_pairs; rewrite uk1; ring).
    assert (EB : mint I h (fun im => t_ukm t2 ik im ^ 2 * d_dndm h im * ss_pairs (t_hod t2) (d_m h im)) (Some x) = B) by (apply mint_ext; intros; unfold w, s2, ss_pairs; rewrite uk2; ring).
    assert (ET : mint I h (fun im => t_ukm t ik im ^ 2 * d_dndm h im * ss_pairs (t_hod t) (d_m h im)) (Some x) = A + 2 * C + B).
    { unfold A, B, C. rewrite <- (mint_lin I h (fun i => w i * s1 i ^ 2) (fun i => w i * (s1 i * s2 i)) 2) by auto. rewrite <- mint_plus by auto. apply mint_ext. intros i Hi. unfold ss_pairs.
      destruct (parts i Hi) as [_ [-> _]]. unfold w, s1, s2. ring. }
    assert (PA : 0 <= A) by (apply mint_pos_any; auto; intros i Hi; apply Rmult_le_pos; auto; apply pow2_ge_0).
    assert (PB : 0 <= B) by (apply mint_pos_any; auto; intros i Hi; apply Rmult_le_pos; auto; apply pow2_ge_0).
    assert (PC : 0 <= C) by (apply mint_pos_any; auto; intros i Hi; apply Rmult_le_pos; auto; apply Rmult_le_pos; now apply NN).
    assert (CS : C ^ 2 <= A * B) by (apply cauchy_schwarz_any; auto).
    rewrite EA, EB, ET. assert (E : forall Y y, y <> 0 -> y ^ 2 * (Y / y ^ 2) = Y) by (intros; field; auto). split; [rewrite !E by auto; lra|].
    assert (S : forall Y y, 0 < y -> 0 <= Y -> y * sqrt (Y / y ^ 2) = sqrt Y).
    { intros Y y Hy HY. rewrite sqrt_div_alt by now apply pow_lt. rewrite sqrt_pow2 by lra. field. lra. }
    rewrite (S A n1), (S B n2) by auto. rewrite S; [now apply sqrt_split|rewrite den_parts; lra|lra].
  Qed.
End Composite.
Print Assumptions c154_statistics.
Print Assumptions c154_mass.
Print Assumptions c154_tracer_matter.
Print Assumptions c154_two_halo.
Print Assumptions c154_satellite_pairs.

(** power laws whose amplitudes add up are such samples, and so are constants *)
Theorem c154_power_law : forall h u r l cen Mmin M1 alpha Mmax sig a a1 a2, pow10 a = pow10 a1 + pow10 a2 ->
  sample_of h (mkTr (ContinuousPowerLaw cen Mmin M1 a alpha Mmax sig) u r l) (mkTr (ContinuousPowerLaw cen Mmin M1 a1 alpha Mmax sig) u r l) (mkTr (ContinuousPowerLaw cen Mmin M1 a2 alpha Mmax sig) u r l) /\
  sample_of h (mkTr (ConstantHOD cen a Mmin sig) u r l) (mkTr (ConstantHOD cen a1 Mmin sig) u r l) (mkTr (ConstantHOD cen a2 Mmin sig) u r l).
Proof.
  intros h u r l cen Mmin M1 alpha Mmax sig a a1 a2 E.
  split; (split; [|split; [split; reflexivity|split; [reflexivity|split; reflexivity]]]); intros i Hi; (split; [simpl; unfold central_occupation; simpl; ring|]); unfold satellite_occupation, h_central; simpl.
  - unfold cpl_so. destruct (_ && _)%bool; [rewrite E; ring|ring].
  - unfold constant_so. destruct (Rltb _ _); [exact E|ring].
Qed.
Print Assumptions c154_power_law.

(** the hypotheses are met *)
Lemma mint3_pos : forall f, (forall i, (i < 3)%nat -> 0 < f i) -> 0 < mint step_quad h1_ex f None.
Proof.
  intros f F. rewrite mint_eq by exact h0_grid. unfold lo_lim, hi_lim. change (d_nm h1_ex) with 3%nat.
  assert (G : forall i, (i < 3)%nat -> 0 < d_m h1_ex i) by (intros i Hi; apply h0_grid; exact Hi).
  assert (L1 : ln (d_m h1_ex 0%nat) < ln (d_m h1_ex 1%nat)) by (apply ln_increasing; apply h0_grid; simpl; lia).
  assert (L2 : ln (d_m h1_ex 1%nat) < ln (d_m h1_ex 2%nat)) by (apply ln_increasing; apply h0_grid; simpl; lia).
  assert (P0 : 0 < d_m h1_ex 0%nat * f 0%nat) by (apply Rmult_lt_0_compat; [apply G|apply F]; lia). assert (P1 : 0 < d_m h1_ex 1%nat * f 1%nat) by (apply Rmult_lt_0_compat; [apply G|apply F]; lia).
  unfold step_quad, arr. cbn [seq map stepF Nat.sub]. set (x0 := ln (d_m h1_ex 0%nat)) in *. set (x1 := ln (d_m h1_ex 1%nat)) in *. set (x2 := ln (d_m h1_ex 2%nat)) in *.
  set (a := d_m h1_ex 0%nat * f 0%nat) in *. set (b := d_m h1_ex 1%nat * f 1%nat) in *.
  replace (Rmax x0 (Rmin x2 x1)) with x1 by (rewrite Rmin_right, Rmax_right; lra). replace (Rmax x1 (Rmin x2 x2)) with x2 by (rewrite Rmin_right, Rmax_right; lra).
  replace (Rmax x0 (Rmin x0 x1)) with x0 by (rewrite Rmin_left, Rmax_right; lra). replace (Rmax x1 (Rmin x0 x2)) with x1 by (rewrite Rmin_left, Rmax_left; lra).
  nra.
Qed.
Definition flat_tracer (a : R) : tracer := mkTr (ConstantHOD false a 5 0) (fun _ _ => 1) (fun _ _ => 1) None.
Example c154_met : let t := flat_tracer (log10 3) in let t1 := flat_tracer (log10 1) in let t2 := flat_tracer (log10 2) in
  sample_of h1_ex t t1 t2 /\ (forall x, In x [t; t1; t2] -> 0 < mean_tracer_den step_quad h1_ex x) /\
  exists P P1 P2 X, power_2h_tracer_noexcl step_quad (fun _ => linterp) linterp (fun _ _ _ => 0) h1_ex t = Ok P /\ power_2h_tracer_noexcl step_quad (fun _ => linterp) linterp (fun _ _ _ => 0) h1_ex t1 = Ok P1 /\
    power_2h_tracer_noexcl step_quad (fun _ => linterp) linterp (fun _ _ _ => 0) h1_ex t2 = Ok P2 /\ power_2h_cross step_quad (fun _ => linterp) linterp h1_ex h1_ex t1 t2 = Ok X.
Proof.
  intros t t1 t2.
  assert (E : forall x, 0 < x -> pow10 (log10 x) = x) by (intros; now apply pow10_log10).
  split; [refine (proj2 (c154_power_law h1_ex (fun _ _ => 1) (fun _ _ => 1) None false 5 0 0 0 0 (log10 3) (log10 1) (log10 2) _)); rewrite !E; lra|]. split.
  - assert (K : forall a, 0 < mean_tracer_den step_quad h1_ex (flat_tracer a)).
    { intros a. apply mint3_pos. intros i Hi. change (d_dndm h1_ex i) with 1. rewrite Rmult_1_l. unfold tot_int, flat_tracer, cen_int, cut, satellite_occupation, central_occupation, h_central; simpl. unfold constant_so.
      assert (M : Rltb (pow10 5) (10 ^ (11 + i)) = true).
      { apply Rltb_spec. unfold pow10. replace 5 with (INR 5) by (simpl; lra). rewrite p10. apply Rlt_pow; [lra|lia]. }
      change (10 * (10 * (10 * (10 * (10 * (10 * (10 * (10 * (10 * (10 * (10 * 10 ^ i))))))))))) with (10 ^ (11 + i)). rewrite M. rewrite Rplus_0_l. apply exp_pos. }
    intros x [<-|[<-|[<-|[]]]]; apply K.
  - assert (GK : grid (d_nk h1_ex) (d_k h1_ex)) by (apply grid_INR; simpl; lia). assert (GR : grid (d_nr h1_ex) (d_r h1_ex)) by (apply grid_INR; simpl; lia).
    assert (T : forall x, exists p, power_2h_tracer_noexcl step_quad (fun _ => linterp) linterp (fun _ _ _ => 0) h1_ex x = Ok p).
    { intros x. destruct (c98_tracer_total step_quad (fun _ => linterp) linterp (fun _ _ _ => 0) h1_ex x) as [_ [Q _]]; auto. }
    destruct (T t) as [P HP], (T t1) as [P1 HP1], (T t2) as [P2 HP2]. exists P, P1, P2.
    assert (C : exists X, power_2h_cross step_quad (fun _ => linterp) linterp h1_ex h1_ex t1 t2 = Ok X).
    { apply efun_total; auto; discriminate. }
    destruct C as [X HX]. exists X. auto.
Qed.
