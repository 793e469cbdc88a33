(** Halo-model spectra outside the tabulated wavenumbers (C112), the 1-halo matter power (C113), totals (C114),
    scale-dependent bias in the 2-halo terms (C115).  Code under study: /repo/src/halomod/halo_model.py:502-901, 1318-1662,
    cross_correlations.py:235-373.  [interpolates] and [reproduces_lines] say what scipy's interpolating spline and straight-line
    fit do on their data; nothing else about them is used. *)
From Coq Require Import Reals List Bool Arith Lia Lra.
From Verif Require Import Model.RBool Model.Quad Model.ExtSpline Model.Exclusion Model.Profiles Model.HOD Model.HaloModel Model.Cross.
From Verif Require Import Spec.HMSpec Spec.TailSpec Proofs.HMProofs Proofs.TailProofs Proofs.QuadProofs Props.HaloModelProps Props.HaloModelProps2 Props.FindMminProps Props.HMTotalProps.
Import ListNotations.
Local Open Scope R_scope.

Section S.
  Variables (I : quadrature) (sp : nat -> list R -> list R -> R -> R) (us : list R -> list R -> R -> R) (hk : tmode -> (R -> R) -> R -> R) (simp : list R -> list R -> R).
  Hypothesis Hs : interpolates (sp 3%nat).
  Hypothesis Hu : reproduces_lines us.
  Variable h : dmhm.
  Hypothesis G : grid (d_nk h) (d_k h).
  Hypothesis N : (2 <= d_nk h)%nat.
  Let n := d_nk h. Let k := d_k h.

  (** * C112 *)
  (** 1-halo spectra: zero below the table with the turnover, constant without it; a power law above *)
  Definition one_halo_shape (P : R -> R) : Prop := (if d_turnover h then zero_head k P else flat_head k P) /\ power_law_tail n k P.
  Lemma one_halo_efun : forall y P, efun sp us (tab n k) (tab n y) (lower_1h h) ExtPowerLaw true = Ok P -> one_halo_shape P.
  Proof.
    intros y P H. split; [|eapply efun_pl_tail; eauto]. unfold lower_1h in H. destruct (d_turnover h).
    - intros x Hx. eapply efun_below_zero; eauto.
    - eapply efun_flat_head; eauto.
  Qed.
  Lemma tail_of_zero : forall y lo P, efun sp us (tab n k) (tab n y) lo (ExtCallable zero_ext) true = Ok P -> (exists i, last_ten n i /\ P (k i) <= 0) -> power_law_tail n k P.
  Proof.
    intros y lo P H [i [Hi Hp]] x Hx. assert (Z : P x = 0) by (eapply efun_above_zero; eauto). split; [|split].
    - intros A p HA E. exfalso. rewrite (E i Hi) in Hp. assert (0 < A * Rpower (k i) p); [|lra]. apply Rmult_lt_0_compat; auto. apply exp_pos.
    - intros _. exact Z.
    - intros K. specialize (K i Hi). lra.
  Qed.
  Theorem c112_one_halo : forall t P Pss Pcs, power_1h_matter I sp us h = Ok P -> power_1h_ss I sp us h t = Ok Pss -> power_1h_cs I sp us h t = Ok Pcs ->
    one_halo_shape P /\ one_halo_shape Pss /\ one_halo_shape Pcs.
  Proof.
    intros t P Pss Pcs H1 H2 H3. split; [|split]; [now apply one_halo_efun in H1|now apply one_halo_efun in H2|].
    unfold power_1h_cs in H3. destruct (forallb _ _) eqn:E; [now apply one_halo_efun in H3|].
    split.
    - unfold lower_1h in H3. destruct (d_turnover h); [intros x Hx; eapply efun_below_zero; eauto|eapply efun_flat_head; eauto].
    - apply forallb_false_ex in E. destruct E as [v [Hv E]]. apply Rltb_false in E. rewrite last_slice in Hv by apply G. apply arr_in in Hv. destruct Hv as [i [Hi ->]].
      eapply tail_of_zero; [exact H3|]. fold n in Hi, E. exists (n - Nat.min 10 n + i)%nat. assert (n - Nat.min 10 n + i < n)%nat by lia. split; [split; lia|].
      assert (V := efun_node _ _ _ _ _ _ _ _ _ _ Hs G H H3). fold n k in V. rewrite V. exact E.
  Qed.
  (** 2-halo spectra without exclusion: proportional to the linear power below the table and continuous there; above it a power law,
      or zero for a filtered halo-centre spectrum *)
  Definition two_halo_shape (P : R -> R) : Prop := proportional_head (d_plin h) k P /\ match d_hc h with Linear | Nonlinear => power_law_tail n k P | FilteredLin | FilteredNl => zero_tail n k P end.
  Theorem c112_two_halo : forall t P Pt, d_noexcl h = true -> d_sd h = None -> power_2h_matter_noexcl I sp us hk h = Ok P -> power_2h_tracer_noexcl I sp us hk h t = Ok Pt ->
    two_halo_shape P /\ two_halo_shape Pt.
  Proof.
    intros t P Pt Hn Hd H1 H2. unfold power_2h_matter_noexcl, power_2h_tracer_noexcl, power_2h_auto in H1, H2. rewrite Hn, Hd in H1, H2. cbn [andb] in H1, H2. cbv zeta in H1, H2.
    assert (K : forall e integ dmod eff deb Q, prim_2h I sp us h e integ dmod eff deb 0 = Ok Q -> two_halo_shape Q).
    { intros e integ dmod eff deb Q H. unfold prim_2h in H. rewrite Hn in H. split; [eapply efun_proportional_head; eauto|].
      destruct (d_hc h); cbn [filtered andb negb] in H; (eapply efun_pl_tail; eauto; fail) || (intros x Hx; eapply efun_above_zero; eauto). }
    split; eapply K; eauto.
  Qed.
  (** tracer-matter spectra: power laws on both sides, the 2-halo term zero above for a filtered spectrum *)
  Theorem c112_tracer_matter : forall t P1 P2, power_1h_tm I sp us h t = Ok P1 -> power_2h_tm I sp us h t = Ok P2 ->
    (power_law_head n k P1 /\ power_law_tail n k P1) /\ power_law_head n k P2 /\ match d_hc h with Linear | Nonlinear => power_law_tail n k P2 | FilteredLin | FilteredNl => zero_tail n k P2 end.
  Proof.
    intros t P1 P2 H1 H2. unfold power_1h_tm, power_2h_tm in H1, H2. split; [split; [eapply efun_pl_head|eapply efun_pl_tail]; eauto|]. split; [eapply efun_pl_head; eauto|].
    destruct (d_hc h); cbn [filtered] in H2; (eapply efun_pl_tail; eauto; fail) || (intros x Hx; eapply efun_above_zero; eauto).
  Qed.
  (** cross spectra of two tracers: the 1-halo term a power law on both sides; the 2-halo term follows the first model's linear power
      below; finding: above it is a power law even for a filtered spectrum *)
  Theorem c112_cross : forall h2 t1 t2 c P1 P2, power_1h_cross I sp us simp h h2 t1 t2 c = Ok P1 -> power_2h_cross I sp us h h2 t1 t2 = Ok P2 ->
    (power_law_head n k P1 /\ power_law_tail n k P1) /\ proportional_head (d_plin h) k P2 /\ power_law_tail n k P2.
  Proof.
    intros h2 t1 t2 c P1 P2 H1 H2. unfold power_1h_cross, power_2h_cross in H1, H2. split; [split; [eapply efun_pl_head|eapply efun_pl_tail]; eauto|]. split; [eapply efun_proportional_head|eapply efun_pl_tail]; eauto.
  Qed.
  (** correlation functions: power laws below the smallest tabulated separation, zero beyond the largest *)
  Theorem c112_correlations : forall x t x1 xss xcs, grid (d_nr h) (d_r h) -> (2 <= d_nr h)%nat ->
    corr_1h_matter I sp us hk h = Ok x -> corr_1h_ss I sp us hk h t = Ok xss -> corr_1h_cs I sp us h t = Ok xcs -> to_corr sp us hk ToR h (power_1h_tm I sp us h t) = Ok x1 ->
    Forall (fun f => power_law_head (d_nr h) (d_r h) f /\ zero_tail (d_nr h) (d_r h) f) [x; xss; xcs; x1].
  Proof.
    intros x t x1 xss xcs GR NR H1 H2 H3 H4.
    assert (K : forall tb f, rspline sp us h tb = Ok f -> power_law_head (d_nr h) (d_r h) f /\ zero_tail (d_nr h) (d_r h) f).
    { intros tb f H. unfold rspline in H. split; [eapply efun_pl_head; eauto|]. intros r Hr. eapply efun_above_zero; eauto. }
    repeat apply Forall_cons; [| | | |apply Forall_nil].
    - unfold corr_1h_matter in H1. destruct (d_lam h); [eapply K; exact H1|]. apply bind_ok in H1. destruct H1 as [tb [_ H1]]. eapply K; exact H1.
    - unfold corr_1h_ss in H2. destruct (t_lam t); [eapply K; eauto|]. apply bind_ok in H2. destruct H2 as [p [_ H2]]. eapply K; eauto.
    - eapply K; exact H3.
    - unfold to_corr in H4. apply bind_ok in H4. destruct H4 as [p [_ H4]]. eapply K; eauto.
  Qed.
End S.
Print Assumptions c112_one_halo.
Print Assumptions c112_two_halo.
Print Assumptions c112_correlations.

(** the linear and nonlinear matter spectra: k^n below the table, matched; a power law above; defined for every table of positive wavenumbers *)
Theorem c112_linear_power : forall sp us n k p ns, interpolates (sp 3%nat) -> reproduces_lines us -> grid n k -> (2 <= n)%nat ->
  exists P, linear_power_fnc sp us n k p ns = Ok P /\ (forall i, (i < n)%nat -> P (k i) = p i) /\
    (forall x, 0 < x < k 0%nat -> P x = p 0%nat * Rpower (x / k 0%nat) ns) /\ power_law_tail n k P.
Proof.
  intros sp us n k p ns Hs Hu G N. assert (K0 : 0 < k 0%nat) by (apply G; lia).
  destruct (efun_total sp us n k (tab n p) (ExtCallable (power_law_k ns)) ExtPowerLaw true G ltac:(discriminate) ltac:(discriminate)) as [P HP].
  exists P. split; [|split; [|split]].
  - unfold linear_power_fnc, efun in *. unfold ext_spline_init in *. cbv beta iota zeta delta [orb] in *. rewrite (tab_lmin n k G) in *. replace (Rltb (k 0%nat) 0) with false by (symmetry; apply Rltb_false; lra). exact HP.
  - intros i Hi. exact (efun_node _ _ _ _ _ _ _ _ _ _ Hs G Hi HP).
  - intros x [X0 Hx]. assert (Q := efun_proportional_head sp us n k p G Hs _ _ _ HP). red in Q. unfold power_law_k in Q. rewrite Q; auto. 2: { apply Rgt_not_eq, exp_pos. }
    rewrite (efun_node _ _ _ _ _ _ _ _ _ 0%nat Hs G ltac:(lia) HP). f_equal. unfold Rpower, Rdiv. rewrite <- exp_Ropp, <- exp_plus. rewrite ln_mult, ln_Rinv by (auto; now apply Rinv_0_lt_compat). f_equal. ring.
  - eapply efun_pl_tail; eauto.
Qed.
Print Assumptions c112_linear_power.

(** * C113: the 1-halo matter power and the effective matter bias *)
(** the shot noise of haloes above the smallest mass that contributes at this wavenumber *)
Definition halo_shot_noise (I : quadrature) (h : dmhm) (i : nat) : R :=
  mint I h (fun im => d_dndm h im * d_m h im ^ 2) (Some (mmin_1h h (d_m h 0%nat) (d_k h i))) / d_rho0 h ^ 2.
Theorem c113_one_halo_bounds : forall I sp us h P i a b, q_linear I -> q_positive I -> interpolates (sp 3%nat) -> grid (d_nk h) (d_k h) -> grid (d_nm h) (d_m h) -> (i < d_nk h)%nat -> d_rho0 h <> 0 ->
  mmin_1h h (d_m h 0%nat) (d_k h i) <= d_m h (d_nm h - 1)%nat -> power_1h_matter I sp us h = Ok P -> 0 <= a ->
  (forall im, (im < d_nm h)%nat -> 0 <= d_dndm h im /\ a <= d_ukm h i im <= b) ->
  a ^ 2 * halo_shot_noise I h i <= P (d_k h i) <= b ^ 2 * halo_shot_noise I h i.
Proof.
  intros I sp us h P i a b L Q Hs GK GM Hi R0 X HP Ha H. unfold power_1h_matter in HP. rewrite (efun_node _ _ _ _ _ _ _ _ _ _ Hs GK Hi HP).
  unfold p1h_matter, do_1halo, halo_shot_noise. set (xm := mmin_1h h (d_m h 0%nat) (d_k h i)) in *.
  assert (M0 : 0 < d_m h 0%nat) by (apply GM; apply GM). assert (XO : xmin_ok h (Some xm)). { split; auto. unfold xm, mmin_1h. destruct (d_turnover h); auto. eapply Rlt_le_trans; [exact M0|apply Rmax_l]. }
  assert (V : 0 < / d_rho0 h ^ 2) by (apply Rinv_0_lt_compat; rewrite <- Rsqr_pow2; apply Rsqr_pos_lt; auto).
  assert (E : forall c, c ^ 2 * (mint I h (fun im => d_dndm h im * d_m h im ^ 2) (Some xm) / d_rho0 h ^ 2) = mint I h (fun im => c ^ 2 * (d_dndm h im * d_m h im ^ 2)) (Some xm) / d_rho0 h ^ 2).
  { intros c. rewrite mint_scal by auto. unfold Rdiv. ring. }
  rewrite !E. unfold Rdiv. split; apply Rmult_le_compat_r; try lra; apply mint_le; auto; intros j Hj; destruct (H j Hj) as [H1 H2].
  - assert (0 <= d_dndm h j * d_m h j ^ 2) by (apply Rmult_le_pos; auto; apply pow2_ge_0). assert (a ^ 2 <= d_ukm h i j ^ 2) by (apply pow_incr; lra). rewrite (Rmult_comm (a ^ 2)). now apply Rmult_le_compat_l.
  - assert (0 <= d_dndm h j * d_m h j ^ 2) by (apply Rmult_le_pos; auto; apply pow2_ge_0). assert (d_ukm h i j ^ 2 <= b ^ 2) by (apply pow_incr; lra). rewrite (Rmult_comm (b ^ 2)). now apply Rmult_le_compat_l.
Qed.
Print Assumptions c113_one_halo_bounds.
(** the shot noise lies between the smallest and the largest mass times (density in haloes)/(mean density)^2 *)
Theorem c113_shot_noise_bounds : forall I h i, q_linear I -> q_positive I -> grid (d_nm h) (d_m h) -> d_rho0 h <> 0 -> mmin_1h h (d_m h 0%nat) (d_k h i) <= d_m h (d_nm h - 1)%nat -> (forall im, (im < d_nm h)%nat -> 0 <= d_dndm h im) ->
  let rho := mint I h (fun im => d_m h im * d_dndm h im) (Some (mmin_1h h (d_m h 0%nat) (d_k h i))) in
  d_m h 0%nat * rho / d_rho0 h ^ 2 <= halo_shot_noise I h i <= d_m h (d_nm h - 1)%nat * rho / d_rho0 h ^ 2.
Proof.
  intros I h i L Q GM R0 X H rho. unfold halo_shot_noise. subst rho. set (xm := mmin_1h h (d_m h 0%nat) (d_k h i)) in *.
  assert (M0 : 0 < d_m h 0%nat) by (apply GM; apply GM). assert (XO : xmin_ok h (Some xm)). { split; auto. unfold xm, mmin_1h. destruct (d_turnover h); auto. eapply Rlt_le_trans; [exact M0|apply Rmax_l]. }
  assert (V : 0 < / d_rho0 h ^ 2) by (apply Rinv_0_lt_compat; rewrite <- Rsqr_pow2; apply Rsqr_pos_lt; auto). unfold Rdiv. rewrite <- !mint_scal by auto.
  split; apply Rmult_le_compat_r; try lra; apply mint_le; auto; intros j Hj; specialize (H j Hj); assert (0 < d_m h j) by (now apply GM); assert (0 <= d_m h j * d_dndm h j) by (apply Rmult_le_pos; lra).
  - assert (d_m h 0%nat <= d_m h j) by (apply (grid_mono (d_nm h)); auto; lia). nra.
  - assert (d_m h j <= d_m h (d_nm h - 1)%nat) by (apply (grid_mono (d_nm h)); auto; lia). nra.
Qed.
(** the effective matter bias: 1 when forced, otherwise between the extreme biases times the ratio of the integrated density of the
    grid to rho(>m_min) *)
Theorem c113_effective_matter_bias : forall I h lo hi, q_linear I -> q_positive I -> grid (d_nm h) (d_m h) -> 0 < d_rhoh h -> (forall im, (im < d_nm h)%nat -> 0 <= d_dndm h im /\ lo <= d_bias h im <= hi) ->
  (d_unity h = true -> bias_effective_matter I h = 1) /\
  (d_unity h = false -> let ratio := mint I h (fun im => d_m h im * d_dndm h im) None / d_rhoh h in lo * ratio <= bias_effective_matter I h <= hi * ratio).
Proof.
  intros I h lo hi L Q G R0 H. unfold bias_effective_matter. split; intros U; rewrite U; auto. cbv zeta.
  assert (V : 0 < / d_rhoh h) by now apply Rinv_0_lt_compat. unfold Rdiv. rewrite <- !Rmult_assoc, <- !mint_scal by auto.
  split; apply Rmult_le_compat_r; try lra; apply mint_le; simpl; auto; intros j Hj; destruct (H j Hj); assert (0 < d_m h j) by (now apply G); assert (0 <= d_m h j * d_dndm h j) by (apply Rmult_le_pos; lra); nra.
Qed.
Print Assumptions c113_effective_matter_bias.

(** * C114: totals *)
(** every total spectrum is the sum of its terms, at every wavenumber, with no offset *)
Theorem c114_power_totals : forall I sp us h t p2 P Pt P1 Px, power_matter I sp us p2 h = Ok P -> power_tracer I sp us p2 h t = Ok Pt -> power_1h_tracer I sp us h t = Ok P1 -> power_tm I sp us h t = Ok Px ->
  exists m1 m2 cs ss x1 x2, power_1h_matter I sp us h = Ok m1 /\ p2 = Ok m2 /\ power_1h_cs I sp us h t = Ok cs /\ power_1h_ss I sp us h t = Ok ss /\ power_1h_tm I sp us h t = Ok x1 /\ power_2h_tm I sp us h t = Ok x2 /\
    forall k, P k = m1 k + m2 k /\ P1 k = cs k + ss k /\ Pt k = cs k + ss k + m2 k /\ Px k = x1 k + x2 k.
Proof.
  intros I sp us h t p2 P Pt P1 Px H1 H2 H3 H4. unfold power_matter, power_tracer, power_tm in *. rewrite H3 in H2. unfold power_1h_tracer in H3.
  apply bind_ok in H1. destruct H1 as [m1 [A1 H1]]. apply bind_ok in H1. destruct H1 as [m2 [A2 H1]]. injection H1 as <-. simpl in H2. apply bind_ok in H2. destruct H2 as [m2' [A2' H2]]. rewrite A2 in A2'. injection A2' as <-. injection H2 as <-.
  apply bind_ok in H3. destruct H3 as [cs [B1 H3]]. apply bind_ok in H3. destruct H3 as [ss [B2 H3]]. injection H3 as <-. apply bind_ok in H4. destruct H4 as [x1 [C1 H4]]. apply bind_ok in H4. destruct H4 as [x2 [C2 H4]]. injection H4 as <-.
  exists m1, m2, cs, ss, x1, x2. repeat split; auto; unfold sum_callable; ring.
Qed.
Print Assumptions c114_power_totals.
(** with the turnover, below the tabulated wavenumbers the total matter and tracer powers are proportional to the linear power *)
Theorem c114_large_scales_linear : forall I sp us hk h t P Pt x, interpolates (sp 3%nat) -> grid (d_nk h) (d_k h) -> d_noexcl h = true -> d_sd h = None -> d_turnover h = true -> d_plin h (d_k h 0%nat) <> 0 -> x < d_k h 0%nat ->
  power_matter I sp us (power_2h_matter_noexcl I sp us hk h) h = Ok P -> power_tracer I sp us (power_2h_tracer_noexcl I sp us hk h t) h t = Ok Pt ->
  exists m2 t2, power_2h_matter_noexcl I sp us hk h = Ok m2 /\ power_2h_tracer_noexcl I sp us hk h t = Ok t2 /\
    P x = m2 (d_k h 0%nat) * (d_plin h x / d_plin h (d_k h 0%nat)) /\ Pt x = t2 (d_k h 0%nat) * (d_plin h x / d_plin h (d_k h 0%nat)).
Proof.
  intros I sp us hk h t P Pt x Hs G Hn Hd Ht Hl Hx H1 H2. unfold power_matter, power_tracer in *.
  apply bind_ok in H1. destruct H1 as [m1 [A1 H1]]. apply bind_ok in H1. destruct H1 as [m2 [A2 H1]]. injection H1 as <-.
  apply bind_ok in H2. destruct H2 as [t1 [B1 H2]]. apply bind_ok in H2. destruct H2 as [t2 [B2 H2]]. injection H2 as <-.
  unfold power_1h_tracer in B1. apply bind_ok in B1. destruct B1 as [cs [C1 B1]]. apply bind_ok in B1. destruct B1 as [ss [C2 B1]]. injection B1 as <-.
  exists m2, t2. split; auto. split; auto.
  assert (K : forall e integ dmod eff deb Q, prim_2h I sp us h e integ dmod eff deb 0 = Ok Q -> Q x = Q (d_k h 0%nat) * (d_plin h x / d_plin h (d_k h 0%nat))).
  { intros e integ dmod eff deb Q H. unfold prim_2h in H. exact (efun_proportional_head sp us _ _ _ G Hs _ _ _ H Hl x Hx). }
  unfold power_2h_matter_noexcl, power_2h_tracer_noexcl, power_2h_auto in A2, B2. rewrite Hn, Hd in A2, B2. cbn [andb] in A2, B2. cbv zeta in A2, B2. apply K in A2. apply K in B2.
  unfold power_1h_matter, power_1h_cs, power_1h_ss, lower_1h in *. rewrite Ht in A1, C1, C2. cbv zeta in C1.
  unfold sum_callable. rewrite (efun_below_zero _ _ _ _ _ _ _ _ _ G Hx A1), (efun_below_zero _ _ _ _ _ _ _ _ _ G Hx C1), (efun_below_zero _ _ _ _ _ _ _ _ _ G Hx C2). rewrite <- A2, <- B2. split; ring.
Qed.
Print Assumptions c114_large_scales_linear.
(** the tracer correlation is the sum of its two terms; finding: beyond the largest tabulated separation it is 0 when the profile has a
    self-convolution and 1 when it has not *)
Theorem c114_tracer_correlation : forall I sp us hk h t e integ dmod eff deb xi, grid (d_nr h) (d_r h) ->
  corr_tracer I sp us hk (corr_2h_auto I sp us hk h e integ dmod eff deb) h t = Ok xi ->
  exists x1 x2, corr_1h_tracer I sp us hk h t = Ok x1 /\ corr_2h_auto I sp us hk h e integ dmod eff deb = Ok x2 /\ (forall r, xi r = x1 r + x2 r) /\
    (forall r, d_r h (d_nr h - 1)%nat < r -> xi r = match t_lam t with Some _ => 0 | None => 1 end).
Proof.
  intros I sp us hk h t e integ dmod eff deb xi G H. unfold corr_tracer in H. apply bind_ok in H. destruct H as [x1 [A H]]. apply bind_ok in H. destruct H as [x2 [B H]]. injection H as <-.
  exists x1, x2. repeat split; auto. intros r Hr. assert (Z2 : x2 r = 0). { unfold corr_2h_auto in B. apply bind_ok in B. destruct B as [ps [_ B]]. cbv zeta in B. eapply efun_above_zero; eauto. }
  rewrite Z2. unfold corr_1h_tracer in A. destruct (t_lam t) eqn:L.
  - unfold rspline in A. rewrite (efun_above_zero _ _ _ _ _ _ _ _ _ G Hr A). ring.
  - apply bind_ok in A. destruct A as [a [A1 A]]. apply bind_ok in A. destruct A as [b [A2 A]]. injection A as <-. unfold sum_callable.
    unfold corr_1h_cs, rspline in A1. unfold corr_1h_ss in A2. rewrite L in A2. apply bind_ok in A2. destruct A2 as [p [_ A2]]. unfold rspline in A2.
    rewrite (efun_above_zero _ _ _ _ _ _ _ _ _ G Hr A1), (efun_above_zero _ _ _ _ _ _ _ _ _ G Hr A2). ring.
Qed.
Print Assumptions c114_tracer_correlation.

(** * C115: scale-dependent bias and exclusion in the 2-halo terms *)
Lemma rseq_nth : forall A (f : nat -> res A) n s l i d, rseq (map f (seq s n)) = Ok l -> (i < n)%nat -> length l = n /\ f (s + i)%nat = Ok (nth i l d).
Proof.
  induction n; intros s l i d H Hi; [lia|]. simpl in H. apply bind_ok in H. destruct H as [a [Ha H]]. apply bind_ok in H. destruct H as [u [Hu H]]. injection H as <-.
  destruct i.
  - rewrite Nat.add_0_r. split; auto. destruct n; [simpl in Hu; injection Hu as <-; reflexivity|]. simpl. f_equal. apply (IHn (S s) u 0%nat d Hu). lia.
  - destruct (IHn (S s) u i d Hu) as [L E]; [lia|]. split; [simpl; now rewrite L|]. change (nth (S i) (a :: u) d) with (nth i u d). rewrite <- E. f_equal. lia.
Qed.
(** the 2-halo correlation at a tabulated separation is the transform of the 2-halo power computed for that separation *)
Theorem c115_separation_by_separation : forall I sp us hk h e integ dmod eff deb xi i, interpolates (sp 3%nat) -> grid (d_nr h) (d_r h) -> grid (d_nk h) (d_k h) -> (i < d_nr h)%nat ->
  corr_2h_auto I sp us hk h e integ dmod eff deb = Ok xi ->
  let j := if d_noexcl h && match d_sd h with None => true | Some _ => false end then 0%nat else i in
  exists p, xi (d_r h i) = hk ToRfine p (d_r h i) /\ forall ik, (ik < d_nk h)%nat -> p (d_k h ik) = factor_2h I h e integ dmod eff deb j ik * d_phc h (d_k h ik).
Proof.
  intros I sp us hk h e integ dmod eff deb xi i Hs GR GK Hi H j. unfold corr_2h_auto in H. apply bind_ok in H. destruct H as [ps [HP H]]. cbv zeta in H.
  rewrite (efun_node _ _ _ _ _ _ _ _ _ _ Hs GR Hi H).
  assert (J : (j < rows h)%nat). { unfold j, rows. destruct (_ && _); lia. }
  destruct (rseq_nth _ _ _ _ _ j (fun _ => 0) HP J) as [L E]. rewrite Nat.add_0_l in E.
  exists (nth j ps (fun _ => 0)). split.
  - f_equal. assert (Q : j = i \/ rows h = 1%nat). { unfold j, rows. destruct (_ && _); auto. }
    destruct ps as [|p0 [|p1 ps]].
    + simpl in L. lia.
    + simpl in L. assert (j = 0%nat) by lia. now rewrite H0.
    + destruct Q as [->|Q]; [reflexivity|]. rewrite Q in L. discriminate.
  - intros ik Hk. unfold prim_2h in E. exact (efun_node _ _ _ _ _ _ _ _ _ _ Hs GK Hk E).
Qed.
Print Assumptions c115_separation_by_separation.
Definition with_sd (h : dmhm) (s : option (nat -> R)) : dmhm :=
  mkDM (d_nm h) (d_m h) (d_dndm h) (d_bias h) (d_dlog10m h) (d_nk h) (d_k h) (d_khm h) (d_power h) (d_phc h) (d_plin h) (d_hc h) (d_nr h) (d_r h) (d_ukm h) (d_lam h) (d_rho0 h) (d_rhoh h) (d_delta h) (d_turnover h) (d_unity h) (d_noexcl h) s.
(** the five exclusion models' 2-halo integrals *)
Definition all_models (ius : ius_t) (e : exclusion) (ir ik : nat) : list R :=
  [noexcl_integrate ius e ir ik; sphere_integrate ius e ir ik; dblsphere_integrate ius e ir ik; ell_integrate ius e ir ik; ng_integrate ius e ir ik].
Lemma quad_ext : forall I n f g a b x, (forall i, (i < n)%nat -> f i = g i) -> ius_of I n x f a b = ius_of I n x g a b.
Proof. intros. unfold ius_of. f_equal. now apply tab_ext. Qed.
Lemma quad_scal : forall I n f c a b x, q_linear I -> ius_of I n x (fun i => c * f i) a b = c * ius_of I n x f a b.
Proof.
  intros I n f c a b x L. unfold ius_of. rewrite (tab_arr n x), (tab_arr n f), (tab_arr n (fun i => c * f i)).
  assert (Z : I (arr n x) (arr n (fun _ => 0)) a b = 0). { assert (Q := L n x (fun _ => 0) (fun _ => 0) 1 a b). assert (E0 : arr n (fun _ => 0 + 1 * 0) = arr n (fun _ => 0)) by (apply arr_ext; intros; ring). cbv beta in Q. rewrite E0 in Q. lra. }
  rewrite (arr_ext n (fun i => c * f i) (fun i => 0 + c * f i)) by (intros; ring). rewrite (L n x (fun _ => 0) f c). rewrite Z. ring.
Qed.
Lemma five_eq : forall a b c d e a' b' c' d' e' : R, a = a' -> b = b' -> c = c' -> d = d' -> e = e' -> [a; b; c; d; e] = [a'; b'; c'; d'; e'].
Proof. intros. subst. reflexivity. Qed.
(** a scale-dependent correction zeta multiplies every 2-halo integral at separation r by zeta(r)^2, for matter and for tracers, in all five models *)
Theorem c115_correction_squares : forall I h t zeta ir ik, q_linear I -> d_sd h = None ->
  let ius := ius_of I (d_nm h) in let h' := with_sd h (Some zeta) in
  all_models ius (matter_exclusion h') ir ik = map (Rmult (zeta ir ^ 2)) (all_models ius (matter_exclusion h) ir ik) /\
  all_models ius (tracer_exclusion I h' t) ir ik = map (Rmult (zeta ir ^ 2)) (all_models ius (tracer_exclusion I h t) ir ik).
Proof.
  intros I h t zeta ir ik L Hd ius h'.
  assert (K : forall nm m dens pw r hd xm, nm = d_nm h -> let e2 := mkExcl nm m dens pw (Bias2 (fun ir im => zeta ir * d_bias h im)) r hd xm in let e1 := mkExcl nm m dens pw (Bias1 (d_bias h)) r hd xm in
    all_models ius e2 ir ik = map (Rmult (zeta ir ^ 2)) (all_models ius e1 ir ik)).
  { intros nm m dens pw r hd xm Hnm e2 e1.
    assert (R : forall i, raw_integrand e2 ir ik i = zeta ir * raw_integrand e1 ir ik i) by (intros; unfold raw_integrand; simpl; ring).
    assert (SI : forall c f g, (forall i, (i < d_nm h)%nat -> f i = c * g i) -> spline_integrate ius e2 f = c * spline_integrate ius e1 g).
    { intros c f g H. unfold spline_integrate. change (e_xmin e2) with (e_xmin e1). destruct (e_xmin e1); [|].
      - unfold ius. rewrite (quad_ext I (d_nm h) f (fun i => c * g i)) by auto. simpl e_m. simpl e_nm. now apply quad_scal.
      - simpl e_nm. rewrite <- simpson_scal. apply simpson_ext. intros i Hi. apply H. lia. }
    unfold all_models. cbv beta iota delta [map]. apply five_eq.
    - unfold noexcl_integrate. simpl e_bias. cbv iota. rewrite <- Rpow_mult_distr. f_equal. apply SI. intros i Hi. unfold raw_integrand. simpl. ring.
    - unfold sphere_integrate. rewrite <- Rpow_mult_distr. f_equal. apply SI. intros i Hi. unfold zero_where. change (sphere_mask e2 ir i) with (sphere_mask e1 ir i). destruct (sphere_mask e1 ir i); [ring|apply R].
    - unfold dblsphere_integrate. apply SI. intros i Hi. change (e_nm e2) with nm. change (e_nm e1) with nm. change (e_dlnx e2) with (e_dlnx e1). rewrite <- simpson_scal. apply simpson_ext. intros j Hj. unfold zero_where. change (dblsphere_mask e2 ir i j) with (dblsphere_mask e1 ir i j). rewrite !R. destruct (dblsphere_mask e1 ir i j); ring.
    - unfold ell_integrate. apply SI. intros i Hi. change (e_nm e2) with nm. change (e_nm e1) with nm. change (e_dlnx e2) with (e_dlnx e1). rewrite <- simpson_scal. apply simpson_ext. intros j Hj. change (ell_prob e2 ir i j) with (ell_prob e1 ir i j). rewrite !R. ring.
    - unfold ng_integrate. rewrite <- Rpow_mult_distr. f_equal. apply SI. intros i Hi. unfold zero_where. change (ng_mask ius e2 ir i) with (ng_mask ius e1 ir i). destruct (ng_mask ius e1 ir i); [ring|apply R]. }
  split.
  - unfold matter_exclusion, the_bias. simpl d_sd. rewrite Hd. apply K. reflexivity.
  - unfold tracer_exclusion, the_bias. simpl d_sd. rewrite Hd. exact (K _ _ _ _ _ _ _ eq_refl).
Qed.
Print Assumptions c115_correction_squares.
(** with forced unit bias the matter term is renormalised by the correction at the largest tabulated separation: what multiplies the
    power at separation r is (zeta(r)/zeta(r_last))^2 *)
Theorem c115_forced_unit_bias : forall I h zeta integ dmod ir ik, q_linear I -> grid (d_nm h) (d_m h) -> d_sd h = None -> d_unity h = true -> zeta (d_nr h - 1)%nat <> 0 -> 
  excl_eff_bias I (d_nr h) (matter_exclusion h) <> 0 ->
  let h' := with_sd h (Some zeta) in
  factor_2h I h' (matter_exclusion h') (fun ir ik => zeta ir ^ 2 * integ ir ik) dmod (bias_effective_matter I h') (d_unity h') ir ik =
  (zeta ir / zeta (d_nr h - 1)%nat) ^ 2 * factor_2h I h (matter_exclusion h) integ dmod (bias_effective_matter I h) (d_unity h) ir ik.
Proof.
  intros I h zeta integ dmod ir ik L G Hd U Z E h'.
  assert (B : excl_eff_bias I (d_nr h) (matter_exclusion h') = zeta (d_nr h - 1)%nat * excl_eff_bias I (d_nr h) (matter_exclusion h)).
  { unfold excl_eff_bias, matter_exclusion, the_bias, h'. simpl d_sd. rewrite Hd. cbv zeta. simpl.
    change (mint I h (fun im => d_dndm h im * d_m h im / d_rhoh h * (zeta (d_nr h - 1)%nat * d_bias h im)) None = zeta (d_nr h - 1)%nat * mint I h (fun im => d_dndm h im * d_m h im / d_rhoh h * d_bias h im) None).
    rewrite <- mint_scal by auto. apply mint_ext. intros. ring. }
  unfold factor_2h. change (d_unity h') with (d_unity h). rewrite U. change (d_nr h') with (d_nr h). rewrite B. change (bias_effective_matter I h') with (bias_effective_matter I h). field. auto.
Qed.
Print Assumptions c115_forced_unit_bias.

(** the hypotheses are met *)
Example c112_ex : interpolates linterp /\ reproduces_lines chord /\ grid (d_nk h1_ex) (d_k h1_ex) /\ (2 <= d_nk h1_ex)%nat /\ d_plin h1_ex (d_k h1_ex 0%nat) <> 0 /\ grid (d_nr h1_ex) (d_r h1_ex).
Proof. split; [exact interpolates_linterp|]. split; [exact chord_lines|]. split; [apply grid_INR; simpl; lia|]. split; [simpl; lia|]. split; [simpl; lra|]. apply grid_INR; simpl; lia. Qed.
Example c113_ex : q_linear step_quad /\ q_positive step_quad /\ grid (d_nm h1_ex) (d_m h1_ex) /\ d_rho0 h1_ex <> 0 /\ mmin_1h h1_ex (d_m h1_ex 0%nat) (d_k h1_ex 0%nat) <= d_m h1_ex (d_nm h1_ex - 1)%nat /\
  exists P, power_1h_matter step_quad (fun _ => linterp) chord h1_ex = Ok P.
Proof.
  assert (GM : grid (d_nm h1_ex) (d_m h1_ex)) by exact h0_grid.
  split; [exact step_quad_linear|]. split; [exact step_quad_positive|]. split; auto. split; [simpl; lra|]. split.
  - unfold mmin_1h. change (d_lam h1_ex) with (@None R). change (d_nm h1_ex - 1)%nat with 2%nat. cbv iota. apply (grid_mono 3 (d_m h0) 0 2); auto; lia.
  - apply (efun_total (fun _ => linterp) chord 4 (fun i => INR (S i))); [apply grid_INR; lia|discriminate|discriminate].
Qed.
