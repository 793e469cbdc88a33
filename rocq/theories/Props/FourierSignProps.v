(** C151: the sign and the decay of Fourier profiles, and of the 1-halo terms built from them. *)
From Coq Require Import Reals Lra Lia Bool Psatz String List Arith ZArith.
From Coquelicot Require Import Coquelicot.
From Verif Require Import Model.RBool Model.Profiles Model.SplineInt Model.ExtSpline Model.Quad Model.Exclusion Model.HOD Model.HaloModel.
From Verif Require Import Spec.ProfileSpec Spec.HMSpec Proofs.Calc Proofs.ProfileProofs Proofs.ProfileConv Proofs.ProfileProofs2 Proofs.HMProofs Proofs.SinePositive.
From Verif Require Import Props.HODProps Props.ProfileProps Props.ProfileExamples Props.HaloModelProps Props.FindMminProps Props.HMTotalProps.
Import ListNotations.
Local Open Scope R_scope.

(** NFW and Hernquist haloes: u is positive at every wavenumber and falls off at least like k^-2, with the mass of the profile *)
Theorem c151_positive : forall Si Ci s o k m c, sine_cosine_integrals Si Ci -> In s [NFW Si Ci; Hernquist Si Ci] -> inst_ok o -> 0 < k -> 0 < c ->
  exists v r_s, rs_from_m s o m (Some c) None = Ok r_s /\ 0 < r_s /\ u s o k m (Some "m"%string) (Some c) "k" = Ok v /\
    0 < v <= 1 /\ (forall H, mass_integral (s_f s) c H -> v * ((k * r_s) ^ 2 * H) <= 2).
Proof.
  intros Si Ci s o k m c HS Hs Ho Hk Hc. assert (HA : In s (analytic_fourier Si Ci)) by (simpl in *; tauto).
  destruct (c38_u_bounds Si Ci s o k m c HS HA Ho Hk Hc) as [v [rs [R [U [B _]]]]]. destruct (rs_ok o s m c Hc) as [rs' [R' [P _]]]. rewrite R in R'. injection R' as <-.
  exists v, rs. split; auto. split; auto. split; auto. destruct (fourier_mass _ _ _ HA) as [HM [_ HI]]. destruct (good_all _ _ _ _ HM) as [G _]. assert (HP := good_pos s c G Hc).
  unfold u, get_k_variables in U. rewrite HI, R in U. simpl in U. injection U as U.
  assert (KP : 0 < k * rs) by nra. assert (K2 : 0 < (k * rs) ^ 2) by (apply pow_lt; auto).
  assert (W : 0 < s_p s (k * rs) c <= 2 / (k * rs) ^ 2).
  { destruct Hs as [<-|[<-|[]]]; simpl; [now apply weight_nfw|now apply weight_hern]. }
  assert (E : v * s_h s c = s_p s (k * rs) c) by (rewrite <- U; field; lra). split.
  - split; [|lra]. rewrite <- U. apply Rdiv_lt_0_compat; lra.
  - intros H HH. assert (MI : mass_integral (s_f s) c (s_h s c)) by (apply G; lra). assert (EH : H = s_h s c) by (rewrite <- (rint_u _ _ _ _ HH); now apply rint_u). subst H.
    replace (v * ((k * rs) ^ 2 * s_h s c)) with ((k * rs) ^ 2 * (v * s_h s c)) by ring. rewrite E. destruct W as [_ W].
    apply Rmult_le_compat_l with (r := (k * rs) ^ 2) in W; [|lra]. replace ((k * rs) ^ 2 * (2 / (k * rs) ^ 2)) with 2 in W by (field; lra). exact W.
Qed.
Print Assumptions c151_positive.

(** haloes with a core: u is negative at arbitrarily large wavenumbers, for every mass and concentration *)
Theorem c151_core_changes_sign : forall Si Ci s o m c k0, sine_cosine_integrals Si Ci -> In s [CoredNFW Si Ci; ConstantProfile] -> inst_ok o -> 0 < c ->
  exists k v, k0 < k /\ 0 < k /\ u s o k m (Some "m"%string) (Some c) "k" = Ok v /\ v < 0.
Proof.
  intros Si Ci s o m c k0 HS Hs Ho Hc. assert (HA : In s (analytic_fourier Si Ci)) by (simpl in *; tauto). assert (PP := PI_RGT_0).
  destruct (rs_ok o s m c Hc) as [rs [R [P _]]]. destruct (fourier_mass _ _ _ HA) as [HM [_ HI]]. destruct (good_all _ _ _ _ HM) as [G _]. assert (HP := good_pos s c G Hc).
  assert (E : exists K0, 0 < K0 /\ forall n : nat, K0 < 2 * PI * INR n / c -> s_p s (2 * PI * INR n / c) c < 0).
  { destruct Hs as [<-|[<-|[]]]; simpl; [now apply edge_cored|now apply edge_const]. }
  destruct E as [K0 [P0 E]]. set (X := (K0 + Rabs k0 * rs) * c / (2 * PI)).
  assert (Z : exists n : nat, X < INR n). { destruct (archimed (Rabs X)) as [A _]. exists (Z.to_nat (up (Rabs X))). rewrite INR_IZR_INZ, Z2Nat.id; [assert (Q := Rle_abs X); lra|]. apply le_IZR. assert (Q := Rabs_pos X). lra. }
  destruct Z as [n Hn]. assert (Y : K0 + Rabs k0 * rs < 2 * PI * INR n / c).
  { apply Rmult_lt_reg_r with (c / (2 * PI)); [apply Rdiv_lt_0_compat; lra|]. replace (2 * PI * INR n / c * (c / (2 * PI))) with (INR n) by (field; lra). unfold X in Hn. replace ((K0 + Rabs k0 * rs) * (c / (2 * PI))) with ((K0 + Rabs k0 * rs) * c / (2 * PI)) by (field; lra). exact Hn. }
  assert (A0 := Rabs_pos k0). assert (0 <= Rabs k0 * rs) by (apply Rmult_le_pos; lra). set (K := 2 * PI * INR n / c) in *.
  assert (KK : K / rs * rs = K) by (field; lra).
  exists (K / rs), (s_p s K c / s_h s c). repeat split.
  - apply Rmult_lt_reg_r with rs; auto. rewrite KK. assert (Q := Rle_abs k0). nra.
  - apply Rdiv_lt_0_compat; lra.
  - unfold u, get_k_variables. rewrite HI, R. simpl. rewrite KK. reflexivity.
  - assert (N := E n ltac:(fold K; lra)). fold K in N. assert (0 < / s_h s c) by now apply Rinv_0_lt_compat. unfold Rdiv. nra.
Qed.
Print Assumptions c151_core_changes_sign.

Section Tables.
  Variables (I : quadrature) (spline : nat -> list R -> list R -> R -> R) (uspline : list R -> list R -> R -> R).
  Variables (h : dmhm) (t : tracer) (Si Ci : R -> R) (s st : shape) (o : inst) (conc : nat -> R).
  Hypothesis LI : q_linear I.
  Hypothesis PI_ : q_positive I.
  Hypothesis ZI : q_zero_outside I.
  Hypothesis HI : interpolates (spline 3%nat).
  Hypothesis GM : grid (d_nm h) (d_m h).
  Hypothesis GK : grid (d_nk h) (d_k h).
  Hypothesis SC : sine_cosine_integrals Si Ci.
  Hypothesis OK : inst_ok o.
  Hypothesis CP : forall im, (im < d_nm h)%nat -> 0 < conc im.
  Hypothesis DN : forall im, (im < d_nm h)%nat -> 0 <= d_dndm h im.
  (** matter and tracer profiles are NFW or Hernquist, and the framework's tables are what their methods return *)
  Hypothesis S1 : In s [NFW Si Ci; Hernquist Si Ci].
  Hypothesis S2 : In st [NFW Si Ci; Hernquist Si Ci].
  Hypothesis WM : forall ik im, (ik < d_nk h)%nat -> (im < d_nm h)%nat -> u s o (d_k h ik) (d_m h im) (Some "m"%string) (Some (conc im)) "k" = Ok (d_ukm h ik im).
  Hypothesis WT : forall ik im, (ik < d_nk h)%nat -> (im < d_nm h)%nat -> u st o (d_k h ik) (d_m h im) (Some "m"%string) (Some (conc im)) "k" = Ok (t_ukm t ik im).

  Lemma um_pos : forall ik im, (ik < d_nk h)%nat -> (im < d_nm h)%nat -> 0 < d_ukm h ik im.
  Proof. intros ik im A B. destruct (c151_positive Si Ci s o (d_k h ik) (d_m h im) (conc im) SC S1 OK ltac:(now apply GK) (CP im B)) as [v [rs [_ [_ [U [V _]]]]]]. rewrite (WM ik im A B) in U. injection U as ->. lra. Qed.
  Lemma ut_pos : forall ik im, (ik < d_nk h)%nat -> (im < d_nm h)%nat -> 0 < t_ukm t ik im.
  Proof. intros ik im A B. destruct (c151_positive Si Ci st o (d_k h ik) (d_m h im) (conc im) SC S2 OK ltac:(now apply GK) (CP im B)) as [v [rs [_ [_ [U [V _]]]]]]. rewrite (WT ik im A B) in U. injection U as ->. lra. Qed.
  (** an integral of non-negative data, whatever its lower limit *)
  Lemma mint_nonneg : forall f x, 0 < x -> (forall i, (i < d_nm h)%nat -> 0 <= f i) -> 0 <= mint I h f (Some x).
  Proof.
    intros f x Hx F. destruct (Rle_dec x (d_m h (d_nm h - 1)%nat)) as [L|L].
    - apply mint_pos; auto. split; auto.
    - rewrite mint_eq by auto. unfold lo_lim. destruct (ZI (arr (d_nm h) (fun i => ln (d_m h i))) (arr (d_nm h) (fun i => d_m h i * f i)) (hi_lim h)) as [_ Z2].
      destruct (grid_ln _ _ GM) as [_ Q]. change arr with tab in *. rewrite Q in Z2. rewrite Z2; [lra| |unfold hi_lim; lra].
      left. apply ln_increasing; [|lra]. apply GM. assert (0 < d_nm h)%nat by apply GM. lia.
  Qed.
  Lemma over_square : forall a b, 0 <= a -> 0 <= a / b ^ 2.
  Proof.
    intros a b Ha. destruct (Req_dec b 0) as [->|N]; [replace (0 ^ 2) with 0 by ring; unfold Rdiv; rewrite Rinv_0; lra|].
    apply Rmult_le_pos; auto. left. apply Rinv_0_lt_compat. replace (b ^ 2) with (Rsqr b) by (unfold Rsqr; ring). now apply Rsqr_pos_lt.
  Qed.
  Lemma limit_pos : forall mm k, 0 < mm -> 0 < mmin_1h h mm k.
  Proof. intros mm k H. unfold mmin_1h. destruct (d_turnover h); auto. eapply Rlt_le_trans; [exact H|apply Rmax_l]. Qed.

  (** no 1-halo term is negative at a tabulated wavenumber, for an HOD with non-negative occupations and pairs (C01) *)
  Theorem c151_one_halo_terms_nonnegative :
    (forall im, (im < d_nm h)%nat -> all_nonneg (t_hod t) (d_m h im)) ->
    0 < h_mmin (t_hod t) -> xmin_ok h (tracer_mmin (t_hod t)) -> 0 < d_rho0 h ->
    forall ik, (ik < d_nk h)%nat ->
      (forall p, power_1h_matter I spline uspline h = Ok p -> 0 <= p (d_k h ik)) /\
      (forall p, power_1h_ss I spline uspline h t = Ok p -> 0 <= p (d_k h ik)) /\
      (forall p, power_1h_cs I spline uspline h t = Ok p -> 0 <= p (d_k h ik)) /\
      (forall p, power_1h_tracer I spline uspline h t = Ok p -> 0 <= p (d_k h ik)) /\
      (forall p, 0 <= mean_tracer_den I h t -> power_1h_tm I spline uspline h t = Ok p -> 0 <= p (d_k h ik)).
  Proof.
    intros HN HM XO R0 ik Hk. assert (HH : forall im, (im < d_nm h)%nat -> 0 <= ss_pairs (t_hod t) (d_m h im) /\ 0 <= cs_pairs (t_hod t) (d_m h im) /\ 0 <= cen_int (t_hod t) (d_m h im) /\ 0 <= satellite_occupation (t_hod t) (d_m h im)).
    { intros im Hm. destruct (HN im Hm) as [A [B [_ [C [D _]]]]]. repeat split; auto. unfold cen_int. destruct (cut (t_hod t)); auto; lra. }
    assert (M0 : 0 < d_m h 0%nat) by (apply GM; apply GM).
    assert (PS : 0 <= p1h_ss I h t ik).
    { unfold p1h_ss, do_1halo. apply over_square, mint_nonneg; [now apply limit_pos|]. intros i Hi. destruct (HH i Hi) as [A _]. apply Rmult_le_pos; auto. apply Rmult_le_pos; auto. apply pow2_ge_0. }
    assert (PC : 0 <= p1h_cs I h t ik).
    { unfold p1h_cs, do_1halo. apply over_square, mint_nonneg; [now apply limit_pos|]. intros i Hi. destruct (HH i Hi) as [_ [A _]]. assert (Q := ut_pos ik i Hk Hi). assert (D := DN i Hi). repeat apply Rmult_le_pos; auto; lra. }
    split; [|split; [|split; [|split]]]; intros p.
    - intros H. unfold power_1h_matter in H. rewrite (efun_node _ _ _ _ _ _ _ _ _ _ HI GK Hk H). unfold p1h_matter, do_1halo. apply over_square, mint_nonneg; [now apply limit_pos|].
      intros i Hi. assert (Q := um_pos ik i Hk Hi). assert (D := DN i Hi). apply Rmult_le_pos; [apply Rmult_le_pos; auto|]; apply pow2_ge_0.
    - intros H. unfold power_1h_ss in H. now rewrite (efun_node _ _ _ _ _ _ _ _ _ _ HI GK Hk H).
    - intros H. unfold power_1h_cs in H. now rewrite (efun_node _ _ _ _ _ _ _ _ _ _ HI GK Hk H).
    - intros H. unfold power_1h_tracer in H. destruct (power_1h_cs I spline uspline h t) as [pc|] eqn:E1; [|discriminate]. destruct (power_1h_ss I spline uspline h t) as [ps|] eqn:E2; [|discriminate].
      simpl in H. injection H as <-. unfold sum_callable. unfold power_1h_cs in E1. unfold power_1h_ss in E2.
      rewrite (efun_node _ _ _ _ _ _ _ _ _ _ HI GK Hk E1), (efun_node _ _ _ _ _ _ _ _ _ _ HI GK Hk E2). lra.
    - intros HD H. unfold power_1h_tm in H. rewrite (efun_node _ _ _ _ _ _ _ _ _ _ HI GK Hk H). unfold p1h_tm.
      assert (N : 0 <= tint I h t (fun im => d_dndm h im * d_m h im * d_ukm h ik im * tcen h t ik im)).
      { apply mint_pos; auto. intros i Hi. destruct (HH i Hi) as [_ [_ [A B]]]. assert (U1 := um_pos ik i Hk Hi). assert (U2 := ut_pos ik i Hk Hi). assert (D := DN i Hi). assert (0 < d_m h i) by now apply GM.
        unfold tcen. assert (0 <= satellite_occupation (t_hod t) (d_m h i) * t_ukm t ik i) by (apply Rmult_le_pos; lra). repeat apply Rmult_le_pos; lra. }
      destruct (Req_dec (mean_tracer_den I h t) 0) as [Z|Z]; [rewrite Z, Rmult_0_l; unfold Rdiv; rewrite Rinv_0; lra|].
      apply Rmult_le_pos; auto. left. apply Rinv_0_lt_compat. apply Rmult_lt_0_compat; lra.
  Qed.

  (** small scales: the 1-halo matter power falls off at least like k^-4: k^4 P_1h(k) is at most the mass integral of
      n (2 m / (r_s^2 H))^2 with r_s the scale radius and H the mass of the dimensionless profile *)
  Theorem c151_matter_decay : 0 < d_rho0 h -> exists rs : nat -> R,
    (forall im, (im < d_nm h)%nat -> rs_from_m s o (d_m h im) (Some (conc im)) None = Ok (rs im) /\ 0 < rs im) /\
    forall H : nat -> R, (forall im, (im < d_nm h)%nat -> mass_integral (s_f s) (conc im) (H im)) ->
    forall ik p, (ik < d_nk h)%nat -> power_1h_matter I spline uspline h = Ok p -> mmin_1h h (d_m h 0%nat) (d_k h ik) <= d_m h (d_nm h - 1)%nat ->
      d_k h ik ^ 4 * p (d_k h ik) <= mint I h (fun im => d_dndm h im * (2 * d_m h im / (rs im ^ 2 * H im)) ^ 2) (Some (mmin_1h h (d_m h 0%nat) (d_k h ik))) / d_rho0 h ^ 2.
  Proof.
    intros R0. exists (fun im => base_rs o (d_m h im) (conc im) false).
    assert (SM : s_moore s = false) by (destruct S1 as [<-|[<-|[]]]; reflexivity).
    assert (RS : forall im, (im < d_nm h)%nat -> rs_from_m s o (d_m h im) (Some (conc im)) None = Ok (base_rs o (d_m h im) (conc im) false)) by (intros; unfold rs_from_m; now rewrite SM).
    split. { intros im Hi. split; [now apply RS|]. destruct (rs_ok o s (d_m h im) (conc im) (CP im Hi)) as [r [E [P _]]]. rewrite (RS im Hi) in E. injection E as <-. exact P. }
    intros H HH ik p Hk Hp L. unfold power_1h_matter in Hp. rewrite (efun_node _ _ _ _ _ _ _ _ _ _ HI GK Hk Hp). unfold p1h_matter, do_1halo.
    assert (M0 : 0 < d_m h 0%nat) by (apply GM; apply GM). set (x := mmin_1h h (d_m h 0%nat) (d_k h ik)) in *.
    assert (XO : xmin_ok h (Some x)) by (split; auto; now apply limit_pos). assert (Kp : 0 < d_k h ik) by now apply GK.
    unfold Rdiv. rewrite <- Rmult_assoc. apply Rmult_le_compat_r. { left. apply Rinv_0_lt_compat, pow_lt. lra. }
    rewrite <- mint_scal by auto. apply mint_le; auto. intros i Hi.
    destruct (c151_positive Si Ci s o (d_k h ik) (d_m h i) (conc i) SC S1 OK Kp (CP i Hi)) as [v [r [R [Pr [U [V D]]]]]]. rewrite (WM ik i Hk Hi) in U. injection U as <-.
    rewrite (RS i Hi) in R. injection R as <-. specialize (D (H i) (HH i Hi)). set (rr := base_rs o (d_m h i) (conc i) false) in *. set (uu := d_ukm h ik i) in *. set (kk := d_k h ik) in *.
    assert (HP : 0 < H i). { assert (HA : In s (analytic_fourier Si Ci)) by (simpl in *; tauto). destruct (fourier_mass _ _ _ HA) as [HMm _]. destruct (good_all _ _ _ _ HMm) as [G _]. assert (Q := good_pos s (conc i) G (CP i Hi)).
      assert (MI : mass_integral (s_f s) (conc i) (s_h s (conc i))) by (apply G; assert (W := CP i Hi); lra). assert (EH : H i = s_h s (conc i)) by (rewrite <- (rint_u _ _ _ _ (HH i Hi)); now apply rint_u). lra. }
    assert (Mi : 0 < d_m h i) by now apply GM. assert (Q : 0 < rr ^ 2 * H i) by (apply Rmult_lt_0_compat; auto; apply pow_lt; auto).
    assert (B : kk ^ 2 * uu <= 2 / (rr ^ 2 * H i)). { apply Rmult_le_reg_r with (rr ^ 2 * H i); auto. replace (2 / (rr ^ 2 * H i) * (rr ^ 2 * H i)) with 2 by (field; lra). replace (kk ^ 2 * uu * (rr ^ 2 * H i)) with (uu * ((kk * rr) ^ 2 * H i)) by ring. exact D. }
    assert (B0 : 0 <= kk ^ 2 * uu) by (apply Rmult_le_pos; [apply pow2_ge_0|lra]).
    assert (B2 : (kk ^ 2 * uu) ^ 2 <= (2 / (rr ^ 2 * H i)) ^ 2) by (apply pow_incr; lra).
    replace (kk ^ 4 * (d_dndm h i * d_m h i ^ 2 * uu ^ 2)) with (d_dndm h i * (d_m h i ^ 2 * (kk ^ 2 * uu) ^ 2)) by ring.
    change (2 * d_m h i * / (rr ^ 2 * H i)) with (2 * d_m h i / (rr ^ 2 * H i)). replace ((2 * d_m h i / (rr ^ 2 * H i)) ^ 2) with (d_m h i ^ 2 * (2 / (rr ^ 2 * H i)) ^ 2) by (field; split; apply Rgt_not_eq; lra).
    apply Rmult_le_compat_l; auto. apply Rmult_le_compat_l; auto. apply pow2_ge_0.
  Qed.
End Tables.
Print Assumptions c151_one_halo_terms_nonnegative.
Print Assumptions c151_matter_decay.

(** the hypotheses are met: three masses, NFW matter and Hernquist tracer, Zehavi05, the step quadrature, linear interpolation *)
Definition table_ (f : nat -> nat -> res R) (i j : nat) : R := match f i j with Ok v => v | Raise _ => 0 end.
Example c151_met : exists Si Ci h t, let s := NFW Si Ci in let st := Hernquist Si Ci in
  q_linear step_quad /\ q_positive step_quad /\ q_zero_outside step_quad /\ interpolates linterp /\ grid (d_nm h) (d_m h) /\ grid (d_nk h) (d_k h) /\
  sine_cosine_integrals Si Ci /\ inst_ok ex_inst /\ (forall im, (im < d_nm h)%nat -> 0 <= d_dndm h im) /\
  (forall ik im, (ik < d_nk h)%nat -> (im < d_nm h)%nat -> u s ex_inst (d_k h ik) (d_m h im) (Some "m"%string) (Some 10) "k" = Ok (d_ukm h ik im)) /\
  (forall ik im, (ik < d_nk h)%nat -> (im < d_nm h)%nat -> u st ex_inst (d_k h ik) (d_m h im) (Some "m"%string) (Some 10) "k" = Ok (t_ukm t ik im)) /\
  (forall im, (im < d_nm h)%nat -> all_nonneg (t_hod t) (d_m h im)) /\ 0 < h_mmin (t_hod t) /\ xmin_ok h (tracer_mmin (t_hod t)) /\ 0 < d_rho0 h /\
  mmin_1h h (d_m h 0%nat) (d_k h 0%nat) <= d_m h (d_nm h - 1)%nat.
Proof.
  destruct sici_exist as [Si [Ci [HS _]]].
  set (tb := fun s => table_ (fun ik im => u s ex_inst 1 (d_m h0 im) (Some "m"%string) (Some 10) "k")).
  exists Si, Ci, (mkDM 3 (d_m h0) (d_dndm h0) (d_bias h0) 1 1 (fun _ => 1) [1] (fun _ => 1) (fun _ => 1) (fun _ => 1) Linear 1 (fun _ => 1) (tb (NFW Si Ci)) None 1 1 200 false true true None),
    (mkTr (Zehavi05 true 12 13 1) (tb (Hernquist Si Ci)) (fun _ _ => 1) None). cbv zeta.
  split; [exact step_quad_linear|]. split; [exact step_quad_positive|]. split; [exact step_quad_zero_outside|]. split; [exact interpolates_linterp|]. split; [exact h0_grid|].
  split; [repeat split; simpl; intros; try lia; lra|]. split; auto. split; [apply ex_inst_ok|]. split; [intros; simpl; lra|].
  assert (W : forall s im, In s [NFW Si Ci; Hernquist Si Ci] -> u s ex_inst 1 (d_m h0 im) (Some "m"%string) (Some 10) "k" = Ok (tb s 0%nat im)).
  { intros s im Hs. unfold tb, table_. destruct (c151_positive Si Ci s ex_inst 1 (d_m h0 im) 10 HS Hs (proj1 ex_inst_ok) ltac:(lra) ltac:(lra)) as [v [rs [_ [_ [U _]]]]]. now rewrite U. }
  split; [intros ik im _ _; change (u (NFW Si Ci) ex_inst 1 (d_m h0 im) (Some "m"%string) (Some 10) "k" = Ok (tb (NFW Si Ci) 0%nat im)); apply W; simpl; auto|].
  split; [intros ik im _ _; change (u (Hernquist Si Ci) ex_inst 1 (d_m h0 im) (Some "m"%string) (Some 10) "k" = Ok (tb (Hernquist Si Ci) 0%nat im)); apply W; simpl; auto|].
  split; [intros im Hm; apply (c01_nonneg true 12 13 1 1 1 1 1 1 1 1 1 1 1 1 (d_m h0 im) (mkSpin 1 1 1 1 1 1 1 1 1 1 1 1 1 1 1)); now apply h0_grid|]. split; [simpl; lra|]. split; [exact (proj1 c58_nonvacuous)|]. split; [simpl; lra|].
  unfold mmin_1h. simpl d_turnover. cbv iota. left. apply h0_grid; simpl; lia.
Qed.
