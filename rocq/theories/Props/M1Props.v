(** C156: what the parameter M_1 of an HOD does to a sample. *)
From Coq Require Import String Reals Lra Lia Bool Psatz List Arith.
From Coquelicot Require Import Coquelicot.
From Verif Require Import Model.RBool Model.SpecialFn Model.Profiles Model.SplineInt Model.ExtSpline Model.Quad Model.Exclusion Model.HOD Model.HaloModel.
From Verif Require Import Spec.HMSpec Proofs.Calc Proofs.Erf Proofs.HODProofs Proofs.HMProofs Props.HODProps Props.HaloModelProps Props.HaloModelProps2 Props.HMTotalProps Props.CompositeProps Props.SampleOrderProps.
Import ListNotations.
Local Open Scope R_scope.

(** [hd'] has the centrals and the lower mass of [hd], and [k] times its satellites *)
Definition sats_scaled (k : R) (hd hd' : hod) : Prop :=
  h_mmin hd' = h_mmin hd /\ tracer_mmin hd' = tracer_mmin hd /\
  forall m, 0 < m -> central_occupation hd' m = central_occupation hd m /\ satellite_occupation hd' m = k * satellite_occupation hd m /\
    cs_pairs hd' m = k * cs_pairs hd m /\ ss_pairs hd' m = k ^ 2 * ss_pairs hd m.

(** the HODs of the library as functions of M_1, with the slope of their satellites in M_1 *)
Definition families (c : bool) (Mmin alpha M0 sig Mcut Mmax A : R) : list ((R -> hod) * R) :=
  [ (fun M => Zehavi05 c Mmin M alpha, alpha); (fun M => Zheng05 c Mmin M alpha M0 sig, alpha); (fun M => Tinker05 c Mmin M Mcut, 1);
    (fun M => Zehavi05WithMax c Mmin M alpha Mmax, alpha); (fun M => Zehavi05Marked c Mmin M A alpha Mmax, alpha) ].

Lemma sat_power : forall x M M' a, 0 < x -> Rpower (x / pow10 M') a = pow10 (a * (M - M')) * Rpower (x / pow10 M) a.
Proof.
  intros x M M' a Hx. assert (P1 : 0 < pow10 M) by apply exp_pos. assert (P2 : 0 < pow10 M') by apply exp_pos.
  replace (x / pow10 M') with (pow10 (M - M') * (x / pow10 M)).
  - rewrite <- Rpower_mult_distr; [|apply exp_pos|now apply Rdiv_lt_0_compat]. f_equal. unfold pow10. rewrite Rpower_mult. f_equal. ring.
  - unfold pow10, Rminus. rewrite Rpower_plus, Rpower_Ropp. fold (pow10 M). fold (pow10 M'). field. lra.
Qed.
Theorem c156_power_law : forall c Mmin alpha M0 sig Mcut Mmax A fam a, In (fam, a) (families c Mmin alpha M0 sig Mcut Mmax A) ->
  forall M M', sats_scaled (Rpower 10 (a * (M - M'))) (fam M) (fam M').
Proof.
  intros c Mmin alpha M0 sig Mcut Mmax A fam a H M M'. fold (pow10 (a * (M - M'))).
  enough (K : h_mmin (fam M') = h_mmin (fam M) /\ tracer_mmin (fam M') = tracer_mmin (fam M) /\ h_central (fam M') = h_central (fam M) /\ h_kind (fam M') = h_kind (fam M) /\
    forall m, 0 < m -> h_tpc (fam M') m = h_tpc (fam M) m /\ central_occupation (fam M') m = central_occupation (fam M) m /\ satellite_occupation (fam M') m = pow10 (a * (M - M')) * satellite_occupation (fam M) m).
  { destruct K as [K1 [K2 [K3 [K4 K5]]]]. split; auto. split; auto. intros m Hm. destruct (K5 m Hm) as [E1 [E2 E3]]. split; auto. split; auto. unfold cs_pairs, ss_pairs. rewrite K3, K4, E1, E2, E3.
    split; [|ring]. destruct (h_kind (fam M)); [|ring]. destruct (h_central (fam M)); ring. }
  destruct H as [H|[H|[H|[H|[H|[]]]]]]; inversion H; subst; clear H; (split; [reflexivity|split; [reflexivity|split; [reflexivity|split; [reflexivity|intros m Hm; split; [reflexivity|split; [reflexivity|]]]]]]).
  - unfold satellite_occupation. simpl h_central. simpl h_inherent. simpl h_so. unfold zehavi_so. rewrite (sat_power m M M') by auto. unfold nc. simpl. unfold central_occupation. simpl. destruct c; simpl; ring.
  - unfold satellite_occupation. simpl h_central. simpl h_inherent. simpl h_so. assert (E : zheng_so M' a M0 m = pow10 (a * (M - M')) * zheng_so M a M0 m).
    { unfold zheng_so. destruct (Rltb (pow10 M0) m) eqn:E; [|ring]. apply Rltb_spec in E. apply sat_power. lra. }
    rewrite E. unfold nc. simpl. unfold central_occupation. simpl. destruct c; simpl; ring.
  - unfold satellite_occupation. simpl h_central. simpl h_inherent. rewrite andb_false_r. simpl h_so. unfold tinker_so.
    assert (E := sat_power m M M' 1 Hm). assert (P1 : 0 < pow10 M) by apply exp_pos. assert (P2 : 0 < pow10 M') by apply exp_pos. rewrite !Rpower_1 in E by (now apply Rdiv_lt_0_compat). rewrite E. set (X := pow10 (1 * (M - M'))). rewrite ?andb_false_r. cbv iota. ring.
  - unfold satellite_occupation. simpl h_central. simpl h_inherent. simpl h_so. unfold zehavi_so. rewrite (sat_power m M M') by auto. unfold nc. simpl. unfold central_occupation. simpl. destruct c; simpl; ring.
  - unfold satellite_occupation. simpl h_central. simpl h_inherent. simpl h_so. unfold zehavi_so. rewrite (sat_power m M M') by auto. unfold nc. simpl. unfold central_occupation. simpl. destruct c; simpl; ring.
Qed.
Print Assumptions c156_power_law.

Section M1.
  Variables (I : quadrature) (spline : nat -> (list R -> list R -> R -> R)) (uspline : list R -> list R -> R -> R) (h : dmhm) (k : R) (t t' : tracer).
  Hypothesis LI : q_linear I.
  Hypothesis GM : grid (d_nm h) (d_m h).
  Hypothesis SC : sats_scaled k (t_hod t) (t_hod t').
  Let n := mean_tracer_den I h t.
  Let n' := mean_tracer_den I h t'.
  (** the mean bias of the satellites alone *)
  Let S := tint I h t (fun i => d_dndm h i * satellite_occupation (t_hod t) (d_m h i)).
  Let b_sat := tint I h t (fun i => d_dndm h i * satellite_occupation (t_hod t) (d_m h i) * d_bias h i) / S.
  Lemma pos_m : forall i, (i < d_nm h)%nat -> 0 < d_m h i. Proof. apply GM. Qed.
  Lemma tint_t : forall f, tint I h t' f = tint I h t f.
  Proof. intros f. unfold tint. destruct SC as [_ [-> _]]. reflexivity. Qed.
  Lemma same_cut : cut (t_hod t') = cut (t_hod t).
  Proof. destruct SC as [_ [E _]]. unfold tracer_mmin in E. destruct (cut (t_hod t')), (cut (t_hod t)); congruence. Qed.
  Lemma occ_m : forall i, (i < d_nm h)%nat -> tot_int (t_hod t') (d_m h i) = tot_int (t_hod t) (d_m h i) + (k - 1) * satellite_occupation (t_hod t) (d_m h i).
  Proof. intros i Hi. destruct SC as [_ [_ O]]. destruct (O _ (pos_m i Hi)) as [C [Q _]]. unfold tot_int, cen_int. rewrite same_cut, C, Q. ring. Qed.
  Lemma tint_split : forall w, tint I h t' (fun i => d_dndm h i * tot_int (t_hod t') (d_m h i) * w i) =
    tint I h t (fun i => d_dndm h i * tot_int (t_hod t) (d_m h i) * w i) + (k - 1) * tint I h t (fun i => d_dndm h i * satellite_occupation (t_hod t) (d_m h i) * w i).
  Proof. intros w. rewrite tint_t. unfold tint. rewrite <- mint_lin by auto. apply mint_ext. intros i Hi. rewrite occ_m by auto. ring. Qed.
  Lemma den_split : n' = n + (k - 1) * S.
  Proof.
    unfold n', n, S, mean_tracer_den. assert (E := tint_split (fun _ => 1)). assert (K : forall x f, tint I h x (fun i => f i * 1) = tint I h x f) by (intros; unfold tint; apply mint_ext; intros; ring).
    rewrite !K in E. exact E.
  Qed.
  Lemma sats_k : tint I h t' (fun i => d_dndm h i * satellite_occupation (t_hod t') (d_m h i)) = k * S.
  Proof. rewrite tint_t. unfold S, tint. rewrite <- mint_scal by auto. apply mint_ext. intros i Hi. destruct SC as [_ [_ O]]. destruct (O _ (pos_m i Hi)) as [_ [-> _]]. ring. Qed.
  Hypothesis NZ : n <> 0.
  Let f := satellite_fraction I h t.
  Lemma frac_n : f * n = S. Proof. unfold f, satellite_fraction. fold n. fold S. field. auto. Qed.

  (** the density, the satellite fraction, and the satellites per central *)
  Theorem c156_density : n' = n * (1 + (k - 1) * f).
  Proof. rewrite den_split, <- frac_n. ring. Qed.
  Hypothesis NZ' : n' <> 0.
  Theorem c156_fractions : satellite_fraction I h t' = k * f / (1 + (k - 1) * f) /\ central_fraction I h t' = central_fraction I h t / (1 + (k - 1) * f) /\
    satellite_fraction I h t' * central_fraction I h t = k * (satellite_fraction I h t * central_fraction I h t').
  Proof.
    assert (D := c156_density). assert (Q : 1 + (k - 1) * f <> 0) by (intros E; rewrite E in D; apply NZ'; rewrite D; ring).
    assert (E : satellite_fraction I h t' = k * f / (1 + (k - 1) * f)).
    { unfold satellite_fraction. fold n'. rewrite sats_k, <- frac_n, D. field. auto. }
    split; auto. unfold central_fraction. rewrite E. fold f. split; field; auto.
  Qed.
  (** the effective bias moves from that of the whole sample towards that of its satellites *)
  Theorem c156_bias : S <> 0 -> bias_effective_tracer I h t' - b_sat = (bias_effective_tracer I h t - b_sat) / (1 + (k - 1) * f).
  Proof.
    intros SZ. assert (D := c156_density). assert (Q : 1 + (k - 1) * f <> 0) by (intros E; rewrite E in D; apply NZ'; rewrite D; ring).
    unfold bias_effective_tracer. fold n. fold n'. rewrite tint_split, D. set (B := tint I h t (fun i => d_dndm h i * tot_int (t_hod t) (d_m h i) * d_bias h i)).
    assert (E : tint I h t (fun i => d_dndm h i * satellite_occupation (t_hod t) (d_m h i) * d_bias h i) = b_sat * (f * n)) by (rewrite frac_n; unfold b_sat; field; auto). rewrite E. field. split; auto.
  Qed.
  (** 1-halo power at the tabulated wavenumbers *)
  Theorem c156_one_halo : forall ik s s' c c', interpolates (spline 3%nat) -> grid (d_nk h) (d_k h) -> (ik < d_nk h)%nat -> t_ukm t' = t_ukm t ->
    power_1h_ss I spline uspline h t = Ok s -> power_1h_ss I spline uspline h t' = Ok s' -> power_1h_cs I spline uspline h t = Ok c -> power_1h_cs I spline uspline h t' = Ok c' ->
    n' ^ 2 * s' (d_k h ik) = k ^ 2 * (n ^ 2 * s (d_k h ik)) /\ n' ^ 2 * c' (d_k h ik) = k * (n ^ 2 * c (d_k h ik)).
  Proof.
    intros ik s s' c c' HI GK Hk U A A' B B'. unfold power_1h_ss in A, A'. unfold power_1h_cs in B, B'. cbv zeta in B, B'.
    rewrite (efun_node _ _ _ _ _ _ _ _ _ _ HI GK Hk A), (efun_node _ _ _ _ _ _ _ _ _ _ HI GK Hk A'), (efun_node _ _ _ _ _ _ _ _ _ _ HI GK Hk B), (efun_node _ _ _ _ _ _ _ _ _ _ HI GK Hk B').
    assert (E : forall X y, y <> 0 -> y ^ 2 * (X / y ^ 2) = X) by (intros; field; auto). unfold p1h_ss, p1h_cs, do_1halo. fold n. fold n'. rewrite !E by auto.
    destruct SC as [-> [_ O]]. rewrite U. rewrite <- !mint_scal by auto. split; apply mint_ext; intros i Hi; destruct (O _ (pos_m i Hi)) as [_ [_ [O1 O2]]]; rewrite ?O1, ?O2; ring.
  Qed.
End M1.
Print Assumptions c156_density.
Print Assumptions c156_fractions.
Print Assumptions c156_bias.
Print Assumptions c156_one_halo.

(** ** fitting M_1 *)
Section Fit.
  Variables (I : quadrature) (h : dmhm) (u rho : nat -> nat -> R) (lam : option (nat -> nat -> R)).
  Hypothesis LI : q_linear I.
  Hypothesis GM : grid (d_nm h) (d_m h).
  Variables (c : bool) (Mmin alpha M0 sig Mcut Mmax A : R) (fam : R -> hod) (a : R).
  Hypothesis FAM : In (fam, a) (families c Mmin alpha M0 sig Mcut Mmax A).
  Hypothesis AZ : a <> 0.
  Let t (M : R) := mkTr (fam M) u rho lam.
  Variable M1 : R.
  Hypothesis N : 0 < mean_tracer_den I h (t M1).
  Hypothesis F : 0 < satellite_fraction I h (t M1) < 1.
  Let f := satellite_fraction I h (t M1).
  Let ratio (M : R) := Rpower 10 (a * (M1 - M)).
  Lemma ratio_pos : forall M, 0 < ratio M. Proof. intros; apply exp_pos. Qed.
  Lemma at_M : forall M, mean_tracer_den I h (t M) = mean_tracer_den I h (t M1) * (1 + (ratio M - 1) * f) /\ satellite_fraction I h (t M) = ratio M * f / (1 + (ratio M - 1) * f) /\ 0 < 1 + (ratio M - 1) * f.
  Proof.
    intros M. assert (S := c156_power_law _ _ _ _ _ _ _ _ _ _ FAM M1 M). assert (R0 := ratio_pos M). fold f in F. assert (P : 0 < 1 + (ratio M - 1) * f) by (assert (0 < ratio M * f) by (apply Rmult_lt_0_compat; lra); lra).
    assert (D := c156_density I h _ (t M1) (t M) LI GM S ltac:(lra)). split; [exact D|split; auto].
    apply (c156_fractions I h _ (t M1) (t M) LI GM S ltac:(lra)). rewrite D. fold f. fold (ratio M). apply Rgt_not_eq. apply Rmult_lt_0_compat; lra.
  Qed.
  Lemma ratio_onto : forall r, 0 < r -> exists! M, ratio M = r.
  Proof.
    intros r Hr. assert (L : 0 < ln 10) by (rewrite <- ln_1; apply ln_increasing; lra). exists (M1 - ln r / ln 10 / a). split.
    - unfold ratio, Rpower. replace (a * (M1 - (M1 - ln r / ln 10 / a)) * ln 10) with (ln r) by (field; lra). now apply exp_ln.
    - intros M HM. unfold ratio, Rpower in HM. rewrite <- HM, ln_exp. field. lra.
  Qed.
  (** exactly one value of M_1 gives a wanted satellite fraction *)
  Theorem c156_fit_fraction : forall g, 0 < g < 1 -> exists! M, satellite_fraction I h (t M) = g.
  Proof.
    intros g G. fold f in F. assert (Q : 0 < g * (1 - f) / (f * (1 - g))) by (apply Rdiv_lt_0_compat; apply Rmult_lt_0_compat; lra).
    destruct (ratio_onto _ Q) as [M [HM U]]. exists M. split.
    - destruct (at_M M) as [_ [E P]]. assert (K : ratio M * (f * (1 - g)) = g * (1 - f)) by (rewrite HM; field; lra). rewrite E. apply Rmult_eq_reg_r with (1 + (ratio M - 1) * f); [|lra].
      unfold Rdiv. rewrite Rmult_assoc, Rinv_l by lra. lra.
    - intros M' HM'. apply U. destruct (at_M M') as [_ [E P]]. rewrite E in HM'. assert (K : ratio M' * f = g * (1 + (ratio M' - 1) * f)) by (rewrite <- HM'; field; lra).
      apply Rmult_eq_reg_r with (f * (1 - g)); [|apply Rgt_not_eq, Rmult_lt_0_compat; lra]. unfold Rdiv. rewrite Rmult_assoc, Rinv_l by (apply Rgt_not_eq, Rmult_lt_0_compat; lra). lra.
  Qed.
  (** and exactly one a wanted density, provided it exceeds that of the centrals *)
  Theorem c156_fit_density : forall d, mean_tracer_den I h (t M1) * central_fraction I h (t M1) < d -> exists! M, mean_tracer_den I h (t M) = d.
  Proof.
    intros d Hd. unfold central_fraction in Hd. fold f in F, Hd. set (n := mean_tracer_den I h (t M1)) in *. assert (Q : 0 < (d / n - 1) / f + 1).
    { replace ((d / n - 1) / f + 1) with ((d - n * (1 - f)) / (n * f)) by (field; lra). apply Rdiv_lt_0_compat; [lra|apply Rmult_lt_0_compat; lra]. }
    destruct (ratio_onto _ Q) as [M [HM U]]. exists M. split.
    - destruct (at_M M) as [-> _]. rewrite HM. fold n. field. lra.
    - intros M' HM'. apply U. destruct (at_M M') as [E _]. rewrite E in HM'. fold n in HM'. rewrite <- HM'. field. lra.
  Qed.
  (** the densities and fractions that no M_1 gives *)
  Theorem c156_fit_bounds : forall M, mean_tracer_den I h (t M1) * central_fraction I h (t M1) < mean_tracer_den I h (t M) /\ 0 < satellite_fraction I h (t M) < 1 /\
    mean_tracer_den I h (t M) * central_fraction I h (t M) = mean_tracer_den I h (t M1) * central_fraction I h (t M1).
  Proof.
    intros M. destruct (at_M M) as [E1 [E2 P]]. assert (R0 := ratio_pos M). unfold central_fraction. rewrite E1, E2. fold f in F |- *. set (n := mean_tracer_den I h (t M1)) in *. assert (Q : 0 < ratio M * f) by (apply Rmult_lt_0_compat; lra).
    split; [|split; [split|]].
    - apply Rmult_lt_compat_l; lra.
    - apply Rdiv_lt_0_compat; lra.
    - apply Rmult_lt_reg_r with (1 + (ratio M - 1) * f); auto. unfold Rdiv. rewrite Rmult_assoc, Rinv_l by lra. lra.
    - field. lra.
  Qed.
End Fit.
Print Assumptions c156_fit_fraction.
Print Assumptions c156_fit_density.
Print Assumptions c156_fit_bounds.

(** the hypotheses are met by the error-function HOD on the three masses of the example *)
Example c156_met : let t := mkTr (Zheng05 true 12 13 1 6 0.5) (fun _ _ => 1) (fun _ _ => 1) None in
  0 < mean_tracer_den step_quad h1_ex t /\ 0 < satellite_fraction step_quad h1_ex t < 1.
Proof.
  intros t. assert (Z : forall m, 10 ^ 11 <= m -> 0 < zheng_so 13 1 6 m).
  { intros m Hm. unfold zheng_so. replace (Rltb (pow10 6) m) with true; [apply exp_pos|]. symmetry. apply Rltb_spec. unfold pow10. replace 6 with (INR 6) by (simpl; lra). rewrite p10. apply Rlt_le_trans with (10 ^ 11); auto. apply Rlt_pow; [lra|lia]. }
  assert (C : forall m, 0 < zheng_co 12 0.5 m) by (intros m; unfold zheng_co; assert (Q := erf_range ((log10 m - 12) / 0.5)); lra).
  assert (M : forall i, (i < 3)%nat -> 10 ^ 11 <= d_m h1_ex i).
  { intros i Hi. change (d_m h1_ex i) with (10 ^ (11 + i)). apply Rle_pow; [lra|lia]. }
  assert (T : forall i, (i < 3)%nat -> tot_int (t_hod t) (d_m h1_ex i) = zheng_co 12 0.5 (d_m h1_ex i) + satellite_occupation (t_hod t) (d_m h1_ex i)) by reflexivity.
  assert (S : forall i, (i < 3)%nat -> 0 < satellite_occupation (t_hod t) (d_m h1_ex i)).
  { intros i Hi. unfold satellite_occupation, t. simpl h_central. simpl h_inherent. simpl negb. cbv iota beta. simpl andb. cbv iota. unfold nc. simpl h_kind. cbv iota. simpl h_so. simpl h_tpc. unfold one, central_occupation. simpl h_kind. cbv iota. simpl h_co.
    specialize (M i Hi). specialize (C (d_m h1_ex i)). specialize (Z _ M). apply Rmult_lt_0_compat; auto. apply Rdiv_lt_0_compat; [exact C|lra]. }
  assert (N : 0 < mean_tracer_den step_quad h1_ex t).
  { apply mint3_pos. intros i Hi. change (d_dndm h1_ex i) with 1. rewrite Rmult_1_l, T by auto. specialize (S i Hi). specialize (C (d_m h1_ex i)). lra. }
  split; auto. unfold satellite_fraction. set (s := tint step_quad h1_ex t (fun i => d_dndm h1_ex i * satellite_occupation (t_hod t) (d_m h1_ex i))).
  assert (SP : 0 < s) by (apply mint3_pos; intros i Hi; change (d_dndm h1_ex i) with 1; rewrite Rmult_1_l; auto).
  assert (SN : s < mean_tracer_den step_quad h1_ex t).
  { assert (K : mean_tracer_den step_quad h1_ex t = tint step_quad h1_ex t (fun i => d_dndm h1_ex i * zheng_co 12 0.5 (d_m h1_ex i)) + s).
    { unfold s, mean_tracer_den, tint. rewrite <- mint_plus by (try exact step_quad_linear; exact h0_grid). apply mint_ext. intros i Hi. rewrite T by exact Hi. ring. }
    rewrite K. assert (0 < tint step_quad h1_ex t (fun i => d_dndm h1_ex i * zheng_co 12 0.5 (d_m h1_ex i))); [|lra]. apply mint3_pos. intros i Hi. change (d_dndm h1_ex i) with 1. rewrite Rmult_1_l. apply C. }
  split; [now apply Rdiv_lt_0_compat|]. apply Rmult_lt_reg_r with (mean_tracer_den step_quad h1_ex t); auto. unfold Rdiv. rewrite Rmult_assoc, Rinv_l by lra. lra.
Qed.
