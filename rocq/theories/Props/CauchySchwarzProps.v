(** C152: the cross-correlation coefficient of tracer and matter in the 1-halo terms. *)
From Coq Require Import Reals Lra Lia Bool Psatz String List Arith.
From Verif Require Import Model.RBool Model.Profiles Model.SplineInt Model.ExtSpline Model.Quad Model.Exclusion Model.HOD Model.HaloModel.
From Verif Require Import Spec.HMSpec Spec.ExclSpec Proofs.HODProofs Proofs.HMProofs Props.HODProps Props.HaloModelProps Props.HaloModelProps2 Props.FindMminProps Props.HMTotalProps.
Import ListNotations.
Local Open Scope R_scope.

(** Cauchy-Schwarz for a positive linear functional *)
Lemma discriminant : forall a b c, 0 <= a -> (forall l, 0 <= a * l ^ 2 + 2 * b * l + c) -> b ^ 2 <= a * c.
Proof.
  intros a b c Ha H. destruct (Req_dec a 0) as [E|E].
  - subst a. assert (C := H 0). destruct (Req_dec b 0) as [->|B]; [nra|]. specialize (H (- (c + 1) / (2 * b))). exfalso.
    replace (0 * (- (c + 1) / (2 * b)) ^ 2 + 2 * b * (- (c + 1) / (2 * b)) + c) with (-1) in H by (field; auto). lra.
  - specialize (H (- b / a)). replace (a * (- b / a) ^ 2 + 2 * b * (- b / a) + c) with (c - b ^ 2 / a) in H by (field; auto).
    assert (P : 0 < a) by lra. apply Rmult_le_compat_l with (r := a) in H; [|lra]. replace (a * (c - b ^ 2 / a)) with (a * c - b ^ 2) in H by (field; auto). lra.
Qed.
Lemma mint_cauchy_schwarz : forall I h x (w f g : nat -> R), q_linear I -> q_positive I -> grid (d_nm h) (d_m h) -> xmin_ok h x -> (forall i, (i < d_nm h)%nat -> 0 <= w i) ->
  mint I h (fun i => w i * (f i * g i)) x ^ 2 <= mint I h (fun i => w i * f i ^ 2) x * mint I h (fun i => w i * g i ^ 2) x.
Proof.
  intros I h x w f g L P G X W. apply discriminant.
  - apply mint_pos; auto. intros i Hi. apply Rmult_le_pos; auto. apply pow2_ge_0.
  - intros l. assert (Q : 0 <= mint I h (fun i => w i * (l * f i + g i) ^ 2) x) by (apply mint_pos; auto; intros i Hi; apply Rmult_le_pos; auto; apply pow2_ge_0).
    rewrite (mint_ext I h _ (fun i => (w i * g i ^ 2 + (2 * l) * (w i * (f i * g i))) + l ^ 2 * (w i * f i ^ 2))) in Q by (intros; ring).
    rewrite (mint_lin I h (fun i => w i * g i ^ 2 + (2 * l) * (w i * (f i * g i))) (fun i => w i * f i ^ 2) (l ^ 2) x L G) in Q.
    rewrite (mint_lin I h (fun i => w i * g i ^ 2) (fun i => w i * (f i * g i)) (2 * l) x L G) in Q. lra.
Qed.

Section CS.
  Variables (I : quadrature) (spline : nat -> list R -> list R -> R -> R) (uspline : list R -> list R -> R -> R).
  Variables (h : dmhm) (t : tracer).
  Hypothesis LI : q_linear I.
  Hypothesis PI_ : q_positive I.
  Hypothesis AI : q_additive I.
  Hypothesis ZI : q_zero_outside I.
  Hypothesis HI : interpolates (spline 3%nat).
  Hypothesis GM : grid (d_nm h) (d_m h).
  Hypothesis GK : grid (d_nk h) (d_k h).
  Hypothesis DN : forall im, (im < d_nm h)%nat -> 0 <= d_dndm h im.
  Hypothesis R0 : 0 < d_rho0 h.
  Hypothesis MD : 0 < mean_tracer_den I h t.
  Hypothesis MM : 0 < h_mmin (t_hod t) <= d_m h 0%nat.

  (** the number of centrals the integrals use (1 above a sharp cut), and the central-central pairs per volume and squared density *)
  Definition central_pairs : R := tint I h t (fun im => d_dndm h im * cen_int (t_hod t) (d_m h im) ^ 2) / mean_tracer_den I h t ^ 2.

  Lemma p_tm_at : forall ik p, (ik < d_nk h)%nat -> power_1h_tm I spline uspline h t = Ok p -> p (d_k h ik) = p1h_tm I h t ik.
  Proof. intros ik p Hk H. unfold power_1h_tm in H. exact (efun_node _ _ _ _ _ _ _ _ _ _ HI GK Hk H). Qed.
  Lemma p_tt_at : forall ik p, (ik < d_nk h)%nat -> power_1h_tracer I spline uspline h t = Ok p -> p (d_k h ik) = p1h_cs I h t ik + p1h_ss I h t ik.
  Proof.
    intros ik p Hk H. unfold power_1h_tracer in H. apply bind_ok in H. destruct H as [a [A H]]. apply bind_ok in H. destruct H as [b [B H]]. injection H as <-. unfold sum_callable.
    unfold power_1h_cs in A. unfold power_1h_ss in B. rewrite (efun_node _ _ _ _ _ _ _ _ _ _ HI GK Hk A), (efun_node _ _ _ _ _ _ _ _ _ _ HI GK Hk B). ring.
  Qed.
  Lemma p_mm_at : forall ik p, (ik < d_nk h)%nat -> power_1h_matter I spline uspline h = Ok p -> p (d_k h ik) = p1h_matter I h ik.
  Proof. intros ik p Hk H. unfold power_1h_matter in H. exact (efun_node _ _ _ _ _ _ _ _ _ _ HI GK Hk H). Qed.

  (** without the turnover, and with at least as many central-satellite pairs as expected of independent counts: the squared
      tracer-matter power is at most matter power times (tracer power + central-central pairs) *)
  Theorem c152_coefficient_at_most_one : d_turnover h = false -> 
    match tracer_mmin (t_hod t) with Some x => d_m h 0%nat <= x <= d_m h (d_nm h - 1)%nat | None => True end ->
    (forall im, (im < d_nm h)%nat -> 0 <= cen_int (t_hod t) (d_m h im) * satellite_occupation (t_hod t) (d_m h im) <= cs_pairs (t_hod t) (d_m h im)) ->
    forall ik, (ik < d_nk h)%nat -> (forall im, (im < d_nm h)%nat -> 0 <= t_ukm t ik im) ->
    forall pmm ptt ptm, power_1h_matter I spline uspline h = Ok pmm -> power_1h_tracer I spline uspline h t = Ok ptt -> power_1h_tm I spline uspline h t = Ok ptm ->
      let k := d_k h ik in ptm k ^ 2 <= pmm k * (ptt k + central_pairs).
  Proof.
    intros HT HX HC ik Hk HU pmm ptt ptm H1 H2 H3 k. subst k. rewrite (p_tm_at ik ptm), (p_tt_at ik ptt), (p_mm_at ik pmm) by auto.
    destruct (c60_hod_minimum_mass_never_used I h t ik ZI GM MM) as [-> ->]. unfold p1h_matter, do_1halo, p1h_tm, central_pairs, mmin_1h. rewrite HT.
    set (den := mean_tracer_den I h t) in *. set (x := tracer_mmin (t_hod t)) in *. set (hd := t_hod t) in *.
    assert (M0 : 0 < d_m h 0%nat) by (apply GM; apply GM). assert (N : (0 < d_nm h)%nat) by apply GM.
    assert (X0 : xmin_ok h (Some (d_m h 0%nat))). { split; auto. apply (grid_mono (d_nm h)); auto; lia. }
    assert (XO : xmin_ok h x). { unfold xmin_ok. destruct x; auto. lra. }
    unfold tint. fold hd. fold x.
    (* the range of the tracer integrals is inside that of the power *)
    assert (SUB : forall f, (forall i, (i < d_nm h)%nat -> 0 <= f i) -> mint I h f x <= mint I h f (Some (d_m h 0%nat))).
    { intros f F. rewrite !mint_eq by auto. unfold lo_lim. destruct x as [v|]; [|lra].
      rewrite <- (AI (arr (d_nm h) (fun i => ln (d_m h i))) (arr (d_nm h) (fun i => d_m h i * f i)) (ln (d_m h 0%nat)) (ln v) (hi_lim h)).
      assert (0 <= I (arr (d_nm h) (fun i => ln (d_m h i))) (arr (d_nm h) (fun i => d_m h i * f i)) (ln (d_m h 0%nat)) (ln v)); [|lra].
      apply PI_. { destruct HX as [[H|H] _]; [left; now apply ln_increasing|rewrite H; lra]. }
      intros i Hi. apply Rmult_le_pos; [left; now apply GM|auto]. }
    set (A := mint I h (fun im => d_dndm h im * (d_m h im * d_ukm h ik im) ^ 2) x).
    set (B := mint I h (fun im => d_dndm h im * tcen h t ik im ^ 2) x).
    assert (CS := mint_cauchy_schwarz I h x (d_dndm h) (fun im => d_m h im * d_ukm h ik im) (tcen h t ik) LI PI_ GM XO DN). cbv beta in CS. fold A B in CS.
    rewrite (mint_ext I h (fun im => d_dndm h im * d_m h im * d_ukm h ik im * tcen h t ik im) (fun im => d_dndm h im * (d_m h im * d_ukm h ik im * tcen h t ik im))) by (intros; ring).
    set (T := mint I h (fun im => d_dndm h im * (d_m h im * d_ukm h ik im * tcen h t ik im)) x) in *.
    assert (LA : A <= mint I h (fun im => d_dndm h im * d_m h im ^ 2 * d_ukm h ik im ^ 2) (Some (d_m h 0%nat))).
    { unfold A. rewrite (mint_ext I h _ (fun im => d_dndm h im * d_m h im ^ 2 * d_ukm h ik im ^ 2)) by (intros; ring). apply SUB. intros i Hi. apply Rmult_le_pos; [apply Rmult_le_pos; auto|]; apply pow2_ge_0. }
    assert (LB : B <= mint I h (fun im => d_dndm h im * 2 * cs_pairs hd (d_m h im) * t_ukm t ik im) (Some (d_m h 0%nat)) +
      mint I h (fun im => t_ukm t ik im ^ 2 * d_dndm h im * ss_pairs hd (d_m h im)) (Some (d_m h 0%nat)) + mint I h (fun im => d_dndm h im * cen_int hd (d_m h im) ^ 2) x).
    { assert (Q : B <= mint I h (fun im => (d_dndm h im * 2 * cs_pairs hd (d_m h im) * t_ukm t ik im + t_ukm t ik im ^ 2 * d_dndm h im * ss_pairs hd (d_m h im)) + d_dndm h im * cen_int hd (d_m h im) ^ 2) x).
      { unfold B. apply mint_le; auto. intros i Hi. specialize (HC i Hi). specialize (HU i Hi). specialize (DN i Hi). unfold tcen, ss_pairs. fold hd.
        set (c := cen_int hd (d_m h i)) in *. set (s := satellite_occupation hd (d_m h i)) in *. set (uu := t_ukm t ik i) in *. set (q := cs_pairs hd (d_m h i)) in *.
        assert (0 <= d_dndm h i * uu * (q - c * s)) by (repeat apply Rmult_le_pos; lra). 
        replace (d_dndm h i * (c + s * uu) ^ 2) with (d_dndm h i * uu * 2 * (c * s) + uu ^ 2 * d_dndm h i * s ^ 2 + d_dndm h i * c ^ 2) by ring. lra. }
      rewrite mint_plus in Q by auto. rewrite mint_plus in Q by auto.
      assert (F1 : forall i, (i < d_nm h)%nat -> 0 <= d_dndm h i * 2 * cs_pairs hd (d_m h i) * t_ukm t ik i).
      { intros i Hi. specialize (HC i Hi). specialize (HU i Hi). specialize (DN i Hi). repeat apply Rmult_le_pos; auto; lra. }
      assert (F2 : forall i, (i < d_nm h)%nat -> 0 <= t_ukm t ik i ^ 2 * d_dndm h i * ss_pairs hd (d_m h i)).
      { intros i Hi. unfold ss_pairs. apply Rmult_le_pos; [apply Rmult_le_pos; auto|]; apply pow2_ge_0. }
      assert (S1 := SUB _ F1). assert (S2 := SUB _ F2). lra. }
    assert (A0 : 0 <= A) by (unfold A; apply mint_pos; auto; intros i Hi; apply Rmult_le_pos; auto; apply pow2_ge_0).
    assert (B0 : 0 <= B) by (unfold B; apply mint_pos; auto; intros i Hi; apply Rmult_le_pos; auto; apply pow2_ge_0).
    set (PM := mint I h (fun im => d_dndm h im * d_m h im ^ 2 * d_ukm h ik im ^ 2) (Some (d_m h 0%nat))) in *.
    set (PC := mint I h (fun im => d_dndm h im * 2 * cs_pairs hd (d_m h im) * t_ukm t ik im) (Some (d_m h 0%nat))) in *.
    set (PS := mint I h (fun im => t_ukm t ik im ^ 2 * d_dndm h im * ss_pairs hd (d_m h im)) (Some (d_m h 0%nat))) in *.
    set (PCC := mint I h (fun im => d_dndm h im * cen_int hd (d_m h im) ^ 2) x) in *.
    assert (TT : T ^ 2 <= PM * (PC + PS + PCC)). { eapply Rle_trans; [exact CS|]. apply Rmult_le_compat; auto. }
    replace ((T / (den * d_rho0 h)) ^ 2) with (T ^ 2 * / (den ^ 2 * d_rho0 h ^ 2)) by (field; lra).
    replace (PM / d_rho0 h ^ 2 * (PC / den ^ 2 + PS / den ^ 2 + PCC / den ^ 2)) with (PM * (PC + PS + PCC) * / (den ^ 2 * d_rho0 h ^ 2)) by (field; lra).
    apply Rmult_le_compat_r; auto. left. apply Rinv_0_lt_compat. apply Rmult_lt_0_compat; apply pow_lt; auto.
  Qed.
  (** a tracer without centrals (bulk HODs): the coefficient is at most 1 *)
  Theorem c152_bulk : d_turnover h = false -> 
    match tracer_mmin (t_hod t) with Some x => d_m h 0%nat <= x <= d_m h (d_nm h - 1)%nat | None => True end ->
    (forall im, (im < d_nm h)%nat -> cen_int (t_hod t) (d_m h im) = 0 /\ cs_pairs (t_hod t) (d_m h im) = 0) ->
    forall ik, (ik < d_nk h)%nat -> (forall im, (im < d_nm h)%nat -> 0 <= t_ukm t ik im) ->
    forall pmm ptt ptm, power_1h_matter I spline uspline h = Ok pmm -> power_1h_tracer I spline uspline h t = Ok ptt -> power_1h_tm I spline uspline h t = Ok ptm ->
      let k := d_k h ik in ptm k ^ 2 <= pmm k * ptt k.
  Proof.
    intros HT HX HC ik Hk HU pmm ptt ptm H1 H2 H3 k. assert (Q := c152_coefficient_at_most_one HT HX).
    assert (Z : central_pairs = 0). { unfold central_pairs, tint. rewrite (mint_ext I h _ (fun _ => 0)); [rewrite mint_zero by auto; unfold Rdiv; ring|]. intros i Hi. destruct (HC i Hi) as [-> _]. ring. }
    rewrite Z in Q. rewrite <- (Rplus_0_r (ptt k)). apply Q; auto. intros im Hm. destruct (HC im Hm) as [-> ->]. lra.
  Qed.
  (** with the turnover: where its sphere is heavier than every halo, matter and tracer power vanish and the tracer-matter power,
      to which no turnover is applied, is the effective mass over the density (C92) *)
  Theorem c152_turnover_exceeds : d_turnover h = true -> 0 < d_delta h -> xmin_ok h (tracer_mmin (t_hod t)) -> forall ik, (ik < d_nk h)%nat ->
    d_m h (d_nm h - 1)%nat <= 4 / 3 * PI * (PI / (10 * d_k h ik)) ^ 3 * (d_delta h * d_rho0 h) ->
    (forall im, (im < d_nm h)%nat -> 0 <= d_dndm h im * tot_int (t_hod t) (d_m h im)) -> (forall im, (im < d_nm h)%nat -> t_ukm t ik im = 1 /\ d_ukm h ik im = 1) ->
    forall pmm ptt ptm, power_1h_matter I spline uspline h = Ok pmm -> power_1h_tracer I spline uspline h t = Ok ptt -> power_1h_tm I spline uspline h t = Ok ptm ->
      let k := d_k h ik in pmm k = 0 /\ ptt k = 0 /\ ptm k = Rpower 10 (mass_effective I h t) / d_rho0 h /\ forall v, pmm k * (ptt k + v) < ptm k ^ 2.
  Proof.
    intros HT HD XO ik Hk HS HN HU pmm ptt ptm H1 H2 H3 k. subst k. rewrite (p_tm_at ik ptm), (p_tt_at ik ptt), (p_mm_at ik pmm) by auto.
    assert (SR : sphere_radius (d_delta h * d_rho0 h) (4 / 3 * PI * (PI / (10 * d_k h ik)) ^ 3 * (d_delta h * d_rho0 h)) (PI / (10 * d_k h ik))).
    { split; [|reflexivity]. assert (0 < d_k h ik) by now apply GK. apply Rdiv_lt_0_compat; [apply PI_RGT_0|lra]. }
    assert (KP : 0 < d_k h ik) by now apply GK.
    assert (K := fun mm integ md => c60_turnover_kills_large_scales I h mm integ md ik _ ZI GM HT KP SR HS).
    unfold p1h_cs, p1h_ss, p1h_matter. rewrite !K. rewrite (c92_low_k_cross_1h I h t ik LI PI_ GM XO MD ltac:(lra) HN HU).
    split; auto. split; [ring|]. split; auto. intros v. assert (0 < Rpower 10 (mass_effective I h t) / d_rho0 h) by (apply Rdiv_lt_0_compat; auto; apply exp_pos).
    rewrite Rmult_0_l. now apply pow_lt.
  Qed.
End CS.
(** ** the pair hypothesis of [c152_coefficient_at_most_one] holds for the one-per-halo HODs, whatever the flag *)
Theorem c152_named_models : forall central Mmin M1 alpha M0 sig Mcut Mmax m, 0 < m ->
  Forall (fun hd => 0 <= cen_int hd m * satellite_occupation hd m <= cs_pairs hd m)
    [Zehavi05 central Mmin M1 alpha; Zheng05 central Mmin M1 alpha M0 sig; Tinker05 central Mmin M1 Mcut; Zehavi05WithMax central Mmin M1 alpha Mmax].
Proof.
  intros central Mmin M1 alpha M0 sig Mcut Mmax m Hm. assert (ZS : 0 <= zehavi_so M1 alpha m) by (left; apply exp_pos).
  assert (GS : 0 <= zheng_so M1 alpha M0 m) by (unfold zheng_so; destruct (Rltb _ m); [left; apply exp_pos|lra]).
  assert (TS := tinker_so_nonneg Mmin M1 Mcut m Hm). assert (GR := zheng_range Mmin sig m).
  assert (TZ : zehavi_co Mmin m = 0 -> tinker_so Mmin M1 Mcut m = 0) by (intros E; unfold tinker_so; rewrite E; ring).
  assert (CS : 0 <= zheng_co Mmin sig m * zheng_so M1 alpha M0 m) by (apply Rmult_le_pos; lra).
  apply Forall_cons; [|apply Forall_cons; [|apply Forall_cons; [|apply Forall_cons; [|apply Forall_nil]]]].
  all: unfold cs_pairs, cen_int, cut, satellite_occupation, nc, central_occupation; destruct central; simpl; unfold one; rewrite ?Rdiv_1_r, ?Rmult_1_r, ?Rmult_1_l.
  all: try (destruct (zehavi_co_01 Mmin m) as [E|E]; rewrite E; try rewrite (TZ E); lra).
  all: try (destruct (withmax_co_01 Mmin Mmax m) as [E|E]; rewrite E; lra).
  all: set (c := zheng_co Mmin sig m) in *; set (s := zheng_so M1 alpha M0 m) in *; split; try lra.
  - apply Rmult_le_pos; lra.
  - replace (c / 1) with c by field. nra.
Qed.
(** and the one of [c152_bulk] for the bulk HODs *)
Theorem c152_bulk_models : forall central Mmin M1 logA alpha Mmax sigmaA m,
  Forall (fun hd => cen_int hd m = 0 /\ cs_pairs hd m = 0) [ContinuousPowerLaw central Mmin M1 logA alpha Mmax sigmaA; ConstantHOD central logA Mmin sigmaA].
Proof. intros. repeat constructor; unfold cs_pairs, cen_int, cut; simpl; auto. Qed.

(** the hypotheses are met: a coarse halo model at a wavenumber of 1e-6, with and without turnover *)
Definition h152 (turnover : bool) : dmhm := mkDM 3 (fun i => 10 ^ (11 + i)) (fun i => 1) (fun i => 1 + INR i) 1 1 (fun _ => / 10 ^ 6) [/ 10 ^ 6] (fun _ => 1) (fun _ => 1) (fun _ => 1) Linear 1 (fun _ => 1)
  (fun _ _ => 1) None 1 1 200 turnover true true None.
Example c152_met : forall b, grid (d_nm (h152 b)) (d_m (h152 b)) /\ grid (d_nk (h152 b)) (d_k (h152 b)) /\ 0 < mean_tracer_den step_quad (h152 b) t0 /\
  xmin_ok (h152 b) (tracer_mmin (t_hod t0)) /\ 0 < h_mmin (t_hod t0) <= d_m (h152 b) 0%nat /\
  match tracer_mmin (t_hod t0) with Some x => d_m (h152 b) 0%nat <= x <= d_m (h152 b) (d_nm (h152 b) - 1)%nat | None => True end /\
  d_m (h152 b) (d_nm (h152 b) - 1)%nat <= 4 / 3 * PI * (PI / (10 * d_k (h152 b) 0%nat)) ^ 3 * (d_delta (h152 b) * d_rho0 (h152 b)) /\
  (forall im, (im < d_nm (h152 b))%nat -> 0 <= cen_int (t_hod t0) (d_m (h152 b) im) * satellite_occupation (t_hod t0) (d_m (h152 b) im) <= cs_pairs (t_hod t0) (d_m (h152 b) im)).
Proof.
  intros b. destruct c58_nonvacuous as [X [N _]].
  assert (G : grid (d_nm (h152 b)) (d_m (h152 b))) by exact h0_grid.
  split; [exact G|]. split.
  { unfold grid, h152; simpl d_nk; simpl d_k. split; [lia|]. split; [intros i Hi; apply Rinv_0_lt_compat; lra|intros i j Hij; lia]. }
  split; [exact N|]. split; [exact X|]. split; [simpl; lra|]. split.
  { unfold t0, tracer_mmin, cut, Zehavi05, poisson_hod, h_central; simpl h_sharp; simpl h_flag; simpl.
    replace (Rpower 10 12) with (10 ^ 12) by (rewrite <- p10; f_equal; simpl; lra). simpl. lra. }
  split.
  { assert (P := PI2_3_2). unfold PI2 in P. assert (1 <= PI) by lra.
    replace (4 / 3 * PI * (PI / (10 * d_k (h152 b) 0%nat)) ^ 3 * (d_delta (h152 b) * d_rho0 (h152 b))) with (4 / 3 * 10 ^ 15 * 200 * PI ^ 4) by (unfold h152; simpl; field).
    assert (1 <= PI ^ 4) by (apply pow_R1_Rle; lra). unfold h152; simpl d_m; simpl d_nm. change (3 - 1)%nat with 2%nat. simpl. simpl in H0. lra. }
  intros im Hm. assert (Q := c152_named_models true 12 13 1 0 0 0 0 (d_m (h152 b) im)). assert (M : 0 < d_m (h152 b) im) by (apply G; auto).
  specialize (Q M). inversion Q; auto.
Qed.
Print Assumptions c152_coefficient_at_most_one.
Print Assumptions c152_bulk.
Print Assumptions c152_turnover_exceeds.
Print Assumptions c152_named_models.
Print Assumptions c152_bulk_models.
