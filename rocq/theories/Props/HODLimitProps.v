(** C158: the statistics of a tracer are continuous in its occupation; Zehavi05 is the limit of Zheng05. *)
From Coq Require Import String Reals Lra Lia Bool Psatz List Arith.
From Coquelicot Require Import Coquelicot.
From Verif Require Import Model.RBool Model.SpecialFn Model.Profiles Model.SplineInt Model.ExtSpline Model.Quad Model.Exclusion Model.HOD Model.HaloModel.
From Verif Require Import Spec.HMSpec Proofs.Calc Proofs.Erf Proofs.HODProofs Proofs.HMProofs Props.HODProps Props.HaloModelProps Props.HaloModelProps2 Props.FourierPairHMProps Props.HMTotalProps Props.CompositeProps.
Import ListNotations.
Local Open Scope R_scope.

Lemma lim_plus : forall u v a b, is_lim_seq u (Finite a) -> is_lim_seq v (Finite b) -> is_lim_seq (fun j => u j + v j) (Finite (a + b)).
Proof. intros u v a b H K. apply (is_lim_seq_plus' u v); auto. Qed.
Lemma lim_mult : forall u v a b, is_lim_seq u (Finite a) -> is_lim_seq v (Finite b) -> is_lim_seq (fun j => u j * v j) (Finite (a * b)).
Proof. intros u v a b H K. apply (is_lim_seq_mult' u v); auto. Qed.
Lemma lim_const : forall a, is_lim_seq (fun _ => a) (Finite a). Proof. intros. apply is_lim_seq_const. Qed.
Lemma lim_div : forall u v a b, b <> 0 -> is_lim_seq u (Finite a) -> is_lim_seq v (Finite b) -> is_lim_seq (fun j => u j / v j) (Finite (a / b)).
Proof. intros u v a b Hb H K. apply (is_lim_seq_div' u v); auto. Qed.
Lemma lim_lincomb : forall w (f : nat -> nat -> R) g n, (forall i, (i < n)%nat -> is_lim_seq (fun j => f j i) (Finite (g i))) -> is_lim_seq (fun j => lincomb w (f j) n) (Finite (lincomb w g n)).
Proof.
  intros w f g n. induction n as [|n IH]; intros H; cbn [lincomb]; [apply lim_const|].
  apply lim_plus; [apply IH; intros; apply H; lia|]. apply lim_mult; [apply lim_const|apply H; lia].
Qed.
Lemma lim_mint : forall I h (f : nat -> nat -> R) g x, q_linear I -> grid (d_nm h) (d_m h) -> (forall i, (i < d_nm h)%nat -> is_lim_seq (fun j => f j i) (Finite (g i))) ->
  is_lim_seq (fun j => mint I h (f j) x) (Finite (mint I h g x)).
Proof. intros I h f g x L G H. destruct (mint_lincomb I h x L G) as [w W]. rewrite W. apply (is_lim_seq_ext (fun j => lincomb w (f j) (d_nm h))); [intros; now rewrite W|]. now apply lim_lincomb. Qed.

(** ** occupations that converge at the masses of the grid *)
Definition occupations_converge (h : dmhm) (hds : nat -> hod) (hd : hod) : Prop :=
  (forall j, tracer_mmin (hds j) = None) /\ tracer_mmin hd = None /\ forall i, (i < d_nm h)%nat -> let m := d_m h i in
    is_lim_seq (fun j => central_occupation (hds j) m) (Finite (central_occupation hd m)) /\
    is_lim_seq (fun j => satellite_occupation (hds j) m) (Finite (satellite_occupation hd m)) /\
    is_lim_seq (fun j => cs_pairs (hds j) m) (Finite (cs_pairs hd m)).

Section Limit.
  Variables (I : quadrature) (spline : nat -> (list R -> list R -> R -> R)) (uspline : list R -> list R -> R -> R) (h : dmhm) (ts : nat -> tracer) (t : tracer).
  Hypothesis LI : q_linear I.
  Hypothesis GM : grid (d_nm h) (d_m h).
  Hypothesis OC : occupations_converge h (fun j => t_hod (ts j)) (t_hod t).
  Hypothesis UK : forall j, t_ukm (ts j) = t_ukm t.
  Lemma no_cut : forall x, tracer_mmin (t_hod x) = None -> cut (t_hod x) = false.
  Proof. intros x E. unfold tracer_mmin in E. now destruct (cut (t_hod x)). Qed.
  Lemma cen_lim : forall i, (i < d_nm h)%nat -> is_lim_seq (fun j => cen_int (t_hod (ts j)) (d_m h i)) (Finite (cen_int (t_hod t) (d_m h i))).
  Proof.
    intros i Hi. destruct OC as [A [B C]]. destruct (C i Hi) as [C1 _]. unfold cen_int. rewrite (no_cut t B). apply (is_lim_seq_ext (fun j => central_occupation (t_hod (ts j)) (d_m h i))); auto.
    intros j. now rewrite (no_cut (ts j) (A j)).
  Qed.
  Lemma tot_lim : forall i, (i < d_nm h)%nat -> is_lim_seq (fun j => tot_int (t_hod (ts j)) (d_m h i)) (Finite (tot_int (t_hod t) (d_m h i))).
  Proof. intros i Hi. unfold tot_int. apply lim_plus; [now apply cen_lim|]. destruct OC as [_ [_ C]]. now destruct (C i Hi) as [_ [C2 _]]. Qed.
  Lemma sat_lim : forall i, (i < d_nm h)%nat -> is_lim_seq (fun j => satellite_occupation (t_hod (ts j)) (d_m h i)) (Finite (satellite_occupation (t_hod t) (d_m h i))).
  Proof. intros i Hi. destruct OC as [_ [_ C]]. now destruct (C i Hi) as [_ [C2 _]]. Qed.
  Lemma tint_lim : forall f g, (forall i, (i < d_nm h)%nat -> is_lim_seq (fun j => f j i) (Finite (g i))) -> is_lim_seq (fun j => tint I h (ts j) (f j)) (Finite (tint I h t g)).
  Proof.
    intros f g H. destruct OC as [A [B _]]. unfold tint. rewrite B. apply (is_lim_seq_ext (fun j => mint I h (f j) None)); [intros j; now rewrite A|]. now apply lim_mint.
  Qed.
  Theorem c158_density : is_lim_seq (fun j => mean_tracer_den I h (ts j)) (Finite (mean_tracer_den I h t)).
  Proof. unfold mean_tracer_den. apply tint_lim. intros i Hi. apply lim_mult; [apply lim_const|now apply tot_lim]. Qed.
  Hypothesis NZ : mean_tracer_den I h t <> 0.
  Theorem c158_statistics :
    is_lim_seq (fun j => bias_effective_tracer I h (ts j)) (Finite (bias_effective_tracer I h t)) /\
    is_lim_seq (fun j => satellite_fraction I h (ts j)) (Finite (satellite_fraction I h t)) /\
    is_lim_seq (fun j => central_fraction I h (ts j)) (Finite (central_fraction I h t)).
  Proof.
    assert (S : is_lim_seq (fun j => satellite_fraction I h (ts j)) (Finite (satellite_fraction I h t))).
    { unfold satellite_fraction. apply lim_div; auto; [|apply c158_density]. apply tint_lim. intros i Hi. apply lim_mult; [apply lim_const|now apply sat_lim]. }
    split; [|split; auto].
    - unfold bias_effective_tracer. apply lim_div; auto; [|apply c158_density]. apply tint_lim. intros i Hi. apply lim_mult; [|apply lim_const]. apply lim_mult; [apply lim_const|now apply tot_lim].
    - unfold central_fraction. unfold Rminus. apply lim_plus; [apply lim_const|]. assert (Q := lim_mult _ _ _ _ (lim_const (-1)) S). replace (-1 * satellite_fraction I h t) with (- satellite_fraction I h t) in Q by ring.
      apply (is_lim_seq_ext (fun j => -1 * satellite_fraction I h (ts j))); auto. intros j. ring.
  Qed.
  (** 1-halo terms and tracer-matter power at the tabulated wavenumbers; the minimum masses of the HODs may differ *)
  Theorem c158_spectra : forall ik S s C c M m1 N m2, interpolates (spline 3%nat) -> grid (d_nk h) (d_k h) -> (ik < d_nk h)%nat -> q_zero_outside I -> d_rho0 h <> 0 ->
    (forall j, 0 < h_mmin (t_hod (ts j)) <= d_m h 0%nat) -> 0 < h_mmin (t_hod t) <= d_m h 0%nat ->
    (forall j, power_1h_ss I spline uspline h (ts j) = Ok (S j) /\ power_1h_cs I spline uspline h (ts j) = Ok (C j) /\ power_1h_tm I spline uspline h (ts j) = Ok (M j) /\ power_2h_tm I spline uspline h (ts j) = Ok (N j)) ->
    power_1h_ss I spline uspline h t = Ok s -> power_1h_cs I spline uspline h t = Ok c -> power_1h_tm I spline uspline h t = Ok m1 -> power_2h_tm I spline uspline h t = Ok m2 ->
    let k := d_k h ik in
    is_lim_seq (fun j => S j k) (Finite (s k)) /\ is_lim_seq (fun j => C j k) (Finite (c k)) /\ is_lim_seq (fun j => M j k) (Finite (m1 k)) /\ is_lim_seq (fun j => N j k) (Finite (m2 k)).
  Proof.
    intros ik S s C c M m1 N m2 HI GK Hk ZI R0 HM HM0 HJ Hs Hc H1 H2 k.
    assert (D2 : is_lim_seq (fun j => mean_tracer_den I h (ts j) ^ 2) (Finite (mean_tracer_den I h t ^ 2))).
    { simpl. apply lim_mult; [apply c158_density|]. rewrite Rmult_1_r. apply (is_lim_seq_ext (fun j => mean_tracer_den I h (ts j))); [intros; ring|apply c158_density]. }
    assert (DR : is_lim_seq (fun j => mean_tracer_den I h (ts j) * d_rho0 h) (Finite (mean_tracer_den I h t * d_rho0 h))) by (apply lim_mult; [apply c158_density|apply lim_const]).
    assert (NR : mean_tracer_den I h t * d_rho0 h <> 0) by (apply Rmult_integral_contrapositive_currified; auto). assert (N2 : mean_tracer_den I h t ^ 2 <> 0) by now apply pow_nonzero.
    assert (TC : forall i, (i < d_nm h)%nat -> is_lim_seq (fun j => tcen h (ts j) ik i) (Finite (tcen h t ik i))).
    { intros i Hi. unfold tcen. apply lim_plus; [now apply cen_lim|]. apply lim_mult; [now apply sat_lim|]. apply (is_lim_seq_ext (fun _ => t_ukm t ik i)); [intros; now rewrite UK|apply lim_const]. }
    unfold power_1h_ss in Hs. unfold power_1h_cs in Hc. unfold power_1h_tm in H1. unfold power_2h_tm in H2. cbv zeta in Hc.
    unfold k. rewrite (efun_node _ _ _ _ _ _ _ _ _ _ HI GK Hk Hs), (efun_node _ _ _ _ _ _ _ _ _ _ HI GK Hk Hc), (efun_node _ _ _ _ _ _ _ _ _ _ HI GK Hk H1), (efun_node _ _ _ _ _ _ _ _ _ _ HI GK Hk H2).
    destruct (c60_hod_minimum_mass_never_used I h t ik ZI GM HM0) as [-> ->]. split; [|split; [|split]].
    - apply (is_lim_seq_ext (fun j => mint I h (fun im => t_ukm t ik im ^ 2 * d_dndm h im * ss_pairs (t_hod (ts j)) (d_m h im)) (Some (mmin_1h h (d_m h 0%nat) (d_k h ik))) / mean_tracer_den I h (ts j) ^ 2)).
      + intros j. destruct (HJ j) as [A _]. unfold power_1h_ss in A. rewrite (efun_node _ _ _ _ _ _ _ _ _ _ HI GK Hk A). destruct (c60_hod_minimum_mass_never_used I h (ts j) ik ZI GM (HM j)) as [-> _]. now rewrite UK.
      + apply lim_div; auto. apply lim_mint; auto. intros i Hi. apply lim_mult; [apply lim_const|]. unfold ss_pairs. simpl. apply lim_mult; [now apply sat_lim|]. rewrite Rmult_1_r. apply (is_lim_seq_ext (fun j => satellite_occupation (t_hod (ts j)) (d_m h i))); [intros; ring|now apply sat_lim].
    - apply (is_lim_seq_ext (fun j => mint I h (fun im => d_dndm h im * 2 * cs_pairs (t_hod (ts j)) (d_m h im) * t_ukm t ik im) (Some (mmin_1h h (d_m h 0%nat) (d_k h ik))) / mean_tracer_den I h (ts j) ^ 2)).
      + intros j. destruct (HJ j) as [_ [A _]]. unfold power_1h_cs in A. cbv zeta in A. rewrite (efun_node _ _ _ _ _ _ _ _ _ _ HI GK Hk A). destruct (c60_hod_minimum_mass_never_used I h (ts j) ik ZI GM (HM j)) as [_ ->]. now rewrite UK.
      + apply lim_div; auto. apply lim_mint; auto. intros i Hi. apply lim_mult; [|apply lim_const]. apply lim_mult; [apply lim_const|]. destruct OC as [_ [_ Q]]. now destruct (Q i Hi) as [_ [_ C3]].
    - apply (is_lim_seq_ext (fun j => p1h_tm I h (ts j) ik)); [intros j; destruct (HJ j) as [_ [_ [A _]]]; unfold power_1h_tm in A; now rewrite (efun_node _ _ _ _ _ _ _ _ _ _ HI GK Hk A)|].
      unfold p1h_tm. apply lim_div; auto. apply (tint_lim (fun j im => d_dndm h im * d_m h im * d_ukm h ik im * tcen h (ts j) ik im)). intros i Hi. apply lim_mult; [apply lim_const|auto].
    - apply (is_lim_seq_ext (fun j => p2h_tm I h (ts j) ik)); [intros j; destruct (HJ j) as [_ [_ [_ A]]]; unfold power_2h_tm in A; now rewrite (efun_node _ _ _ _ _ _ _ _ _ _ HI GK Hk A)|].
      unfold p2h_tm. apply lim_div; auto. apply lim_mult; [|apply lim_const]. apply lim_mult; [|apply lim_const]. unfold bt_tm. apply (tint_lim (fun j im => d_dndm h im * d_bias h im * tcen h (ts j) ik im)). intros i Hi. apply lim_mult; [apply lim_const|auto].
  Qed.
End Limit.
Print Assumptions c158_density.
Print Assumptions c158_statistics.
Print Assumptions c158_spectra.

(** ** Zheng05 with vanishing scatter and cut-off mass *)
Lemma erf_p_infty : is_lim erf p_infty 1.
Proof.
  apply is_lim_spec. intros eps. destruct (erf_lim eps (cond_pos eps)) as [M [_ H]]. exists M. intros x Hx. specialize (H x ltac:(lra)). assert (R0 := erf_range x). apply Rabs_def1; lra.
Qed.
Lemma over_scatter : forall d (sg : nat -> R), 0 < d -> (forall j, 0 < sg j) -> is_lim_seq sg 0 -> is_lim_seq (fun j => d / sg j) p_infty.
Proof.
  intros d sg Hd P L. apply is_lim_seq_spec. intros M. apply is_lim_seq_spec in L. assert (E : 0 < d / (Rabs M + 1)) by (apply Rdiv_lt_0_compat; [auto|assert (Q := Rabs_pos M); lra]).
  destruct (L (mkposreal _ E)) as [n Hn]. exists n. intros j Hj. specialize (Hn j Hj). simpl in Hn. rewrite Rminus_0_r, Rabs_pos_eq in Hn by (left; auto).
  assert (Q := Rabs_pos M). apply Rle_lt_trans with (Rabs M); [apply Rle_abs|]. apply Rmult_lt_reg_r with (sg j); [apply P|]. unfold Rdiv. rewrite Rmult_assoc, Rinv_l by (assert (Q2 := P j); lra). rewrite Rmult_1_r.
  apply (Rmult_lt_compat_r (Rabs M + 1)) in Hn; [|lra]. unfold Rdiv in Hn. rewrite Rmult_assoc, Rinv_l in Hn by lra. specialize (P j). nra.
Qed.
Lemma lim_to : forall f (a b : R), a = b -> is_lim_seq f (Finite a) -> is_lim_seq f (Finite b).
Proof. intros f a b -> H. exact H. Qed.
Lemma zheng_step : forall Mmin m sg, 0 < m -> m <> pow10 Mmin -> (forall j, 0 < sg j) -> is_lim_seq sg 0 -> is_lim_seq (fun j => zheng_co Mmin (sg j) m) (Finite (zehavi_co Mmin m)).
Proof.
  intros Mmin m sg Hm N P L. unfold zheng_co, zehavi_co. assert (L10 : 0 < ln 10) by (rewrite <- ln_1; apply ln_increasing; lra).
  assert (E : pow10 (log10 m) = m) by now apply pow10_log10.
  destruct (Rltb m (pow10 Mmin)) eqn:B.
  - apply Rltb_spec in B. assert (K : 0 < Mmin - log10 m). { destruct (Rle_dec Mmin (log10 m)) as [Q|Q]; [|lra]. apply pow10_mono in Q. rewrite E in Q. lra. }
    apply (lim_to _ (0.5 * (1 + - (1))) 0); [lra|]. apply (lim_mult (fun _ => 0.5)); [apply lim_const|]. apply (lim_plus (fun _ => 1)); [apply lim_const|].
    apply (is_lim_seq_ext (fun j => - erf ((Mmin - log10 m) / sg j))); [intros j; rewrite <- erf_odd; f_equal; assert (Q := P j); field; lra|].
    apply (is_lim_seq_opp (fun j => erf ((Mmin - log10 m) / sg j)) 1). apply (is_lim_comp_seq erf _ p_infty 1); [exact erf_p_infty|exists 0%nat; discriminate|now apply over_scatter].
  - apply Rltb_false in B. assert (K : 0 < log10 m - Mmin). { destruct (Rle_dec (log10 m) Mmin) as [Q|Q]; [|lra]. apply pow10_mono in Q. rewrite E in Q. lra. }
    apply (lim_to _ (0.5 * (1 + 1)) 1); [lra|]. apply (lim_mult (fun _ => 0.5)); [apply lim_const|]. apply (lim_plus (fun _ => 1)); [apply lim_const|].
    apply (is_lim_comp_seq erf _ p_infty 1); [exact erf_p_infty|exists 0%nat; discriminate|now apply over_scatter].
Qed.
Lemma zheng_sats : forall M1 alpha m (M0 : nat -> R), 0 < m -> is_lim_seq M0 m_infty -> is_lim_seq (fun j => zheng_so M1 alpha (M0 j) m) (Finite (zehavi_so M1 alpha m)).
Proof.
  intros M1 alpha m M0 Hm L. assert (L10 : 0 < ln 10) by (rewrite <- ln_1; apply ln_increasing; lra).
  assert (Z : is_lim_seq (fun j => pow10 (M0 j)) 0).
  { apply is_lim_seq_spec. intros eps. apply is_lim_seq_spec in L. destruct (L (ln eps / ln 10)) as [n Hn]. exists n. intros j Hj. specialize (Hn j Hj).
    assert (PP : 0 < pow10 (M0 j)) by apply exp_pos. rewrite Rminus_0_r, Rabs_pos_eq by lra. apply Rlt_le_trans with (pow10 (ln eps / ln 10)); [now apply pow10_incr|].
    unfold pow10, Rpower. replace (ln eps / ln 10 * ln 10) with (ln eps) by (field; lra). rewrite exp_ln by apply cond_pos. lra. }
  apply (is_lim_seq_ext_loc (fun j => Rpower ((m - pow10 (M0 j)) / pow10 M1) alpha)).
  - apply is_lim_seq_spec in Z. destruct (Z (mkposreal m Hm)) as [n Hn]. exists n. intros j Hj. specialize (Hn j Hj). simpl in Hn. rewrite Rminus_0_r in Hn. assert (Q := Rle_abs (pow10 (M0 j))).
    unfold zheng_so. replace (Rltb (pow10 (M0 j)) m) with true; auto. symmetry. apply Rltb_spec. lra.
  - unfold zehavi_so. replace (m / pow10 M1) with ((m - 0) / pow10 M1) by (now rewrite Rminus_0_r). apply (is_lim_seq_continuous (fun x => Rpower ((m - x) / pow10 M1) alpha) _ 0); auto.
    apply continuity_pt_filterlim. apply (ex_derive_continuous (fun x => Rpower ((m - x) / pow10 M1) alpha)). unfold Rpower. assert (P1 : 0 < pow10 M1) by apply exp_pos.
    auto_derive. repeat split; auto; try lra. apply Rmult_lt_0_compat; [lra|now apply Rinv_0_lt_compat].
Qed.
Theorem c158_zheng_to_zehavi : forall h Mmin M1 alpha (M0 sg : nat -> R), grid (d_nm h) (d_m h) -> (forall i, (i < d_nm h)%nat -> d_m h i <> Rpower 10 Mmin) ->
  (forall j, 0 < sg j) -> is_lim_seq sg 0 -> is_lim_seq M0 m_infty ->
  occupations_converge h (fun j => Zheng05 false Mmin M1 alpha (M0 j) (sg j)) (Zehavi05 false Mmin M1 alpha).
Proof.
  intros h Mmin M1 alpha M0 sg G N P L L0. split; [reflexivity|]. split; [reflexivity|]. intros i Hi m. assert (Hm : 0 < m) by now apply G.
  assert (C : is_lim_seq (fun j => zheng_co Mmin (sg j) m) (Finite (zehavi_co Mmin m))) by (apply zheng_step; auto; now apply N).
  assert (S : is_lim_seq (fun j => zheng_so M1 alpha (M0 j) m) (Finite (zehavi_so M1 alpha m))) by now apply zheng_sats.
  split; [exact C|]. split; [exact S|]. exact (lim_mult _ _ _ _ C S).
Qed.
Print Assumptions c158_zheng_to_zehavi.
(** with the central condition Zheng05 tends to a step that is integrated over the whole grid, not to what Zehavi05 computes *)
Theorem c158_central_condition : forall I h u rho lam Mmin M1 alpha (M0 sg : nat -> R), q_linear I -> grid (d_nm h) (d_m h) -> (forall i, (i < d_nm h)%nat -> d_m h i <> Rpower 10 Mmin) ->
  (forall j, 0 < sg j) -> is_lim_seq sg 0 -> is_lim_seq M0 m_infty ->
  let step m := if Rltb m (Rpower 10 Mmin) then 0 else 1 in let sat m := Rpower (m / Rpower 10 M1) alpha in
  is_lim_seq (fun j => mean_tracer_den I h (mkTr (Zheng05 true Mmin M1 alpha (M0 j) (sg j)) u rho lam)) (Finite (mint I h (fun i => d_dndm h i * (step (d_m h i) * (1 + sat (d_m h i)))) None)) /\
  mean_tracer_den I h (mkTr (Zehavi05 true Mmin M1 alpha) u rho lam) = mint I h (fun i => d_dndm h i * (1 + step (d_m h i) * sat (d_m h i))) (Some (Rpower 10 Mmin)).
Proof.
  intros I h u rho lam Mmin M1 alpha M0 sg LI G N P L L0 step sat. split.
  - unfold mean_tracer_den, tint. simpl tracer_mmin. cbv iota. apply (lim_mint I h (fun j i => d_dndm h i * tot_int (t_hod (mkTr (Zheng05 true Mmin M1 alpha (M0 j) (sg j)) u rho lam)) (d_m h i))); auto.
    intros i Hi. assert (Hm : 0 < d_m h i) by now apply G. apply lim_mult; [apply lim_const|].
    apply (is_lim_seq_ext (fun j => zheng_co Mmin (sg j) (d_m h i) * (1 + zheng_so M1 alpha (M0 j) (d_m h i)))).
    + intros j. unfold tot_int, cen_int, satellite_occupation, central_occupation, nc, h_central, cut; simpl. unfold central_occupation, one; simpl. field.
    + apply lim_mult; [apply zheng_step; auto; now apply N|]. apply lim_plus; [apply lim_const|now apply zheng_sats].
  - unfold mean_tracer_den, tint. change (tracer_mmin (t_hod (mkTr (Zehavi05 true Mmin M1 alpha) u rho lam))) with (Some (Rpower 10 Mmin)). apply mint_ext. intros i Hi.
    unfold tot_int, cen_int, satellite_occupation, central_occupation, nc, h_central, cut; simpl. unfold central_occupation, one; simpl. unfold zehavi_co, zehavi_so. fold (pow10 Mmin). fold (pow10 M1). unfold step, sat. fold (pow10 Mmin). fold (pow10 M1). try field; try (apply Rgt_not_eq, exp_pos).
Qed.
Print Assumptions c158_central_condition.

(** the hypotheses are met: sigma = 1/(j+1), M_0 = -j, threshold between the masses of the example *)
Example c158_met : occupations_converge h1_ex (fun j => Zheng05 false 5 13 1 (- INR j) (/ INR (S j))) (Zehavi05 false 5 13 1).
Proof.
  apply c158_zheng_to_zehavi; auto.
  - exact h0_grid.
  - intros i Hi E. change (d_m h1_ex i) with (10 ^ (11 + i)) in E. replace 5 with (INR 5) in E by (simpl; lra). rewrite p10 in E. assert (Q := Rlt_pow 10 5 (11 + i) ltac:(lra) ltac:(lia)). lra.
  - intros j. apply Rinv_0_lt_compat, lt_0_INR. lia.
  - assert (Q := is_lim_seq_INR). apply is_lim_seq_incr_1 in Q. apply (is_lim_seq_inv _ p_infty) in Q; [exact Q|discriminate].
  - apply (is_lim_seq_opp INR p_infty). exact is_lim_seq_INR.
Qed.
