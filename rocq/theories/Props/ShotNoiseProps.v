(** C160: the 1-halo terms cannot fall below the shot noise of the haloes they come from. *)
From Coq Require Import String Reals Lra Lia Bool Psatz List Arith.
From Coquelicot Require Import Coquelicot.
From Verif Require Import Model.RBool Model.SpecialFn Model.Profiles Model.SplineInt Model.ExtSpline Model.Quad Model.Exclusion Model.HOD Model.HaloModel.
From Verif Require Import Spec.HMSpec Proofs.Calc Proofs.Erf Proofs.HODProofs Proofs.HMProofs Props.HODProps Props.HaloModelProps Props.HaloModelProps2 Props.FourierPairHMProps Props.HMTotalProps Props.CompositeProps Props.CauchySchwarzProps.
Import ListNotations.
Local Open Scope R_scope.

Section Shot.
  Variables (I : quadrature) (spline : nat -> (list R -> list R -> R -> R)) (uspline : list R -> list R -> R -> R) (h : dmhm) (t : tracer).
  Hypothesis LI : q_linear I.
  Hypothesis PI_ : q_positive I.
  Hypothesis ZI : q_zero_outside I.
  Hypothesis HI : interpolates (spline 3%nat).
  Hypothesis GM : grid (d_nm h) (d_m h).
  Hypothesis GK : grid (d_nk h) (d_k h).
  Hypothesis DN : forall im, (im < d_nm h)%nat -> 0 <= d_dndm h im.
  Hypothesis R0 : d_rho0 h <> 0.
  Hypothesis MM : 0 < h_mmin (t_hod t) <= d_m h 0%nat.
  (** mass integral of the 1-halo terms at the ik-th wavenumber, the number density of the haloes in it *)
  Definition over_1h (ik : nat) (f : nat -> R) : R := mint I h f (Some (mmin_1h h (d_m h 0%nat) (d_k h ik))).
  Definition haloes_1h (ik : nat) : R := over_1h ik (d_dndm h).
  Lemma lim_pos : forall ik, 0 < mmin_1h h (d_m h 0%nat) (d_k h ik).
  Proof. intros ik. assert (M0 : 0 < d_m h 0%nat) by (apply GM; apply GM). unfold mmin_1h. destruct (d_turnover h); auto. apply Rlt_le_trans with (d_m h 0%nat); [auto|apply Rmax_l]. Qed.
  Lemma jensen : forall ik f, over_1h ik (fun i => d_dndm h i * f i) ^ 2 <= haloes_1h ik * over_1h ik (fun i => d_dndm h i * f i ^ 2).
  Proof.
    intros ik f. assert (C := cauchy_schwarz_any I h (Some (mmin_1h h (d_m h 0%nat) (d_k h ik))) (d_dndm h) (fun _ => 1) f LI PI_ ZI GM (lim_pos ik) DN). unfold haloes_1h, over_1h.
    rewrite (mint_ext I h (fun i => d_dndm h i * f i) (fun i => d_dndm h i * (1 * f i))) by (intros; ring). rewrite (mint_ext I h (d_dndm h) (fun i => d_dndm h i * 1 ^ 2)) by (intros; ring). exact C.
  Qed.
  (** matter: the squared density of the haloes, smoothed by their profiles, over their number density *)
  Theorem c160_matter : forall ik p, (ik < d_nk h)%nat -> power_1h_matter I spline uspline h = Ok p ->
    (over_1h ik (fun i => d_dndm h i * (d_m h i * d_ukm h ik i)) / d_rho0 h) ^ 2 <= haloes_1h ik * p (d_k h ik).
  Proof.
    intros ik p Hk H. unfold power_1h_matter in H. rewrite (efun_node _ _ _ _ _ _ _ _ _ _ HI GK Hk H). unfold p1h_matter, do_1halo.
    assert (J := jensen ik (fun i => d_m h i * d_ukm h ik i)). cbv beta in J. unfold over_1h at 2 in J.
    rewrite (mint_ext I h _ (fun im => d_dndm h im * d_m h im ^ 2 * d_ukm h ik im ^ 2)) in J by (intros; ring).
    set (A := mint I h (fun im => d_dndm h im * d_m h im ^ 2 * d_ukm h ik im ^ 2) _) in *. set (B := over_1h ik _) in *.
    replace ((B / d_rho0 h) ^ 2) with (B ^ 2 * / d_rho0 h ^ 2) by (field; auto). replace (haloes_1h ik * (A / d_rho0 h ^ 2)) with (haloes_1h ik * A * / d_rho0 h ^ 2) by (field; auto).
    apply Rmult_le_compat_r; auto. left. apply Rinv_0_lt_compat. assert (Q := pow2_ge_0 (d_rho0 h)). assert (W := pow_nonzero _ 2 R0). lra.
  Qed.
  Let n := mean_tracer_den I h t.
  Hypothesis NZ : n <> 0.
  Lemma inv_n : 0 <= / n ^ 2.
  Proof. left. apply Rinv_0_lt_compat. assert (Q := pow2_ge_0 n). assert (W := pow_nonzero _ 2 NZ). lra. Qed.
  (** satellites *)
  Theorem c160_satellites : forall ik p, (ik < d_nk h)%nat -> power_1h_ss I spline uspline h t = Ok p ->
    (over_1h ik (fun i => d_dndm h i * (satellite_occupation (t_hod t) (d_m h i) * t_ukm t ik i)) / n) ^ 2 <= haloes_1h ik * p (d_k h ik).
  Proof.
    intros ik p Hk H. unfold power_1h_ss in H. rewrite (efun_node _ _ _ _ _ _ _ _ _ _ HI GK Hk H). destruct (c60_hod_minimum_mass_never_used I h t ik ZI GM MM) as [-> _].
    assert (J := jensen ik (fun i => satellite_occupation (t_hod t) (d_m h i) * t_ukm t ik i)). cbv beta in J. unfold over_1h at 2 in J.
    rewrite (mint_ext I h _ (fun im => t_ukm t ik im ^ 2 * d_dndm h im * ss_pairs (t_hod t) (d_m h im))) in J by (intros; unfold ss_pairs; ring). fold n.
    set (A := mint I h (fun im => t_ukm t ik im ^ 2 * d_dndm h im * ss_pairs (t_hod t) (d_m h im)) _) in *. set (B := over_1h ik _) in *.
    replace ((B / n) ^ 2) with (B ^ 2 * / n ^ 2) by (field; auto). replace (haloes_1h ik * (A / n ^ 2)) with (haloes_1h ik * A * / n ^ 2) by (field; auto).
    apply Rmult_le_compat_r; [apply inv_n|exact J].
  Qed.
  (** on large scales (profiles one), without turnover and minimum-mass cut: the satellite fraction squared over the number density of haloes *)
  Theorem c160_satellite_fraction : d_turnover h = false -> tracer_mmin (t_hod t) = None -> forall ik p, (ik < d_nk h)%nat -> (forall im, (im < d_nm h)%nat -> t_ukm t ik im = 1) -> power_1h_ss I spline uspline h t = Ok p ->
    satellite_fraction I h t ^ 2 <= mint I h (d_dndm h) None * p (d_k h ik).
  Proof.
    intros T C ik p Hk U H. assert (S := c160_satellites ik p Hk H). unfold satellite_fraction. fold n. unfold tint. rewrite C. unfold haloes_1h, over_1h, mmin_1h in S. rewrite T in S.
    assert (E : forall f, mint I h f (Some (d_m h 0%nat)) = mint I h f None) by (intros; rewrite !mint_eq by auto; reflexivity). rewrite !E in S.
    rewrite (mint_ext I h (fun i => d_dndm h i * (satellite_occupation (t_hod t) (d_m h i) * t_ukm t ik i)) (fun i => d_dndm h i * satellite_occupation (t_hod t) (d_m h i))) in S by (intros i Hi; rewrite U by auto; ring). exact S.
  Qed.
  (** all pairs: with at least as many central-satellite pairs as expected of independent counts *)
  Theorem c160_tracer : forall ik p (cen : nat -> R), (ik < d_nk h)%nat -> (forall im, (im < d_nm h)%nat -> cen im * satellite_occupation (t_hod t) (d_m h im) <= cs_pairs (t_hod t) (d_m h im) /\ 0 <= t_ukm t ik im) ->
    power_1h_tracer I spline uspline h t = Ok p ->
    (over_1h ik (fun i => d_dndm h i * (cen i + satellite_occupation (t_hod t) (d_m h i) * t_ukm t ik i)) / n) ^ 2 <=
    haloes_1h ik * (p (d_k h ik) + over_1h ik (fun i => d_dndm h i * cen i ^ 2) / n ^ 2).
  Proof.
    intros ik p cen Hk HC H. unfold power_1h_tracer in H. apply bind_ok in H. destruct H as [a [A H]]. apply bind_ok in H. destruct H as [b [B H]]. injection H as <-. unfold sum_callable.
    unfold power_1h_cs in A. cbv zeta in A. unfold power_1h_ss in B. rewrite (efun_node _ _ _ _ _ _ _ _ _ _ HI GK Hk A), (efun_node _ _ _ _ _ _ _ _ _ _ HI GK Hk B).
    destruct (c60_hod_minimum_mass_never_used I h t ik ZI GM MM) as [-> ->]. fold n. fold (over_1h ik (fun im => t_ukm t ik im ^ 2 * d_dndm h im * ss_pairs (t_hod t) (d_m h im))). fold (over_1h ik (fun im => d_dndm h im * 2 * cs_pairs (t_hod t) (d_m h im) * t_ukm t ik im)).
    set (s i := satellite_occupation (t_hod t) (d_m h i)). assert (J := jensen ik (fun i => cen i + s i * t_ukm t ik i)). cbv beta in J.
    set (SS := over_1h ik (fun im => t_ukm t ik im ^ 2 * d_dndm h im * ss_pairs (t_hod t) (d_m h im))) in *. set (CS := over_1h ik (fun im => d_dndm h im * 2 * cs_pairs (t_hod t) (d_m h im) * t_ukm t ik im)) in *.
    set (CC := over_1h ik (fun i => d_dndm h i * cen i ^ 2)) in *. set (Q := over_1h ik (fun i => d_dndm h i * (cen i + s i * t_ukm t ik i) ^ 2)) in *. set (B1 := over_1h ik (fun i => d_dndm h i * (cen i + s i * t_ukm t ik i))) in *.
    assert (N0 : 0 <= haloes_1h ik) by (unfold haloes_1h, over_1h; apply mint_pos_any; auto; apply lim_pos).
    assert (L : Q <= CS + SS + CC).
    { enough (P : 0 <= (CS + SS + CC) + -1 * Q) by lra. unfold CS, SS, CC, Q, over_1h. rewrite <- !mint_plus by auto. rewrite <- mint_lin by auto. apply mint_pos_any; auto; [apply lim_pos|]. intros i Hi. destruct (HC i Hi) as [H1 H2]. specialize (DN i Hi).
      unfold ss_pairs. fold (s i). fold (s i) in H1. replace (d_dndm h i * 2 * cs_pairs (t_hod t) (d_m h i) * t_ukm t ik i + t_ukm t ik i ^ 2 * d_dndm h i * s i ^ 2 + d_dndm h i * cen i ^ 2 + -1 * (d_dndm h i * (cen i + s i * t_ukm t ik i) ^ 2))
        with (2 * (d_dndm h i * t_ukm t ik i * (cs_pairs (t_hod t) (d_m h i) - cen i * s i))) by ring. apply Rmult_le_pos; [lra|]. apply Rmult_le_pos; [now apply Rmult_le_pos|lra]. }
    change (over_1h ik (fun i => d_dndm h i * (cen i + satellite_occupation (t_hod t) (d_m h i) * t_ukm t ik i))) with B1.
    replace ((B1 / n) ^ 2) with (B1 ^ 2 * / n ^ 2) by (field; auto).
    apply Rle_trans with (haloes_1h ik * (CS + SS + CC) * / n ^ 2); [|right; field; auto].
    apply Rmult_le_compat_r; [apply inv_n|]. apply Rle_trans with (haloes_1h ik * Q); [exact J|]. now apply Rmult_le_compat_l.
  Qed.
  (** equal haloes attain the bound *)
  Theorem c160_equal_haloes : forall ik p v, (ik < d_nk h)%nat -> (forall im, (im < d_nm h)%nat -> satellite_occupation (t_hod t) (d_m h im) * t_ukm t ik im = v) -> power_1h_ss I spline uspline h t = Ok p ->
    (over_1h ik (fun i => d_dndm h i * (satellite_occupation (t_hod t) (d_m h i) * t_ukm t ik i)) / n) ^ 2 = haloes_1h ik * p (d_k h ik).
  Proof.
    intros ik p v Hk V H. unfold power_1h_ss in H. rewrite (efun_node _ _ _ _ _ _ _ _ _ _ HI GK Hk H). destruct (c60_hod_minimum_mass_never_used I h t ik ZI GM MM) as [-> _]. fold n. unfold haloes_1h, over_1h.
    rewrite (mint_ext I h (fun i => d_dndm h i * (satellite_occupation (t_hod t) (d_m h i) * t_ukm t ik i)) (fun i => v * d_dndm h i)) by (intros i Hi; rewrite V by auto; ring).
    rewrite (mint_ext I h (fun im => t_ukm t ik im ^ 2 * d_dndm h im * ss_pairs (t_hod t) (d_m h im)) (fun i => v ^ 2 * d_dndm h i)) by (intros i Hi; rewrite <- (V i Hi); unfold ss_pairs; ring).
    rewrite !mint_scal by auto. field. auto.
  Qed.
End Shot.
Print Assumptions c160_matter.
Print Assumptions c160_satellites.
Print Assumptions c160_satellite_fraction.
Print Assumptions c160_tracer.
Print Assumptions c160_equal_haloes.

(** the hypotheses are met by the halo model of C152 with the Zehavi05 sample t0, with and without the turnover *)
Example c160_met : forall b, grid (d_nm (h152 b)) (d_m (h152 b)) /\ grid (d_nk (h152 b)) (d_k (h152 b)) /\ (forall im, (im < d_nm (h152 b))%nat -> 0 <= d_dndm (h152 b) im) /\ d_rho0 (h152 b) <> 0 /\
  0 < h_mmin (t_hod t0) <= d_m (h152 b) 0%nat /\ mean_tracer_den step_quad (h152 b) t0 <> 0 /\
  (forall im, (im < d_nm (h152 b))%nat -> cen_int (t_hod t0) (d_m (h152 b) im) * satellite_occupation (t_hod t0) (d_m (h152 b) im) <= cs_pairs (t_hod t0) (d_m (h152 b) im) /\ 0 <= t_ukm t0 0%nat im).
Proof.
  intros b. destruct (c152_met b) as [A [B [C [_ [E [_ [_ F]]]]]]]. split; [exact A|split; [exact B|split; [intros; simpl; lra|split; [simpl; lra|split; [exact E|split; [lra|]]]]]].
  intros im Hm. split; [apply F; auto|unfold t0; simpl; lra].
Qed.
