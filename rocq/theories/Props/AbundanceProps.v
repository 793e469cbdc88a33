(** C161: what the amplitude of the mass function and of the halo bias does to the results. *)
From Coq Require Import String Reals Lra Lia Bool Psatz List Arith.
From Coquelicot Require Import Coquelicot.
From Verif Require Import Model.RBool Model.SpecialFn Model.Profiles Model.SplineInt Model.ExtSpline Model.Quad Model.Exclusion Model.HOD Model.HaloModel.
From Verif Require Import Spec.HMSpec Proofs.Calc Proofs.Erf Proofs.HODProofs Proofs.HMProofs Props.HODProps Props.HaloModelProps Props.HaloModelProps2 Props.FourierPairHMProps Props.HMTotalProps Props.CompositeProps Props.HMExtrapProps Props.FindMminProps.
Import ListNotations.
Local Open Scope R_scope.

(** the framework [h] with [A] times its mass function and [B] times its halo bias *)
Definition with_abundance (h : dmhm) (A B : R) : dmhm :=
  mkDM (d_nm h) (d_m h) (fun i => A * d_dndm h i) (fun i => B * d_bias h i) (d_dlog10m h) (d_nk h) (d_k h) (d_khm h) (d_power h) (d_phc h) (d_plin h) (d_hc h) (d_nr h) (d_r h) (d_ukm h) (d_lam h) (d_rho0 h) (d_rhoh h) (d_delta h) (d_turnover h) (d_unity h) (d_noexcl h) (d_sd h).

Section Abundance.
  Variables (I : quadrature) (spline : nat -> (list R -> list R -> R -> R)) (uspline : list R -> list R -> R -> R) (h : dmhm) (t : tracer) (A B : R).
  Hypothesis LI : q_linear I.
  Hypothesis GM : grid (d_nm h) (d_m h).
  Hypothesis AZ : 0 < A.
  Let h' := with_abundance h A B.
  Lemma mint_h' : forall f x, mint I h' f x = mint I h f x.
  Proof. reflexivity. Qed.
  Lemma scal_to : forall f g c x, (forall i, (i < d_nm h)%nat -> f i = c * g i) -> mint I h' f x = c * mint I h g x.
  Proof. intros f g c x E. rewrite mint_h', <- mint_scal by auto. now apply mint_ext. Qed.
  Theorem c161_density : mean_tracer_den I h' t = A * mean_tracer_den I h t.
  Proof. unfold mean_tracer_den, tint. apply scal_to. intros i Hi. simpl. ring. Qed.
  Hypothesis NZ : mean_tracer_den I h t <> 0.
  Theorem c161_averages : bias_effective_tracer I h' t = B * bias_effective_tracer I h t /\ mass_effective I h' t = mass_effective I h t /\
    satellite_fraction I h' t = satellite_fraction I h t /\ central_fraction I h' t = central_fraction I h t.
  Proof.
    assert (F : satellite_fraction I h' t = satellite_fraction I h t).
    { unfold satellite_fraction. rewrite c161_density. unfold tint. erewrite (scal_to _ (fun i => d_dndm h i * satellite_occupation (t_hod t) (d_m h i)) A) by (intros i Hi; simpl; ring). field. split; auto; lra. }
    split; [|split; [|split; [exact F|unfold central_fraction; now rewrite F]]].
    - unfold bias_effective_tracer. rewrite c161_density. unfold tint. erewrite (scal_to _ (fun i => d_dndm h i * tot_int (t_hod t) (d_m h i) * d_bias h i) (A * B)) by (intros i Hi; simpl; ring). field. split; auto; lra.
    - unfold mass_effective. rewrite c161_density. unfold tint. erewrite (scal_to _ (fun i => d_m h i * d_dndm h i * tot_int (t_hod t) (d_m h i)) A) by (intros i Hi; simpl; ring). do 2 f_equal. field. split; auto; lra.
  Qed.
  Hypothesis HI : interpolates (spline 3%nat).
  Hypothesis GK : grid (d_nk h) (d_k h).
  Hypothesis R0 : d_rho0 h <> 0.
  (** spectra at the tabulated wavenumbers *)
  Theorem c161_one_halo : forall ik, (ik < d_nk h)%nat -> let k := d_k h ik in
    (forall p p', power_1h_matter I spline uspline h = Ok p -> power_1h_matter I spline uspline h' = Ok p' -> p' k = A * p k) /\
    (forall p p', power_1h_ss I spline uspline h t = Ok p -> power_1h_ss I spline uspline h' t = Ok p' -> p' k = p k / A) /\
    (forall p p', power_1h_cs I spline uspline h t = Ok p -> power_1h_cs I spline uspline h' t = Ok p' -> p' k = p k / A) /\
    (forall p p', power_1h_tm I spline uspline h t = Ok p -> power_1h_tm I spline uspline h' t = Ok p' -> p' k = p k).
  Proof.
    intros ik Hk k. assert (GK' : grid (d_nk h') (d_k h')) by exact GK. assert (Hk' : (ik < d_nk h')%nat) by exact Hk. assert (D := c161_density). split; [|split; [|split]]; intros p p' H H'.
    - unfold power_1h_matter in H, H'. unfold k. change (d_k h ik) with (d_k h' ik) at 1. rewrite (efun_node _ _ _ _ _ _ _ _ _ _ HI GK Hk H), (efun_node _ _ _ _ _ _ _ _ _ _ HI GK' Hk' H'). unfold p1h_matter, do_1halo.
      erewrite (scal_to _ (fun im => d_dndm h im * d_m h im ^ 2 * d_ukm h ik im ^ 2) A) by (intros i Hi; simpl; ring). change (mmin_1h h' (d_m h' 0%nat) (d_k h' ik)) with (mmin_1h h (d_m h 0%nat) (d_k h ik)). change (d_rho0 h') with (d_rho0 h). field. auto.
    - unfold power_1h_ss in H, H'. unfold k. change (d_k h ik) with (d_k h' ik) at 1. rewrite (efun_node _ _ _ _ _ _ _ _ _ _ HI GK Hk H), (efun_node _ _ _ _ _ _ _ _ _ _ HI GK' Hk' H'). unfold p1h_ss, do_1halo. rewrite D.
      erewrite (scal_to _ (fun im => t_ukm t ik im ^ 2 * d_dndm h im * ss_pairs (t_hod t) (d_m h im)) A) by (intros i Hi; simpl; ring). change (mmin_1h h' (h_mmin (t_hod t)) (d_k h' ik)) with (mmin_1h h (h_mmin (t_hod t)) (d_k h ik)). field. split; auto; lra.
    - unfold power_1h_cs in H, H'. cbv zeta in H, H'. unfold k. change (d_k h ik) with (d_k h' ik) at 1. rewrite (efun_node _ _ _ _ _ _ _ _ _ _ HI GK Hk H), (efun_node _ _ _ _ _ _ _ _ _ _ HI GK' Hk' H'). unfold p1h_cs, do_1halo. rewrite D.
      erewrite (scal_to _ (fun im => d_dndm h im * 2 * cs_pairs (t_hod t) (d_m h im) * t_ukm t ik im) A) by (intros i Hi; simpl; ring). change (mmin_1h h' (h_mmin (t_hod t)) (d_k h' ik)) with (mmin_1h h (h_mmin (t_hod t)) (d_k h ik)). field. split; auto; lra.
    - unfold power_1h_tm in H, H'. unfold k. change (d_k h ik) with (d_k h' ik) at 1. rewrite (efun_node _ _ _ _ _ _ _ _ _ _ HI GK Hk H), (efun_node _ _ _ _ _ _ _ _ _ _ HI GK' Hk' H'). unfold p1h_tm. rewrite D. unfold tint.
      erewrite (scal_to _ (fun im => d_dndm h im * d_m h im * d_ukm h ik im * tcen h t ik im) A) by (intros i Hi; unfold tcen; simpl; ring). change (d_rho0 h') with (d_rho0 h). field. repeat split; auto; lra.
  Qed.
  (** the 2-halo tracer-matter power keeps a factor of the abundance: it is not divided by the matter in haloes *)
  Theorem c161_two_halo_tracer_matter : forall ik, (ik < d_nk h)%nat -> let k := d_k h ik in
    forall p p', power_2h_tm I spline uspline h t = Ok p -> power_2h_tm I spline uspline h' t = Ok p' -> p' k = A * B ^ 2 * p k.
  Proof.
    intros ik Hk k p p' H H'. assert (GK' : grid (d_nk h') (d_k h')) by exact GK. assert (Hk' : (ik < d_nk h')%nat) by exact Hk. assert (D := c161_density).
    unfold power_2h_tm in H, H'. unfold k. change (d_k h ik) with (d_k h' ik) at 1. rewrite (efun_node _ _ _ _ _ _ _ _ _ _ HI GK Hk H), (efun_node _ _ _ _ _ _ _ _ _ _ HI GK' Hk' H'). unfold p2h_tm. rewrite D. unfold bt_tm, bm_tm, tint.
    erewrite (scal_to _ (fun im => d_dndm h im * d_bias h im * tcen h t ik im) (A * B)) by (intros i Hi; unfold tcen; simpl; ring).
    erewrite (scal_to _ (fun im => d_dndm h im * d_bias h im * d_m h im * d_ukm h ik im) (A * B)) by (intros i Hi; simpl; ring).
    change (d_rho0 h') with (d_rho0 h). change (d_phc h' (d_k h' ik)) with (d_phc h (d_k h ik)). field. repeat split; auto; lra.
  Qed.
End Abundance.
Print Assumptions c161_density.
Print Assumptions c161_averages.
Print Assumptions c161_one_halo.
Print Assumptions c161_two_halo_tracer_matter.

(** the hypotheses are met by the example, and the amplitudes can be any *)
Example c161_met : q_linear step_quad /\ grid (d_nm h1_ex) (d_m h1_ex) /\ grid (d_nk h1_ex) (d_k h1_ex) /\ d_rho0 h1_ex <> 0 /\ interpolates linterp /\ mean_tracer_den step_quad h1_ex t0 <> 0.
Proof.
  destruct c112_ex as [L [_ [K _]]]. split; [exact step_quad_linear|]. split; [exact h0_grid|]. split; [exact K|]. split; [simpl; lra|]. split; [exact L|]. assert (Q := den_h1_ex). lra.
Qed.
