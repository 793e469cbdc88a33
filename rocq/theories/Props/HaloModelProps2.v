(** Correlation-function bookkeeping, power_hh, the 2-halo tracer terms, filtered spectra
    (halo_model.py): C63, C64, C66, C90-C93. *)
From Coq Require Import Reals List Bool Arith Lia Lra.
From Verif Require Import Model.RBool Model.SpecialFn Model.SplineInt Model.ExtSpline Model.Exclusion Model.Profiles Model.HOD Model.HaloModel Model.Quad.
From Verif Require Import Spec.QuadSpec Spec.HMSpec Proofs.QuadProofs Proofs.HMProofs Props.HaloModelProps.
Import ListNotations.
Local Open Scope R_scope.

Lemma bind_ok : forall A B (x : res A) (f : A -> res B) b, bind x f = Ok b -> exists a, x = Ok a /\ f a = Ok b.
Proof. intros A B [a|e] f b H; simpl in H; [eauto|discriminate]. Qed.

(** ** C63 *)
(** with a self-convolution: the total at the table radii is the 1-halo pair integral plus the 2-halo term *)
Theorem c63_total_with_self_convolution : forall I spline uspline hk h xi2 xi lam i, interpolates (spline 3%nat) -> grid (d_nr h) (d_r h) -> (i < d_nr h)%nat -> d_lam h = Some lam ->
  corr_matter I spline uspline hk (Ok xi2) h = Ok xi ->
  xi (d_r h i) = trapezoid_rule (ln 10 * d_dlog10m h) (d_nm h - 1) (fun im => d_dndm h im * d_m h im ^ 3 * lam i im) / d_rho0 h ^ 2 + xi2 (d_r h i).
Proof.
  intros I spline uspline hk h xi2 xi lam i HI G Hi Lm H. unfold corr_matter in H. apply bind_ok in H. destruct H as [a [H1 H]]. simpl in H. injection H as <-.
  unfold corr_1h_matter in H1. rewrite Lm in H1. unfold bind, rmap in H1. unfold sum_callable. rewrite (efun_node _ _ _ _ _ _ _ _ _ _ HI G Hi H1).
  unfold np_trapezoid, cumulative_trapezoid, trapezoid_rule. rewrite sum_over_seq.
  rewrite (bigsum_ext (d_nm h - 1) _ (fun p => ln 10 * d_dlog10m h / 2 * (d_dndm h p * d_m h p ^ 3 * lam i p + d_dndm h (p + 1)%nat * d_m h (p + 1)%nat ^ 3 * lam i (p + 1)%nat)));
    [ring|]. intros p _. replace (p + 1)%nat with (S p) by lia. field.
Qed.
(** finding: without one (most profiles) the total exceeds the sum of its two terms by exactly 1 *)
Theorem c63_total_without_self_convolution : forall I spline uspline hk h xi2 xi p i, interpolates (spline 3%nat) -> grid (d_nr h) (d_r h) -> (i < d_nr h)%nat -> d_lam h = None ->
  power_1h_matter I spline uspline h = Ok p -> corr_matter I spline uspline hk (Ok xi2) h = Ok xi ->
  xi (d_r h i) = hk ToR p (d_r h i) + xi2 (d_r h i) + 1.
Proof.
  intros I spline uspline hk h xi2 xi p i HI G Hi Lm Hp H. unfold corr_matter in H. apply bind_ok in H. destruct H as [a [H1 H]]. simpl in H. injection H as <-.
  unfold corr_1h_matter in H1. rewrite Lm, Hp in H1. unfold bind, rmap in H1. unfold sum_callable. rewrite (efun_node _ _ _ _ _ _ _ _ _ _ HI G Hi H1). ring.
Qed.
(** finding: beyond the largest tabulated radius the total correlation is exactly 1, for every profile *)
Lemma corr_2h_zero : forall I spline uspline hk h e integ dmod eff deb xi r, grid (d_nr h) (d_r h) -> corr_2h_auto I spline uspline hk h e integ dmod eff deb = Ok xi ->
  d_r h (d_nr h - 1)%nat < r \/ r < d_r h 0%nat -> xi r = 0.
Proof.
  intros I spline uspline hk h e integ dmod eff deb xi r G H K. unfold corr_2h_auto in H. apply bind_ok in H. destruct H as [ps [_ H]]. cbv zeta in H.
  destruct K; [exact (efun_above_zero _ _ _ _ _ _ _ _ _ G H0 H)|exact (efun_below_zero _ _ _ _ _ _ _ _ _ G H0 H)].
Qed.
Theorem c63_total_is_one_beyond_table : forall I spline uspline hk h e integ dmod eff deb xi r, grid (d_nr h) (d_r h) ->
  corr_matter I spline uspline hk (corr_2h_auto I spline uspline hk h e integ dmod eff deb) h = Ok xi -> d_r h (d_nr h - 1)%nat < r -> xi r = 1.
Proof.
  intros I spline uspline hk h e integ dmod eff deb xi r G H K. unfold corr_matter in H. apply bind_ok in H. destruct H as [a [H1 H]]. apply bind_ok in H. destruct H as [b [H2 H]]. injection H as <-.
  unfold sum_callable. rewrite (corr_2h_zero _ _ _ _ _ _ _ _ _ _ _ r G H2) by auto.
  unfold corr_1h_matter in H1. apply bind_ok in H1. destruct H1 as [tb [_ H1]]. rewrite (efun_above_zero _ _ _ _ _ _ _ _ _ G K H1). ring.
Qed.
(** finding: the 2-halo correlation is zero below the smallest tabulated radius even without exclusion
    (the code tests the class Exclusion instead of the exclusion model) *)
Theorem c63_no_small_scale_extrapolation : forall I spline uspline hk h e integ dmod eff deb xi r, grid (d_nr h) (d_r h) ->
  corr_2h_auto I spline uspline hk h e integ dmod eff deb = Ok xi -> r < d_r h 0%nat -> xi r = 0.
Proof. intros. eapply corr_2h_zero; eauto. Qed.
(** the tracer-matter total: the sum of two Hankel transforms plus 1, and exactly 1 beyond the table *)
Theorem c63_tracer_matter : forall I spline uspline hk h t xi p1 p2 i, interpolates (spline 3%nat) -> grid (d_nr h) (d_r h) -> (i < d_nr h)%nat ->
  power_1h_tm I spline uspline h t = Ok p1 -> power_2h_tm I spline uspline h t = Ok p2 -> corr_tm I spline uspline hk h t = Ok xi ->
  xi (d_r h i) = hk ToR p1 (d_r h i) + hk ToR p2 (d_r h i) + 1 /\ (forall r, d_r h (d_nr h - 1)%nat < r -> xi r = 1).
Proof.
  intros I spline uspline hk h t xi p1 p2 i HI G Hi H1 H2 H. unfold corr_tm, to_corr in H. rewrite H1, H2 in H. simpl in H.
  apply bind_ok in H. destruct H as [a [Ha H]]. apply bind_ok in H. destruct H as [b [Hb H]]. injection H as <-. unfold rspline in *. unfold sum_callable. split.
  - rewrite (efun_node _ _ _ _ _ _ _ _ _ _ HI G Hi Ha), (efun_node _ _ _ _ _ _ _ _ _ _ HI G Hi Hb). reflexivity.
  - intros r Hr. rewrite (efun_above_zero _ _ _ _ _ _ _ _ _ G Hr Ha), (efun_above_zero _ _ _ _ _ _ _ _ _ G Hr Hb). ring.
Qed.

(** ** C64 *)
Section C64.
  Variables (I : quadrature) (spline : nat -> list R -> list R -> R -> R) (uspline : list R -> list R -> R -> R) (hk : tmode -> (R -> R) -> R -> R) (h : dmhm) (t : tracer).
  Hypothesis HI : interpolates (spline 3%nat).
  Hypothesis GR : grid (d_nr h) (d_r h).
  Hypothesis GM : grid (d_nm h) (d_m h).
  Hypothesis LI : q_linear I.
  (** pairs per unit mass at separation r_i: satellite pairs and central-satellite pairs *)
  Definition pair_rate (lam : nat -> nat -> R) (i im : nat) : R :=
    d_dndm h im * (ss_pairs (t_hod t) (d_m h im) * lam i im + 2 * cs_pairs (t_hod t) (d_m h im) * t_rho t i im).
  Definition cen_factor (im : nat) : R := if h_central (t_hod t) then cen_int (t_hod t) (d_m h im) else 1.
  Lemma parts_sum : forall lam xcs xss i, (i < d_nr h)%nat -> t_lam t = Some lam -> corr_1h_cs I spline uspline h t = Ok xcs -> corr_1h_ss I spline uspline hk h t = Ok xss ->
    xcs (d_r h i) + xss (d_r h i) + 2 = tint I h t (pair_rate lam i) / mean_tracer_den I h t ^ 2.
  Proof.
    intros lam xcs xss i Hi Lm Hc Hs. unfold corr_1h_cs, corr_1h_ss, rspline in *. rewrite Lm in Hs.
    rewrite (efun_node _ _ _ _ _ _ _ _ _ _ HI GR Hi Hc), (efun_node _ _ _ _ _ _ _ _ _ _ HI GR Hi Hs).
    unfold tint. rewrite (mint_ext I h (pair_rate lam i) (fun im => d_dndm h im * 2 * cs_pairs (t_hod t) (d_m h im) * t_rho t i im + lam i im * d_dndm h im * ss_pairs (t_hod t) (d_m h im))) by (intros; unfold pair_rate; ring).
    rewrite mint_plus by auto. unfold Rdiv. ring.
  Qed.
  (** the total is the sum of the parts (which carry -1 each) when the central condition is off or the centrals are a step *)
  Theorem c64_total_is_sum_of_parts : forall lam xcs xss xi i, (i < d_nr h)%nat -> t_lam t = Some lam -> corr_1h_cs I spline uspline h t = Ok xcs -> corr_1h_ss I spline uspline hk h t = Ok xss ->
    corr_1h_tracer I spline uspline hk h t = Ok xi -> h_central (t_hod t) = false \/ h_sharp (t_hod t) = true ->
    xi (d_r h i) = xcs (d_r h i) + xss (d_r h i) + 2.
  Proof.
    intros lam xcs xss xi i Hi Lm Hc Hs H K. rewrite (parts_sum lam xcs xss i Hi Lm Hc Hs). unfold corr_1h_tracer in H. rewrite Lm in H. unfold rspline in H.
    rewrite (efun_node _ _ _ _ _ _ _ _ _ _ HI GR Hi H). unfold tint. f_equal. apply mint_ext. intros im _. unfold pair_rate.
    replace (if h_central (t_hod t) then cen_int (t_hod t) (d_m h im) else 1) with 1; [ring|]. destruct K as [K|K]; [now rewrite K|]. destruct (h_central (t_hod t)) eqn:C; auto. unfold cen_int, cut. rewrite K, C. reflexivity.
  Qed.
  (** finding: with the central condition and a smooth central occupation, the pairs (which already contain the
      central condition) are multiplied by the central occupation again: the exact deficit *)
  Theorem c64_central_counted_twice : forall lam xcs xss xi i, (i < d_nr h)%nat -> t_lam t = Some lam -> corr_1h_cs I spline uspline h t = Ok xcs -> corr_1h_ss I spline uspline hk h t = Ok xss ->
    corr_1h_tracer I spline uspline hk h t = Ok xi -> h_central (t_hod t) = true -> h_sharp (t_hod t) = false ->
    xcs (d_r h i) + xss (d_r h i) + 2 - xi (d_r h i) = tint I h t (fun im => pair_rate lam i im * (1 - central_occupation (t_hod t) (d_m h im))) / mean_tracer_den I h t ^ 2.
  Proof.
    intros lam xcs xss xi i Hi Lm Hc Hs H C S. rewrite (parts_sum lam xcs xss i Hi Lm Hc Hs). unfold corr_1h_tracer in H. rewrite Lm in H. unfold rspline in H.
    rewrite (efun_node _ _ _ _ _ _ _ _ _ _ HI GR Hi H). unfold tint.
    rewrite (mint_ext I h (fun im => pair_rate lam i im * (1 - central_occupation (t_hod t) (d_m h im))) (fun im => pair_rate lam i im + -1 * (pair_rate lam i im * central_occupation (t_hod t) (d_m h im)))) by (intros; ring).
    rewrite mint_lin by auto. rewrite C. rewrite (mint_ext I h (fun im => pair_rate lam i im * central_occupation (t_hod t) (d_m h im)) (fun im => d_dndm h im * (ss_pairs (t_hod t) (d_m h im) * lam i im + 2 * cs_pairs (t_hod t) (d_m h im) * t_rho t i im) * cen_int (t_hod t) (d_m h im))).
    - unfold Rdiv. ring.
    - intros im _. unfold pair_rate, cen_int, cut. rewrite S. simpl. ring.
  Qed.
  (** hence never larger than the sum of the parts, for occupations between 0 and 1 and a positive quadrature *)
  Theorem c64_total_at_most_parts : forall lam xcs xss xi i, q_positive I -> xmin_ok h (tracer_mmin (t_hod t)) -> mean_tracer_den I h t <> 0 -> (i < d_nr h)%nat -> t_lam t = Some lam -> corr_1h_cs I spline uspline h t = Ok xcs -> corr_1h_ss I spline uspline hk h t = Ok xss ->
    corr_1h_tracer I spline uspline hk h t = Ok xi -> h_central (t_hod t) = true -> h_sharp (t_hod t) = false ->
    (forall im, (im < d_nm h)%nat -> 0 <= pair_rate lam i im /\ central_occupation (t_hod t) (d_m h im) <= 1) -> xi (d_r h i) <= xcs (d_r h i) + xss (d_r h i) + 2.
  Proof.
    intros lam xcs xss xi i P X N Hi Lm Hc Hs H C S F. assert (E := c64_central_counted_twice lam xcs xss xi i Hi Lm Hc Hs H C S).
    assert (0 <= tint I h t (fun im => pair_rate lam i im * (1 - central_occupation (t_hod t) (d_m h im))) / mean_tracer_den I h t ^ 2); [|lra].
    unfold Rdiv. apply Rmult_le_pos; [|left; apply Rinv_0_lt_compat; rewrite <- Rsqr_pow2; apply Rlt_0_sqr; auto]. apply mint_pos; auto. intros im Him. destruct (F im Him). apply Rmult_le_pos; lra.
  Qed.
  (** without a self-convolution the total is right: central-satellite integral plus transform of the satellite-satellite power *)
  Theorem c64_total_without_self_convolution : forall pss xi i, (i < d_nr h)%nat -> t_lam t = None -> power_1h_ss I spline uspline h t = Ok pss -> corr_1h_tracer I spline uspline hk h t = Ok xi ->
    xi (d_r h i) = tint I h t (fun im => d_dndm h im * 2 * cs_pairs (t_hod t) (d_m h im) * t_rho t i im) / mean_tracer_den I h t ^ 2 + hk ToR pss (d_r h i)
    /\ forall r, d_r h (d_nr h - 1)%nat < r -> xi r = 1.
  Proof.
    intros pss xi i Hi Lm Hp H. unfold corr_1h_tracer in H. rewrite Lm in H. apply bind_ok in H. destruct H as [a [Ha H]]. apply bind_ok in H. destruct H as [b [Hb H]]. injection H as <-.
    unfold corr_1h_ss in Hb. rewrite Lm, Hp in Hb. simpl in Hb. unfold corr_1h_cs, rspline in *. unfold sum_callable. split.
    - rewrite (efun_node _ _ _ _ _ _ _ _ _ _ HI GR Hi Ha), (efun_node _ _ _ _ _ _ _ _ _ _ HI GR Hi Hb). ring.
    - intros r Hr. rewrite (efun_above_zero _ _ _ _ _ _ _ _ _ GR Hr Ha), (efun_above_zero _ _ _ _ _ _ _ _ _ GR Hr Hb). ring.
  Qed.
End C64.

(** ** C66: power_hh *)
Theorem c66_fails_iff : forall simp h Mmin Mmax k a b a2 b2, (exists e, power_hh simp h Mmin Mmax k a b a2 b2 = Raise e) <->
  dflt a Mmin = dflt b Mmax \/ dflt a2 (dflt a Mmin) = dflt b2 (dflt b Mmax).
Proof.
  intros. unfold power_hh. destruct (Reqb (dflt a Mmin) (dflt b Mmax)) eqn:E1; simpl; [apply Reqb_spec in E1; split; [now left|intros; eexists; reflexivity]|].
  apply Reqb_false in E1. destruct (Reqb (dflt a2 (dflt a Mmin)) (dflt b2 (dflt b Mmax))) eqn:E2; [apply Reqb_spec in E2; split; [now right|intros; eexists; reflexivity]|].
  apply Reqb_false in E2. split; [intros [e K]; discriminate|intros [K|K]; contradiction].
Qed.
(** finding: the documented request for a single halo mass (mmin = mmax) always fails *)
Theorem c66_single_mass_refuted : forall simp h Mmin Mmax k m a2 b2, exists e, power_hh simp h Mmin Mmax k (Some m) (Some m) a2 b2 = Raise e.
Proof. intros. apply c66_fails_iff. left. reflexivity. Qed.
Theorem c66_defaults : forall simp h Mmin Mmax k a b, power_hh simp h Mmin Mmax k a b None None = power_hh simp h Mmin Mmax k a b (Some (dflt a Mmin)) (Some (dflt b Mmax)) /\
  power_hh simp h Mmin Mmax k None None None None = power_hh simp h Mmin Mmax k (Some Mmin) (Some Mmax) None None.
Proof. intros. split; reflexivity. Qed.
Theorem c66_symmetric : forall simp h Mmin Mmax k a b a2 b2, power_hh simp h Mmin Mmax k (Some a) (Some b) (Some a2) (Some b2) = power_hh simp h Mmin Mmax k (Some a2) (Some b2) (Some a) (Some b).
Proof. intros. unfold power_hh; simpl. rewrite orb_comm. destruct (Reqb a2 b2 || Reqb a b); auto. f_equal. ring. Qed.
(** linear bias: a constant bias gives b^2 P for every pair of ranges *)
Theorem c66_constant_bias : forall simp h Mmin Mmax k a b a2 b2 v p, (forall c y x, simp (map (Rmult c) y) x = c * simp y x) -> (forall i, d_bias h i = v) ->
  (forall mn mx, mn <> mx -> simp (map (d_dndm h) (sel h mn mx)) (map (d_m h) (sel h mn mx)) <> 0) -> power_hh simp h Mmin Mmax k a b a2 b2 = Ok p -> p = v ^ 2 * d_phc h k.
Proof.
  intros simp h Mmin Mmax k a b a2 b2 v p S B N H. unfold power_hh in H. destruct (Reqb (dflt a Mmin) (dflt b Mmax)) eqn:E1; [discriminate|]. destruct (Reqb (dflt a2 (dflt a Mmin)) (dflt b2 (dflt b Mmax))) eqn:E2; [discriminate|]. simpl in H. injection H as <-.
  apply Reqb_false in E1. apply Reqb_false in E2.
  assert (K : forall mn mx, mn <> mx -> get_b simp h mn mx = v).
  { intros mn mx H. unfold get_b. replace (map (fun i => d_bias h i * d_dndm h i) (sel h mn mx)) with (map (Rmult v) (map (d_dndm h) (sel h mn mx))) by (rewrite map_map; apply map_ext; intros; now rewrite B). rewrite S. field. now apply N. }
  rewrite !K by auto. ring.
Qed.
(** only halos inside the two ranges matter *)
Theorem c66_only_the_ranges_matter : forall simp h h' Mmin Mmax k a b a2 b2, d_nm h' = d_nm h -> d_phc h' = d_phc h -> (forall i, d_m h' i = d_m h i) ->
  (forall i, (Rpower 10 a <= d_m h i <= Rpower 10 b) \/ (Rpower 10 a2 <= d_m h i <= Rpower 10 b2) -> d_bias h' i = d_bias h i /\ d_dndm h' i = d_dndm h i) ->
  power_hh simp h' Mmin Mmax k (Some a) (Some b) (Some a2) (Some b2) = power_hh simp h Mmin Mmax k (Some a) (Some b) (Some a2) (Some b2).
Proof.
  intros simp h h' Mmin Mmax k a b a2 b2 N P M F. unfold power_hh; simpl. destruct (Reqb a b || Reqb a2 b2); auto. f_equal. rewrite P. f_equal.
  assert (S : forall mn mx, sel h' mn mx = sel h mn mx) by (intros; unfold sel; rewrite N; apply filter_ext; intros; now rewrite M).
  assert (K : forall mn mx, (forall i, Rpower 10 mn <= d_m h i <= Rpower 10 mx -> d_bias h' i = d_bias h i /\ d_dndm h' i = d_dndm h i) -> get_b simp h' mn mx = get_b simp h mn mx).
  { intros mn mx Q. unfold get_b. rewrite S. assert (Z : forall i, In i (sel h mn mx) -> d_bias h' i = d_bias h i /\ d_dndm h' i = d_dndm h i).
    { intros i Hi. apply filter_In in Hi. destruct Hi as [_ Hi]. apply andb_prop in Hi. destruct Hi as [H1 H2]. apply Rleb_spec in H1. apply Rleb_spec in H2. auto. }
    rewrite (map_ext_in (d_dndm h') (d_dndm h)) by (intros i Hi; apply Z; auto). rewrite (map_ext (d_m h') (d_m h)) by auto.
    rewrite (map_ext_in (fun i => d_bias h' i * d_dndm h' i) (fun i => d_bias h i * d_dndm h i)) by (intros i Hi; destruct (Z i Hi) as [-> ->]; reflexivity). reflexivity. }
  rewrite !K; auto.
Qed.

(** ** C90: the 2-halo tracer power *)
Theorem c90_auto_amplitude : forall I spline uspline hk h t P i, d_noexcl h = true -> d_sd h = None -> q_linear I -> interpolates (spline 3%nat) -> grid (d_nk h) (d_k h) -> grid (d_nm h) (d_m h) -> (i < d_nk h)%nat ->
  cut (t_hod t) = true -> d_m h 0%nat < Rpower 10 (h_mmin (t_hod t)) -> mean_tracer_den I h t <> 0 -> power_2h_tracer_noexcl I spline uspline hk h t = Ok P ->
  P (d_k h i) = d_phc h (d_k h i) * (tint I h t (fun im => d_dndm h im * tot_int (t_hod t) (d_m h im) * d_bias h im * t_ukm t i im) / mean_tracer_den I h t) ^ 2.
Proof.
  intros I spline uspline hk h t P i N S L HI GK GM Hi C X M H. unfold power_2h_tracer_noexcl in H. cbv zeta in H.
  rewrite (noexcl_node _ _ _ _ _ _ _ _ _ _ _ _ N S HI GK Hi H). rewrite Rmult_comm. f_equal. unfold factor_2h.
  unfold noexcl_integrate, tracer_exclusion, the_bias. rewrite S. simpl e_bias. cbv beta iota. unfold spline_integrate, e_xmin, tracer_mmin. simpl. rewrite C.
  replace (Rltb (d_m h 0%nat) (Rpower 10 (h_mmin (t_hod t)))) with true by (symmetry; now apply Rltb_spec). unfold ius_of.
  rewrite !Rmult_1_r. unfold tint, tracer_mmin. rewrite C.
  set (d := mean_tracer_den I h t) in *.
  assert (Q := mint_scal I h (fun im => d_dndm h im * tot_int (t_hod t) (d_m h im) * d_bias h im * t_ukm t i im) (/ d) (Some (Rpower 10 (h_mmin (t_hod t)))) L GM).
  replace (mint I h (fun im => d_dndm h im * tot_int (t_hod t) (d_m h im) * d_bias h im * t_ukm t i im) (Some (Rpower 10 (h_mmin (t_hod t)))) / d)
    with (mint I h (fun i0 => / d * (d_dndm h i0 * tot_int (t_hod t) (d_m h i0) * d_bias h i0 * t_ukm t i i0)) (Some (Rpower 10 (h_mmin (t_hod t))))) by (rewrite Q; unfold Rdiv; ring).
  rewrite mint_eq by auto. unfold lo_lim, hi_lim. change arr with tab.
  rewrite (tab_ext _ (fun im => d_dndm h im * tot_int (t_hod t) (d_m h im) / d * t_ukm t i im * d_bias h im * d_m h im) (fun i0 => d_m h i0 * (/ d * (d_dndm h i0 * tot_int (t_hod t) (d_m h i0) * d_bias h i0 * t_ukm t i i0)))) by (intros; field; auto). ring.
Qed.
(** on large scales (u = 1) it is b_eff^2 P exactly *)
Theorem c90_large_scale_bias : forall I spline uspline hk h t P i, d_noexcl h = true -> d_sd h = None -> q_linear I -> interpolates (spline 3%nat) -> grid (d_nk h) (d_k h) -> grid (d_nm h) (d_m h) -> (i < d_nk h)%nat ->
  cut (t_hod t) = true -> d_m h 0%nat < Rpower 10 (h_mmin (t_hod t)) -> mean_tracer_den I h t <> 0 -> power_2h_tracer_noexcl I spline uspline hk h t = Ok P -> (forall im, (im < d_nm h)%nat -> t_ukm t i im = 1) ->
  P (d_k h i) = bias_effective_tracer I h t ^ 2 * d_phc h (d_k h i).
Proof.
  intros I spline uspline hk h t P i N S L HI GK GM Hi C X M H U. rewrite (c90_auto_amplitude I spline uspline hk h t P i) by auto. unfold bias_effective_tracer. rewrite Rmult_comm. f_equal. f_equal. f_equal.
  unfold tint. apply mint_ext. intros im Him. rewrite U by auto. ring.
Qed.
(** finding: the profile multiplies the centrals too - compared with the amplitude the cross spectrum uses
    (centrals unsmoothed) the auto spectrum lacks exactly the centrals' (1 - u) *)
Theorem c90_centrals_are_smoothed : forall I h t i, q_linear I -> grid (d_nm h) (d_m h) ->
  bt_tm I h t i - tint I h t (fun im => d_dndm h im * tot_int (t_hod t) (d_m h im) * d_bias h im * t_ukm t i im)
  = tint I h t (fun im => d_dndm h im * d_bias h im * cen_int (t_hod t) (d_m h im) * (1 - t_ukm t i im)).
Proof.
  intros I h t i L GM. unfold bt_tm, tint. set (x := tracer_mmin (t_hod t)).
  assert (Q := mint_lin I h (fun im => d_dndm h im * d_bias h im * tcen h t i im) (fun im => d_dndm h im * tot_int (t_hod t) (d_m h im) * d_bias h im * t_ukm t i im) (-1) x L GM).
  rewrite (mint_ext I h (fun im => d_dndm h im * d_bias h im * cen_int (t_hod t) (d_m h im) * (1 - t_ukm t i im)) (fun i0 => d_dndm h i0 * d_bias h i0 * tcen h t i i0 + -1 * (d_dndm h i0 * tot_int (t_hod t) (d_m h i0) * d_bias h i0 * t_ukm t i i0))) by (intros; unfold tcen, tot_int; ring). rewrite Q. ring.
Qed.

(** ** C91: large-scale tracer-matter power *)
(** at u = 1 the cross power is b_tracer times (integral of n m b)/rho, never renormalised to unit matter bias *)
Theorem c91_large_scale_cross : forall I h t i, q_linear I -> grid (d_nm h) (d_m h) -> mean_tracer_den I h t <> 0 -> d_rho0 h <> 0 ->
  (forall im, (im < d_nm h)%nat -> t_ukm t i im = 1 /\ d_ukm h i im = 1) ->
  p2h_tm I h t i = bias_effective_tracer I h t * (large_scale_quadrature I h (bias_integrand h (fun _ => 1)) / d_rho0 h) * d_phc h (d_k h i).
Proof.
  intros I h t i L G M R U. unfold p2h_tm, bt_tm, bm_tm, bias_effective_tracer.
  replace (tint I h t (fun im => d_dndm h im * d_bias h im * tcen h t i im)) with (tint I h t (fun im => d_dndm h im * tot_int (t_hod t) (d_m h im) * d_bias h im))
    by (unfold tint; apply mint_ext; intros im Him; unfold tcen, tot_int; destruct (U im Him) as [-> _]; ring).
  replace (mint I h (fun im => d_dndm h im * d_bias h im * d_m h im * d_ukm h i im) None) with (large_scale_quadrature I h (bias_integrand h (fun _ => 1))).
  - field. auto.
  - rewrite mint_eq by auto. unfold large_scale_quadrature, lo_lim, hi_lim. f_equal. apply arr_ext. intros im Him. unfold bias_integrand. destruct (U im Him) as [_ ->]. ring.
Qed.
(** finding: so with unit matter bias forced, the squared large-scale cross-correlation coefficient
    P_tm^2 / (P_tt P_mm) is (integral/rho)^2 instead of 1 *)
Theorem c91_cross_correlation_coefficient : forall I spline uspline hk h t Pt Pm i, d_noexcl h = true -> d_sd h = None -> d_unity h = true -> q_linear I -> interpolates (spline 3%nat) ->
  grid (d_nk h) (d_k h) -> grid (d_nm h) (d_m h) -> (i < d_nk h)%nat -> cut (t_hod t) = true -> d_m h 0%nat < Rpower 10 (h_mmin (t_hod t)) ->
  mean_tracer_den I h t <> 0 -> d_rho0 h <> 0 -> d_rhoh h <> 0 -> bias_effective_tracer I h t <> 0 -> d_phc h (d_k h i) <> 0 ->
  (forall im, (im < d_nm h)%nat -> t_ukm t i im = 1 /\ d_ukm h i im = 1) ->
  let Q := large_scale_quadrature I h (bias_integrand h (fun _ => 1)) in Q <> 0 ->
  scipy_simpson (d_nm h) (ln (d_m h 1%nat / d_m h 0%nat)) (bias_integrand h (fun _ => 1)) = Q ->
  power_2h_tracer_noexcl I spline uspline hk h t = Ok Pt -> power_2h_matter_noexcl I spline uspline hk h = Ok Pm ->
  p2h_tm I h t i ^ 2 / (Pt (d_k h i) * Pm (d_k h i)) = (Q / d_rho0 h) ^ 2.
Proof.
  intros I spline uspline hk h t Pt Pm i N S U L HI GK GM Hi C X M R0 Rh B Ph U1 Q HQ E Ht Hm.
  rewrite (c91_large_scale_cross I h t i) by auto. rewrite (c90_large_scale_bias I spline uspline hk h t Pt i) by (auto; intros; now apply U1).
  rewrite (c61_unit_large_scale_bias I spline uspline hk h Pm i); auto; [|intros; now apply U1]. fold Q. field. repeat split; auto.
Qed.

(** ** C92: the 1-halo tracer-matter power on large scales is (mean host mass)/(matter density) *)
Theorem c92_low_k_cross_1h : forall I h t i, q_linear I -> q_positive I -> grid (d_nm h) (d_m h) -> xmin_ok h (tracer_mmin (t_hod t)) -> 0 < mean_tracer_den I h t -> d_rho0 h <> 0 ->
  (forall im, (im < d_nm h)%nat -> 0 <= d_dndm h im * tot_int (t_hod t) (d_m h im)) -> (forall im, (im < d_nm h)%nat -> t_ukm t i im = 1 /\ d_ukm h i im = 1) ->
  p1h_tm I h t i = Rpower 10 (mass_effective I h t) / d_rho0 h.
Proof.
  intros I h t i L P G X M R F U.
  assert (K : tint I h t (fun im => d_m h im * d_dndm h im * tot_int (t_hod t) (d_m h im)) / mean_tracer_den I h t = Rpower 10 (mass_effective I h t)).
  { unfold mass_effective, Rpower. set (q := tint I h t (fun im => d_m h im * d_dndm h im * tot_int (t_hod t) (d_m h im)) / mean_tracer_den I h t).
    assert (L10 : ln 10 <> 0) by (rewrite <- ln_1; intros E; apply ln_inv in E; lra). replace (ln q / ln 10 * ln 10) with (ln q) by (field; auto). rewrite exp_ln; auto.
    assert (B := average_bounds I h t (d_m h) (d_m h 0%nat) (d_m h (d_nm h - 1)%nat) L P G X M).
    assert (0 < d_m h 0%nat) by (apply G; apply G).
    assert (Z : d_m h 0%nat <= q). { unfold q. replace (tint I h t (fun im => d_m h im * d_dndm h im * tot_int (t_hod t) (d_m h im))) with (tint I h t (fun im => weight h t im * d_m h im)) by (unfold tint; apply mint_ext; intros; unfold weight; ring).
      apply B. intros im Him. repeat split; [now apply F|apply (grid_mono (d_nm h)); auto; lia|apply (grid_mono (d_nm h)); auto; lia]. } lra. }
  rewrite <- K. unfold p1h_tm.
  replace (tint I h t (fun im => d_dndm h im * d_m h im * d_ukm h i im * tcen h t i im)) with (tint I h t (fun im => d_m h im * d_dndm h im * tot_int (t_hod t) (d_m h im)))
    by (unfold tint; apply mint_ext; intros im Him; unfold tcen, tot_int; destruct (U im Him) as [-> ->]; ring). field. split; auto. lra.
Qed.

(** ** C93: the filtered halo-centre spectrum *)
Lemma find_seq : forall (f : nat -> bool) n k z, find f (seq k n) = Some z -> (k <= z < k + n)%nat /\ f z = true /\ forall i, (k <= i < z)%nat -> f i = false.
Proof.
  intros f n. induction n as [|n IH]; intros k z H; simpl in H; [discriminate|]. destruct (f k) eqn:E.
  - injection H as <-. repeat split; auto; intros; lia.
  - apply IH in H. destruct H as [H1 [H2 H3]]. repeat split; auto; try lia. intros i Hi. destruct (Nat.eq_dec i k); [now subst|apply H3; lia].
Qed.
(** non-negative everywhere, equal to power * window up to its first zero, zero from there on *)
Theorem c93_table : forall n k p wk scale tb, filtered_table n k p wk scale = Ok tb -> exists z, (z < n)%nat /\ p z * wk (k z * scale) <= 0 /\
  (forall i, (i < z)%nat -> tb i = p i * wk (k i * scale) /\ 0 < tb i) /\ (forall i, (z <= i)%nat -> tb i = 0).
Proof.
  intros n k p wk scale tb H. unfold filtered_table, first_nonpos in H. destruct (find _ _) as [z|] eqn:E; [|discriminate]. injection H as <-.
  apply find_seq in E. destruct E as [H1 [H2 H3]]. exists z. repeat split; [lia|now apply Rleb_spec| | |].
  - replace (i <? z)%nat with true by (symmetry; apply Nat.ltb_lt; lia). reflexivity.
  - replace (i <? z)%nat with true by (symmetry; apply Nat.ltb_lt; lia). apply Rleb_false. apply H3. lia.
  - intros i Hi. replace (i <? z)%nat with false by (symmetry; apply Nat.ltb_ge; lia). reflexivity.
Qed.
(** finding: it needs a wavenumber grid reaching the first zero of the window, otherwise IndexError *)
Theorem c93_fails_iff : forall n k p wk scale, filtered_table n k p wk scale = Raise IndexError <-> forall i, (i < n)%nat -> 0 < p i * wk (k i * scale).
Proof.
  intros. unfold filtered_table, first_nonpos. destruct (find _ _) as [z|] eqn:E; split; intros H; try discriminate; auto.
  - apply find_seq in E. destruct E as [H1 [H2 _]]. apply Rleb_spec in H2. assert (K := H z). assert (z < n)%nat by lia. specialize (K H0). lra.
  - intros i Hi. assert (K := find_none _ _ E i). apply Rleb_false. apply K. apply in_seq. lia.
Qed.
(** at the table's wavenumbers the callable returns the table, above them zero *)
Theorem c93_callable : forall spline uspline n k p wk scale below f tb, interpolates (spline 3%nat) -> grid n k -> filtered_table n k p wk scale = Ok tb -> phc_filtered spline uspline n k p wk scale below = Ok f ->
  (forall i, (i < n)%nat -> f (k i) = tb i) /\ (forall x, k (n - 1)%nat < x -> f x = 0).
Proof.
  intros spline uspline n k p wk scale below f tb HI G T H. unfold phc_filtered in H. rewrite T in H. simpl in H. split.
  - intros i Hi. exact (efun_node _ _ _ _ _ _ _ _ _ _ HI G Hi H).
  - intros x Hx. exact (efun_above_zero _ _ _ _ _ _ _ _ _ G Hx H).
Qed.
(** finding: below the table the unfiltered power is used without matching, so there is a jump by the window's value *)
Theorem c93_unmatched_below : forall spline uspline n k p wk scale below f, grid n k -> phc_filtered spline uspline n k p wk scale below = Ok f -> forall x, x < k 0%nat -> f x = below x.
Proof.
  intros spline uspline n k p wk scale below f G H x Hx. unfold phc_filtered in H. apply bind_ok in H. destruct H as [tb [_ H]]. apply efun_cases in H. destruct H as [s [H ->]].
  unfold ext_spline_init in H. rewrite gef_zero in H. cbv beta iota zeta delta [orb negb get_extension_func] in H. injection H as <-.
  unfold call_scalar; simpl; rewrite (tab_lmin n k G); replace (Rltb x (k 0%nat)) with true by (symmetry; now apply Rltb_spec); reflexivity.
Qed.
Example c93_nonvacuous : exists tb, filtered_table 2 (fun i => INR (S i)) (fun _ => 1) (fun x => 3 - x) 2 = Ok tb /\ tb 0%nat = 1 /\ tb 1%nat = 0.
Proof.
  unfold filtered_table, first_nonpos. simpl. replace (Rleb (1 * (3 - 1 * 2)) 0) with false by (symmetry; apply Rleb_false; lra).
  replace (Rleb (1 * (3 - (1 + 1) * 2)) 0) with true by (symmetry; apply Rleb_spec; lra). eexists. split; [reflexivity|]. simpl. split; lra.
Qed.

Print Assumptions c63_total_is_one_beyond_table.
Print Assumptions c64_central_counted_twice.
Print Assumptions c66_only_the_ranges_matter.
Print Assumptions c91_cross_correlation_coefficient.
Print Assumptions c92_low_k_cross_1h.
Print Assumptions c93_table.
