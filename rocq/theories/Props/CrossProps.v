(** Cross-correlations of two tracers (cross_correlations.py): C68, C69, C96, C97. *)
From Coq Require Import Reals List Bool Arith Lia Lra.
From Verif Require Import Model.RBool Model.SpecialFn Model.Quad Model.ExtSpline Model.Exclusion Model.Profiles Model.HOD Model.HaloModel Model.Cross.
From Verif Require Import Spec.HMSpec Spec.CrossSpec Proofs.HMProofs Proofs.HODProofs Props.HaloModelProps Props.HaloModelProps2.
Import ListNotations.
Local Open Scope R_scope.

(** ** C68: pair formulas *)
Definition exchange (c : cross) : cross := mkCross (x_h2 c) (x_h1 c) (x_Rss c) (x_Rsc c) (x_Rcs c) (x_self c).
Theorem c68_exchange : forall c m, ss_cross_pairs (exchange c) m = ss_cross_pairs c m /\ cs_cross_pairs (exchange c) m = sc_cross_pairs c m /\ sc_cross_pairs (exchange c) m = cs_cross_pairs c m.
Proof.
  intros [a b r1 r2 r3 q] m. unfold ss_cross_pairs, cs_cross_pairs, sc_cross_pairs, exchange; simpl. split; [|split; reflexivity]. unfold with_corr.
  destruct (sigs a m), (sigs b m); auto. f_equal. ring.
Qed.
(** uncorrelated tracers: products of the mean occupations, wherever the standard deviations exist *)
Theorem c68_uncorrelated : forall h1 h2 m s, 
  (ss_cross_pairs (ConstantCorr h1 h2 0 0 0) m = Some s -> s = satellite_occupation h1 m * satellite_occupation h2 m) /\
  (cs_cross_pairs (ConstantCorr h1 h2 0 0 0) m = Some s -> s = central_occupation h1 m * satellite_occupation h2 m) /\
  (sc_cross_pairs (ConstantCorr h1 h2 0 0 0) m = Some s -> s = satellite_occupation h1 m * central_occupation h2 m).
Proof.
  intros h1 h2 m s. unfold ss_cross_pairs, cs_cross_pairs, sc_cross_pairs, with_corr; simpl. repeat split; intros H.
  - destruct (sigs h1 m), (sigs h2 m); try discriminate. injection H as <-. ring.
  - destruct (sigc h1 m), (sigs h2 m); try discriminate. injection H as <-. ring.
  - destruct (sigc h2 m), (sigs h1 m); try discriminate. injection H as <-. ring.
Qed.
Section Joint.
  Context {W : Type}.
  Variable E : (W -> R) -> R.
  Hypothesis EE : expectation E.
  Lemma E_const : forall c, E (fun _ => c) = c.
  Proof. intros c. destruct EE as [L [O [_ X]]]. assert (H := L (fun _ => 0) (fun _ => 1) c). assert (Z := L (fun _ => 0) (fun _ => 0) 1). cbv beta in *.
    rewrite (X (fun _ => 0 + c * 1) (fun _ => c)) in H by (intros; ring). rewrite (X (fun _ => 0 + 1 * 0) (fun _ => 0)) in Z by (intros; ring). rewrite O in H. lra. Qed.
  Lemma E_scal : forall c f, E (fun w => c * f w) = c * E f.
  Proof. intros c f. destruct EE as [L [O [_ X]]]. assert (H := L (fun _ => 0) f c). rewrite E_const in H. rewrite (X (fun w => 0 + c * f w) (fun w => c * f w)) in H by (intros; ring). lra. Qed.
  Lemma E_plus : forall f g, E (fun w => f w + g w) = E f + E g.
  Proof. intros f g. destruct EE as [L [O [_ X]]]. rewrite (X _ (fun w => f w + 1 * g w)) by (intros; ring). rewrite L. ring. Qed.
  Lemma cov_eq : forall X Y, covariance E X Y = E (fun w => X w * Y w) - E X * E Y.
  Proof.
    intros X Y. unfold covariance. destruct EE as [_ [_ [_ Ex]]]. set (x := E X). set (y := E Y).
    rewrite (Ex _ (fun w => X w * Y w + ((- y) * X w + ((- x) * Y w + x * y)))) by (intros; ring). rewrite !E_plus, !E_scal, E_const. fold x y. ring.
  Qed.
  (** if the occupations are the mean counts, the sigmas their standard deviations, R their correlation
      coefficient and Q the mean number of self pairs, the pair functions are the expected numbers of pairs *)
  Theorem c68_pairs_are_expectations : forall c m (Ts1 Ts2 Tc1 Tc2 Q : W -> R) s1 s2 k1 k2,
    E Ts1 = satellite_occupation (x_h1 c) m -> E Ts2 = satellite_occupation (x_h2 c) m -> E Tc1 = central_occupation (x_h1 c) m -> E Tc2 = central_occupation (x_h2 c) m ->
    sigs (x_h1 c) m = Some s1 -> sigs (x_h2 c) m = Some s2 -> sigc (x_h1 c) m = Some k1 -> sigc (x_h2 c) m = Some k2 ->
    is_corr E Ts1 Ts2 s1 s2 (x_Rss c m) -> is_corr E Tc1 Ts2 k1 s2 (x_Rcs c m) -> is_corr E Tc2 Ts1 k2 s1 (x_Rsc c m) -> E Q = x_self c m ->
    ss_cross_pairs c m = Some (E (fun w => Ts1 w * Ts2 w - Q w)) /\ cs_cross_pairs c m = Some (E (fun w => Tc1 w * Ts2 w)) /\ sc_cross_pairs c m = Some (E (fun w => Ts1 w * Tc2 w)).
  Proof.
    intros c m Ts1 Ts2 Tc1 Tc2 Q s1 s2 k1 k2 A1 A2 B1 B2 S1 S2 K1 K2 C1 C2 C3 D. unfold is_corr in *. rewrite cov_eq in C1, C2, C3. rewrite A1, A2 in C1. rewrite B1, A2 in C2. rewrite B2, A1 in C3.
    destruct EE as [_ [_ [_ Ex]]]. unfold ss_cross_pairs, cs_cross_pairs, sc_cross_pairs, with_corr. rewrite S1, S2, K1, K2. rewrite (Ex (fun w => Ts1 w * Ts2 w - Q w) (fun w => Ts1 w * Ts2 w + (-1) * Q w)) by (intros; ring).
    rewrite E_plus, E_scal, D. rewrite (Ex (fun w => Ts1 w * Tc2 w) (fun w => Tc2 w * Ts1 w)) by (intros; ring). repeat split; f_equal; lra.
  Qed.
  (** counts are not negative, so for Poisson satellites no coefficient below -sqrt(N1 N2) can occur *)
  Theorem c68_attainable_coefficient : forall (T1 T2 : W -> R) r, (forall w, 0 <= T1 w) -> (forall w, 0 <= T2 w) -> 0 < E T1 -> 0 < E T2 ->
    is_corr E T1 T2 (sqrt (E T1)) (sqrt (E T2)) r -> - sqrt (E T1 * E T2) <= r.
  Proof.
    intros T1 T2 r P1 P2 Q1 Q2 C. unfold is_corr in C. rewrite cov_eq in C. destruct EE as [_ [_ [Po _]]].
    assert (0 <= E (fun w => T1 w * T2 w)) by (apply Po; intros; apply Rmult_le_pos; auto). rewrite <- sqrt_mult in C by lra. set (s := sqrt (E T1 * E T2)) in *.
    assert (S : s * s = E T1 * E T2) by (unfold s; apply sqrt_sqrt; apply Rmult_le_pos; lra). assert (0 < s) by (apply sqrt_lt_R0; apply Rmult_lt_0_compat; auto).
    apply Rmult_le_reg_l with s; auto. lra.
  Qed.
End Joint.
(** finding: a constant coefficient below that bound gives negative pair counts, and only then *)
Definition pois_sat (h : hod) : Prop := h_sigs h = None.
Theorem c68_negative_pairs_iff : forall h1 h2 r rcs rsc m v, pois_sat h1 -> pois_sat h2 -> 0 < satellite_occupation h1 m -> 0 < satellite_occupation h2 m ->
  ss_cross_pairs (ConstantCorr h1 h2 r rcs rsc) m = Some v -> (v < 0 <-> r < - sqrt (satellite_occupation h1 m * satellite_occupation h2 m)).
Proof.
  intros h1 h2 r rcs rsc m v P1 P2 A B H. unfold ss_cross_pairs, with_corr, sigs in H; simpl in H. rewrite P1, P2 in H. unfold nsqrt in H.
  replace (Rltb (satellite_occupation h1 m) 0) with false in H by (symmetry; apply Rltb_false; lra). replace (Rltb (satellite_occupation h2 m) 0) with false in H by (symmetry; apply Rltb_false; lra). injection H as <-.
  rewrite <- sqrt_mult by lra. set (s := sqrt (satellite_occupation h1 m * satellite_occupation h2 m)). assert (S : s * s = satellite_occupation h1 m * satellite_occupation h2 m) by (unfold s; apply sqrt_sqrt; apply Rmult_le_pos; lra).
  assert (0 < s) by (apply sqrt_lt_R0; apply Rmult_lt_0_compat; auto). rewrite <- S. replace (s * s + s * r - 0) with (s * (s + r)) by ring. split; intros K.
  - assert (s + r < 0); [|lra]. apply Rnot_le_lt. intros Z. assert (0 <= s * (s + r)) by (apply Rmult_le_pos; lra). lra.
  - assert (0 < s * - (s + r)) by (apply Rmult_lt_0_compat; lra). lra.
Qed.
(** finding: a tracer crossed with itself.  Fully correlated (R_ss = 1), ConstantCorr counts every satellite as
    a pair with itself (its self_pairs is always 0): exactly the auto pairs plus the mean number of satellites.
    The auto pairs come out only for R_ss = 0 *)
Theorem c68_self_cross : forall h r rcs rsc m v, pois_sat h -> 0 <= satellite_occupation h m -> ss_cross_pairs (ConstantCorr h h r rcs rsc) m = Some v ->
  v = ss_pairs h m + r * satellite_occupation h m /\ (0 < satellite_occupation h m -> (v = ss_pairs h m <-> r = 0)).
Proof.
  intros h r rcs rsc m v P A H. unfold ss_cross_pairs, with_corr, sigs, nsqrt in H; simpl in H. rewrite P in H. replace (Rltb (satellite_occupation h m) 0) with false in H by (symmetry; apply Rltb_false; lra). injection H as <-.
  rewrite sqrt_sqrt by lra. unfold ss_pairs. split; [ring|]. intros Q. split; [intros K|intros ->; ring]. assert (K2 : satellite_occupation h m * r = 0) by lra. apply Rmult_integral in K2. lra.
Qed.
(** finding: with the central condition, the auto central-satellite pairs are the cross pairs at R_cs = 0 divided by
    the central occupation *)
Theorem c68_self_cross_central : forall h rss m v, h_kind h = Poisson -> cs_cross_pairs (ConstantCorr h h rss 0 0) m = Some v ->
  (h_central h = false -> v = cs_pairs h m) /\ (h_central h = true -> h_tpc h m = 1 -> v = central_occupation h m * cs_pairs h m).
Proof.
  intros h rss m v K H. unfold cs_cross_pairs, with_corr in H; simpl in H. destruct (sigc h m), (sigs h m); try discriminate. injection H as <-.
  unfold cs_pairs. rewrite K. split; intros C; rewrite C; [ring|]. intros ->. ring.
Qed.
(** finding: halos with more than one central on average (Poisson HOD without its own sigma) have an undefined
    standard deviation, and their pairs are lost even for uncorrelated tracers *)
Theorem c68_nan_iff : forall h1 h2 rss rcs rsc m, h_kind h1 = Poisson -> h_sigc h1 = None -> h_sigs h2 = None -> 0 <= satellite_occupation h2 m ->
  (cs_cross_pairs (ConstantCorr h1 h2 rss rcs rsc) m = None <-> central_occupation h1 m < 0 \/ 1 < central_occupation h1 m).
Proof.
  intros h1 h2 rss rcs rsc m K S1 S2 P. unfold cs_cross_pairs, with_corr, sigc, sigs, nsqrt; simpl. rewrite K, S1, S2. set (x := central_occupation h1 m).
  replace (Rltb (satellite_occupation h2 m) 0) with false by (symmetry; apply Rltb_false; lra). destruct (Rltb (x * (1 - x)) 0) eqn:E.
  - apply Rltb_spec in E. split; auto. intros _. destruct (Rlt_dec x 0); auto. right. apply Rnot_le_lt. intros Q. assert (0 <= x * (1 - x)) by (apply Rmult_le_pos; lra). lra.
  - apply Rltb_false in E. split; [discriminate|]. intros [Q|Q]; exfalso.
    + assert (0 < - x * (1 - x)) by (apply Rmult_lt_0_compat; lra). lra.
    + assert (0 < x * (x - 1)) by (apply Rmult_lt_0_compat; lra). lra.
Qed.
Example c68_nonvacuous : exists v, ss_cross_pairs (ConstantCorr (Zehavi05 false 1 2 1) (Zehavi05 false 1 2 1) (-1) 0 0) 10 = Some v /\ v < 0.
Proof.
  assert (P : forall m, 0 < satellite_occupation (Zehavi05 false 1 2 1) m) by (intros; apply exp_pos).
  assert (V : satellite_occupation (Zehavi05 false 1 2 1) 10 = 1 / 10). { unfold satellite_occupation; simpl. unfold zehavi_so. rewrite Rpower_1; [|apply Rdiv_lt_0_compat; [lra|apply pow10_pos]]. unfold pow10. change 2 with (INR 2). rewrite Rpower_pow by lra. simpl. lra. }
  assert (H : exists v, ss_cross_pairs (ConstantCorr (Zehavi05 false 1 2 1) (Zehavi05 false 1 2 1) (-1) 0 0) 10 = Some v).
  { unfold ss_cross_pairs, with_corr, sigs, nsqrt; simpl. replace (Rltb (satellite_occupation (Zehavi05 false 1 2 1) 10) 0) with false by (symmetry; apply Rltb_false; left; apply P). eauto. }
  destruct H as [v H]. exists v. split; auto. apply (c68_negative_pairs_iff (Zehavi05 false 1 2 1) (Zehavi05 false 1 2 1) (-1) 0 0 10 v ltac:(reflexivity) ltac:(reflexivity) (P 10) (P 10) H). rewrite V. rewrite sqrt_square by lra. lra.
Qed.

(** ** C69: 2-halo cross power *)
Section C69.
  Variables (I : quadrature) (h1 h2 : dmhm) (t1 t2 : tracer).
  Notation den := (mean_tracer_den I).
  (** exchanging the tracers: symmetric when they share wavenumbers and halo-centre power *)
  Theorem c69_exchange : (forall i, d_k h2 i = d_k h1 i) -> (forall k, d_phc h2 k = d_phc h1 k) -> forall i, p2h_cross I h2 h1 t2 t1 i = p2h_cross I h1 h2 t1 t2 i.
  Proof. intros K P i. unfold p2h_cross. rewrite K, P. f_equal; ring. Qed.
  (** finding: otherwise (two redshifts) only the first model's halo-centre power is used *)
  Theorem c69_first_model_power : forall i, p2h_cross I h1 h2 t1 t2 i * d_phc h2 (d_k h2 i) = p2h_cross I h2 h1 t2 t1 i * d_phc h1 (d_k h1 i).
  Proof. intros i. unfold p2h_cross, Rdiv. rewrite (Rmult_comm (den h2 t2)). ring. Qed.

  Lemma b_is_tint : forall h t i, grid (d_nm h) (d_m h) -> cut (t_hod t) = true -> d_m h 0%nat < Rpower 10 (h_mmin (t_hod t)) ->
    b_cross I h t i = tint I h t (fun im => d_dndm h im * tot_int (t_hod t) (d_m h im) * d_bias h im * t_ukm t i im).
  Proof.
    intros h t i G C X. unfold b_cross, tint, tracer_mmin. rewrite C. replace (Rltb (d_m h 0%nat) (Rpower 10 (h_mmin (t_hod t)))) with true by (symmetry; now apply Rltb_spec).
    rewrite mint_eq by auto. unfold lo_lim, hi_lim. change arr with tab. f_equal. apply tab_ext. intros. ring.
  Qed.
  (** where the profiles are 1 the cross power is the product of the two effective biases times the power *)
  Theorem c69_large_scale : forall i, grid (d_nm h1) (d_m h1) -> grid (d_nm h2) (d_m h2) -> cut (t_hod t1) = true -> cut (t_hod t2) = true ->
    d_m h1 0%nat < Rpower 10 (h_mmin (t_hod t1)) -> d_m h2 0%nat < Rpower 10 (h_mmin (t_hod t2)) -> den h1 t1 <> 0 -> den h2 t2 <> 0 ->
    (forall im, (im < d_nm h1)%nat -> t_ukm t1 i im = 1) -> (forall im, (im < d_nm h2)%nat -> t_ukm t2 i im = 1) ->
    p2h_cross I h1 h2 t1 t2 i = bias_effective_tracer I h1 t1 * bias_effective_tracer I h2 t2 * d_phc h1 (d_k h1 i).
  Proof.
    intros i G1 G2 C1 C2 X1 X2 N1 N2 U1 U2. unfold p2h_cross, bias_effective_tracer. rewrite !b_is_tint by auto.
    replace (tint I h1 t1 (fun im => d_dndm h1 im * tot_int (t_hod t1) (d_m h1 im) * d_bias h1 im * t_ukm t1 i im)) with (tint I h1 t1 (fun im => d_dndm h1 im * tot_int (t_hod t1) (d_m h1 im) * d_bias h1 im)) by (unfold tint; apply mint_ext; intros im Him; rewrite U1 by auto; ring).
    replace (tint I h2 t2 (fun im => d_dndm h2 im * tot_int (t_hod t2) (d_m h2 im) * d_bias h2 im * t_ukm t2 i im)) with (tint I h2 t2 (fun im => d_dndm h2 im * tot_int (t_hod t2) (d_m h2 im) * d_bias h2 im)) by (unfold tint; apply mint_ext; intros im Him; rewrite U2 by auto; ring).
    field. auto.
  Qed.
End C69.
(** the amplitude of the auto power equals that of the cross power, in both quadrature branches *)
Lemma auto_amplitude : forall I spline uspline hk h t P i, d_noexcl h = true -> d_sd h = None -> q_linear I -> interpolates (spline 3%nat) -> grid (d_nk h) (d_k h) -> (i < d_nk h)%nat ->
  mean_tracer_den I h t <> 0 -> power_2h_tracer_noexcl I spline uspline hk h t = Ok P -> P (d_k h i) = (b_cross I h t i / mean_tracer_den I h t) ^ 2 * d_phc h (d_k h i).
Proof.
  intros I spline uspline hk h t P i N S L HI GK Hi M H. unfold power_2h_tracer_noexcl in H. cbv zeta in H.
  rewrite (noexcl_node _ _ _ _ _ _ _ _ _ _ _ _ N S HI GK Hi H). f_equal. unfold factor_2h. rewrite !Rmult_1_r.
  unfold noexcl_integrate, tracer_exclusion, the_bias. rewrite S. simpl e_bias. cbv beta iota. f_equal. unfold spline_integrate, e_xmin. simpl.
  set (d := mean_tracer_den I h t) in *. unfold b_cross. set (f := fun i0 => d_dndm h i0 * d_bias h i0 * tot_int (t_hod t) (d_m h i0) * t_ukm t i i0 * d_m h i0).
  assert (SI : scipy_simpson (d_nm h) (ln (d_m h 1%nat / d_m h 0%nat)) (fun im => d_dndm h im * tot_int (t_hod t) (d_m h im) / d * t_ukm t i im * d_bias h im * d_m h im) = scipy_simpson (d_nm h) (ln (d_m h 1%nat / d_m h 0%nat)) f / d).
  { rewrite (simpson_ext _ _ _ (fun im => / d * f im)) by (intros; unfold f; field; auto). rewrite simpson_scal. unfold Rdiv. ring. }
  destruct (tracer_mmin (t_hod t)) as [x|]; [|exact SI]. destruct (Rltb (d_m h 0%nat) x); [|exact SI]. unfold ius_of.
  assert (Q := L (d_nm h) (fun i0 => ln (d_m h i0)) (fun _ => 0) f (/ d) (ln x) (ln (d_m h (d_nm h - 1)%nat))).
  assert (Z := L (d_nm h) (fun i0 => ln (d_m h i0)) (fun _ => 0) (fun _ => 0) 1 (ln x) (ln (d_m h (d_nm h - 1)%nat))).
  rewrite (arr_ext _ (fun _ => 0 + 1 * 0) (fun _ => 0)) in Z by (intros; ring). change tab with arr.
  rewrite (arr_ext _ (fun im => d_dndm h im * tot_int (t_hod t) (d_m h im) / d * t_ukm t i im * d_bias h im * d_m h im) (fun i0 => 0 + / d * f i0)) by (intros; unfold f; field; auto). rewrite Q. unfold Rdiv. lra.
Qed.
(** two tracers in one universe: the 2-halo cross power is the geometric mean of the auto powers, at every tabulated
    wavenumber and for every HOD and profile *)
Theorem c69_geometric_mean : forall I spline uspline hk h1 h2 t1 t2 P1 P2 i, d_noexcl h1 = true -> d_sd h1 = None -> d_noexcl h2 = true -> d_sd h2 = None -> q_linear I -> interpolates (spline 3%nat) ->
  grid (d_nk h1) (d_k h1) -> d_nk h2 = d_nk h1 -> (forall i, d_k h2 i = d_k h1 i) -> (forall k, d_phc h2 k = d_phc h1 k) -> (i < d_nk h1)%nat -> mean_tracer_den I h1 t1 <> 0 -> mean_tracer_den I h2 t2 <> 0 ->
  power_2h_tracer_noexcl I spline uspline hk h1 t1 = Ok P1 -> power_2h_tracer_noexcl I spline uspline hk h2 t2 = Ok P2 ->
  p2h_cross I h1 h2 t1 t2 i ^ 2 = P1 (d_k h1 i) * P2 (d_k h1 i).
Proof.
  intros I spline uspline hk h1 h2 t1 t2 P1 P2 i N1 S1 N2 S2 L HI G NK K PH Hi M1 M2 H1 H2.
  rewrite (auto_amplitude I spline uspline hk h1 t1 P1 i) by auto. rewrite <- K. rewrite (auto_amplitude I spline uspline hk h2 t2 P2 i); auto; [|rewrite NK; destruct G as [G1 [G2 G3]]; split; auto; split; intros; rewrite !K; auto|now rewrite NK].
  unfold p2h_cross. rewrite K, PH. field. auto.
Qed.
(** in particular a tracer crossed with itself gives its auto power *)
Theorem c69_self_cross_2h : forall I spline uspline hk h t P i, d_noexcl h = true -> d_sd h = None -> q_linear I -> interpolates (spline 3%nat) ->
  grid (d_nk h) (d_k h) -> (i < d_nk h)%nat -> mean_tracer_den I h t <> 0 -> power_2h_tracer_noexcl I spline uspline hk h t = Ok P -> p2h_cross I h h t t i = P (d_k h i).
Proof. intros I spline uspline hk h t P i N S L HI G Hi M H. rewrite (auto_amplitude I spline uspline hk h t P i) by auto. unfold p2h_cross. field. auto. Qed.

(** ** C96: 1-halo cross power *)
Section C96.
  Variables (I : quadrature) (simp : list R -> list R -> R) (h1 h2 : dmhm) (t1 t2 : tracer) (c : cross).
  (** the integrand is symmetric under exchanging the tracers *)
  Theorem c96_exchange : d_nm h2 = d_nm h1 -> (forall i, d_m h2 i = d_m h1 i) -> (forall i, d_dndm h2 i = d_dndm h1 i) ->
    forall i, p1h_cross I simp h2 h1 t2 t1 (exchange c) i = p1h_cross I simp h1 h2 t1 t2 c i.
  Proof.
    intros N M D i. unfold p1h_cross. assert (K : kept h2 (exchange c) = kept h1 c).
    { unfold kept. rewrite N. apply filter_ext. intros j. unfold okmass. rewrite M. destruct (c68_exchange c (d_m h1 j)) as [-> [-> ->]]. rewrite <- !andb_assoc. f_equal. apply andb_comm. }
    rewrite K. rewrite (map_ext (d_m h2) (d_m h1)) by auto. rewrite (map_ext (integ1 h2 t2 t1 (exchange c) i) (integ1 h1 t1 t2 c i)). { f_equal. ring. }
    intros j. unfold integ1. rewrite M, D. destruct (c68_exchange c (d_m h1 j)) as [-> [-> ->]]. ring.
  Qed.
  (** finding: only the first model's mass function is used: the second one's dn/dm (another redshift) enters
      through its mean density alone *)
  Theorem c96_first_mass_function_only : forall h2' i, mean_tracer_den I h2' t2 = mean_tracer_den I h2 t2 -> p1h_cross I simp h1 h2' t1 t2 c i = p1h_cross I simp h1 h2 t1 t2 c i.
  Proof. intros h2' i D. unfold p1h_cross. now rewrite D. Qed.
  (** finding: where pairs are undefined the whole halo mass is left out of the numerator but kept in the mean densities *)
  Theorem c96_undefined_masses_dropped : forall j, (j < d_nm h1)%nat -> (In j (kept h1 c) <-> ss_cross_pairs c (d_m h1 j) <> None /\ sc_cross_pairs c (d_m h1 j) <> None /\ cs_cross_pairs c (d_m h1 j) <> None).
  Proof.
    intros j Hj. unfold kept. rewrite filter_In. unfold okmass. rewrite !andb_true_iff, in_seq.
    assert (K : forall o : option R, isnum o = true <-> o <> None) by (intros [v|]; simpl; split; intros; congruence). rewrite !K. intuition lia.
  Qed.
End C96.
(** a tracer crossed with itself, uncorrelated, without the central condition: the integrand is that of the auto
    1-halo power, so the two powers agree whenever the two quadratures (Simpson in m, spline in ln m) agree on it *)
Definition auto_1h_integrand (h : dmhm) (t : tracer) (ik im : nat) : R := d_dndm h im * (t_ukm t ik im ^ 2 * ss_pairs (t_hod t) (d_m h im) + t_ukm t ik im * (2 * cs_pairs (t_hod t) (d_m h im))).
Theorem c96_self_cross_1h : forall I simp h t rss i, let hd := t_hod t in h_kind hd = Poisson -> h_central hd = false -> h_sigc hd = None -> h_sigs hd = None -> d_turnover h = false -> q_linear I -> grid (d_nm h) (d_m h) -> rss = 0 ->
  (forall j, (j < d_nm h)%nat -> 0 <= central_occupation hd (d_m h j) <= 1 /\ 0 <= satellite_occupation hd (d_m h j)) ->
  p1h_cross I simp h h t t (ConstantCorr hd hd rss 0 0) i = simp (tab (d_nm h) (auto_1h_integrand h t i)) (tab (d_nm h) (d_m h)) / mean_tracer_den I h t ^ 2 /\
  p1h_ss I h t i + p1h_cs I h t i = mint I h (auto_1h_integrand h t i) (Some (h_mmin hd)) / mean_tracer_den I h t ^ 2.
Proof.
  intros I simp h t rss i hd K C S1 S2 T L G -> F. split.
  - unfold p1h_cross. assert (V : forall j, (j < d_nm h)%nat -> ss_cross_pairs (ConstantCorr hd hd 0 0 0) (d_m h j) = Some (ss_pairs hd (d_m h j)) /\ cs_cross_pairs (ConstantCorr hd hd 0 0 0) (d_m h j) = Some (cs_pairs hd (d_m h j)) /\ sc_cross_pairs (ConstantCorr hd hd 0 0 0) (d_m h j) = Some (cs_pairs hd (d_m h j))).
    { intros j Hj. destruct (F j Hj) as [[F1 F2] F3]. unfold ss_cross_pairs, cs_cross_pairs, sc_cross_pairs, with_corr, sigc, sigs, nsqrt; simpl. rewrite K, S1, S2.
      replace (Rltb (satellite_occupation hd (d_m h j)) 0) with false by (symmetry; apply Rltb_false; lra).
      replace (Rltb (central_occupation hd (d_m h j) * (1 - central_occupation hd (d_m h j))) 0) with false by (symmetry; apply Rltb_false; apply Rmult_le_pos; lra).
      unfold ss_pairs, cs_pairs. rewrite K, C. repeat split; f_equal; ring. }
    assert (Q : kept h (ConstantCorr hd hd 0 0 0) = seq 0 (d_nm h)).
    { unfold kept. assert (A : forall l, (forall j, In j l -> (j < d_nm h)%nat) -> filter (okmass h (ConstantCorr hd hd 0 0 0)) l = l).
      { induction l as [|a l IH]; intros Hl; auto. simpl. unfold okmass at 1. destruct (V a (Hl a (or_introl eq_refl))) as [-> [-> ->]]. simpl. f_equal. apply IH. intros; apply Hl; right; auto. }
      apply A. intros j Hj. apply in_seq in Hj. lia. }
    rewrite Q. rewrite (map_ext_in (integ1 h t t (ConstantCorr hd hd 0 0 0) i) (auto_1h_integrand h t i)). { unfold tab. f_equal. ring. }
    intros j Hj. apply in_seq in Hj. unfold integ1, auto_1h_integrand. destruct (V j) as [-> [-> ->]]; [lia|]. simpl num. fold hd. ring.
  - unfold p1h_ss, p1h_cs, do_1halo, mmin_1h. rewrite T. fold hd. rewrite <- Rdiv_plus_distr. f_equal. rewrite <- mint_plus by auto. apply mint_ext. intros j Hj. unfold auto_1h_integrand. fold hd. ring.
Qed.

(** tracers whose central is the halo's bulk component have no scatter in it: whatever the correlation coefficients, central-satellite
    pairs are the product of the means, and they are defined at every mass where the satellite scatter is *)
Theorem c68_bulk_central : forall c m, pois_sat (x_h1 c) -> pois_sat (x_h2 c) -> 0 <= satellite_occupation (x_h1 c) m -> 0 <= satellite_occupation (x_h2 c) m ->
  (h_kind (x_h1 c) = Bulk -> cs_cross_pairs c m = Some (central_occupation (x_h1 c) m * satellite_occupation (x_h2 c) m)) /\
  (h_kind (x_h2 c) = Bulk -> sc_cross_pairs c m = Some (satellite_occupation (x_h1 c) m * central_occupation (x_h2 c) m)).
Proof.
  intros c m P1 P2 A B. unfold cs_cross_pairs, sc_cross_pairs, with_corr, sigc, sigs, nsqrt. rewrite P1, P2.
  replace (Rltb (satellite_occupation (x_h1 c) m) 0) with false by (symmetry; apply Rltb_false; lra). replace (Rltb (satellite_occupation (x_h2 c) m) 0) with false by (symmetry; apply Rltb_false; lra).
  split; intros ->; f_equal; ring.
Qed.
(** a second tracer without satellites: the 1-halo cross power is the integral of the first tracer's profile weighted by its satellites
    times the second's centrals; the second tracer's profile has no effect (and the mirror statement) *)
Theorem c96_centrals_only : forall I simp h1 h2 t1 t2 rss rcs rsc i, let a := t_hod t1 in let b := t_hod t2 in let c := ConstantCorr a b rss rcs rsc in
  h_kind a = Poisson -> h_sigc a = None -> h_sigs a = None -> h_kind b = Poisson -> h_sigc b = None -> h_sigs b = None ->
  (forall j, (j < d_nm h1)%nat -> 0 <= central_occupation a (d_m h1 j) <= 1 /\ 0 <= central_occupation b (d_m h1 j) <= 1 /\ 0 <= satellite_occupation a (d_m h1 j) /\ 0 <= satellite_occupation b (d_m h1 j)) ->
  let norm := mean_tracer_den I h1 t1 * mean_tracer_den I h2 t2 in
  (rsc = 0 -> (forall j, (j < d_nm h1)%nat -> satellite_occupation b (d_m h1 j) = 0) -> p1h_cross I simp h1 h2 t1 t2 c i =
    simp (tab (d_nm h1) (fun j => d_dndm h1 j * (satellite_occupation a (d_m h1 j) * central_occupation b (d_m h1 j)) * t_ukm t1 i j)) (tab (d_nm h1) (d_m h1)) / norm) /\
  (rcs = 0 -> (forall j, (j < d_nm h1)%nat -> satellite_occupation a (d_m h1 j) = 0) -> p1h_cross I simp h1 h2 t1 t2 c i =
    simp (tab (d_nm h1) (fun j => d_dndm h1 j * (central_occupation a (d_m h1 j) * satellite_occupation b (d_m h1 j)) * t_ukm t2 i j)) (tab (d_nm h1) (d_m h1)) / norm).
Proof.
  intros I simp h1 h2 t1 t2 rss rcs rsc i a b c K1 C1 S1 K2 C2 S2 F norm.
  assert (V : forall j, (j < d_nm h1)%nat -> exists sc1 sc2, ss_cross_pairs c (d_m h1 j) = Some (satellite_occupation a (d_m h1 j) * satellite_occupation b (d_m h1 j) + sqrt (satellite_occupation a (d_m h1 j)) * sqrt (satellite_occupation b (d_m h1 j)) * rss - 0) /\
    cs_cross_pairs c (d_m h1 j) = Some (central_occupation a (d_m h1 j) * satellite_occupation b (d_m h1 j) + sc1 * sqrt (satellite_occupation b (d_m h1 j)) * rcs) /\
    sc_cross_pairs c (d_m h1 j) = Some (central_occupation b (d_m h1 j) * satellite_occupation a (d_m h1 j) + sc2 * sqrt (satellite_occupation a (d_m h1 j)) * rsc)).
  { intros j Hj. destruct (F j Hj) as [A1 [A2 [A3 A4]]]. unfold ss_cross_pairs, cs_cross_pairs, sc_cross_pairs, with_corr, sigc, sigs, nsqrt. subst c. cbn [x_h1 x_h2 x_Rss x_Rcs x_Rsc x_self ConstantCorr]. rewrite K1, C1, S1, K2, C2, S2.
    replace (Rltb (satellite_occupation a (d_m h1 j)) 0) with false by (symmetry; apply Rltb_false; lra). replace (Rltb (satellite_occupation b (d_m h1 j)) 0) with false by (symmetry; apply Rltb_false; lra).
    replace (Rltb (central_occupation a (d_m h1 j) * (1 - central_occupation a (d_m h1 j))) 0) with false by (symmetry; apply Rltb_false; apply Rmult_le_pos; lra).
    replace (Rltb (central_occupation b (d_m h1 j) * (1 - central_occupation b (d_m h1 j))) 0) with false by (symmetry; apply Rltb_false; apply Rmult_le_pos; lra). eauto. }
  assert (Q : kept h1 c = seq 0 (d_nm h1)).
  { unfold kept. assert (A : forall l, (forall j, In j l -> (j < d_nm h1)%nat) -> filter (okmass h1 c) l = l).
    { induction l as [|x l IH]; intros Hl; auto. simpl. unfold okmass at 1. destruct (V x (Hl x (or_introl eq_refl))) as [u [w [-> [-> ->]]]]. simpl. f_equal. apply IH. intros; apply Hl; right; auto. }
    apply A. intros j Hj. apply in_seq in Hj. lia. }
  unfold p1h_cross. rewrite Q. fold norm. split; intros R0 Z; unfold tab; f_equal; f_equal; apply map_ext_in; intros j Hj; apply in_seq in Hj; unfold integ1; destruct (V j) as [u [w [-> [-> ->]]]]; try lia; simpl num; rewrite R0, (Z j) by lia; rewrite sqrt_0; ring.
Qed.
Print Assumptions c96_centrals_only.

(** ** C97: totals *)
(** the total correlation exceeds the sum of its two terms by exactly 1 at the tabulated radii, and is 1 beyond them *)
Theorem c97_corr_cross : forall I spline uspline hk simp h1 h2 t1 t2 c xi p1 p2 i, interpolates (spline 3%nat) -> grid (d_nr h1) (d_r h1) -> (i < d_nr h1)%nat ->
  power_1h_cross I spline uspline simp h1 h2 t1 t2 c = Ok p1 -> power_2h_cross I spline uspline h1 h2 t1 t2 = Ok p2 -> corr_cross I spline uspline hk simp h1 h2 t1 t2 c = Ok xi ->
  xi (d_r h1 i) = hk ToR p1 (d_r h1 i) + hk ToRfine p2 (d_r h1 i) + 1 /\ (forall r, d_r h1 (d_nr h1 - 1)%nat < r -> xi r = 1).
Proof.
  intros I spline uspline hk simp h1 h2 t1 t2 c xi p1 p2 i HI G Hi H1 H2 H. unfold corr_cross, corr_1h_cross, corr_2h_cross, to_corr in H. rewrite H1, H2 in H.
  apply bind_ok in H. destruct H as [a [Ha H]]. apply bind_ok in H. destruct H as [b [Hb H]]. injection H as <-. simpl in Ha, Hb. unfold rspline in *. split.
  - rewrite (efun_node _ _ _ _ _ _ _ _ _ _ HI G Hi Ha), (efun_node _ _ _ _ _ _ _ _ _ _ HI G Hi Hb). reflexivity.
  - intros r Hr. rewrite (efun_above_zero _ _ _ _ _ _ _ _ _ G Hr Ha), (efun_above_zero _ _ _ _ _ _ _ _ _ G Hr Hb). ring.
Qed.
Theorem c97_power_cross : forall I spline uspline simp h1 h2 t1 t2 c p i, interpolates (spline 3%nat) -> grid (d_nk h1) (d_k h1) -> (i < d_nk h1)%nat ->
  power_cross I spline uspline simp h1 h2 t1 t2 c = Ok p -> p (d_k h1 i) = p1h_cross I simp h1 h2 t1 t2 c i + p2h_cross I h1 h2 t1 t2 i.
Proof.
  intros I spline uspline simp h1 h2 t1 t2 c p i HI G Hi H. unfold power_cross in H. apply bind_ok in H. destruct H as [a [Ha H]]. apply bind_ok in H. destruct H as [b [Hb H]]. injection H as <-.
  rewrite (efun_node _ _ _ _ _ _ _ _ _ _ HI G Hi Ha), (efun_node _ _ _ _ _ _ _ _ _ _ HI G Hi Hb). reflexivity.
Qed.

Print Assumptions c68_pairs_are_expectations.
Print Assumptions c68_negative_pairs_iff.
Print Assumptions c69_geometric_mean.
Print Assumptions c96_self_cross_1h.
Print Assumptions c97_corr_cross.
