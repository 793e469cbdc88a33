(** Angular correlation function: C71. *)
From Coq Require Import Reals List Bool Arith Lia Lra.
From Coquelicot Require Import Coquelicot.
From Verif Require Import Model.RBool Model.SpecialFn Model.SimpsonX Model.IntegrateCorr Spec.IntegrateSpec Proofs.SimpsonXProofs Proofs.ExtSplineProofs Proofs.IntegrateProofs Proofs.ProfileConv Proofs.Calc Props.IntegrateProps.
Import ListNotations.
Local Open Scope R_scope.

(** without p2, the auto-correlation: the same as passing p1 twice *)
Theorem c71_auto : forall c xi p zmin zmax l0 l1 zn un ck pz th,
  angular_corr_gal c xi p None zmin zmax l0 l1 zn un ck pz th = angular_corr_gal c xi p (Some p) zmin zmax l0 l1 zn un ck pz th.
Proof. intros. unfold angular_corr_gal. cbv zeta. destruct (selected ck p _); auto. Qed.
Lemma simpx2_ext : forall (d : R -> R) f g l, (forall t, In t l -> f t = g t) -> simpx (map d l) (map f l) = simpx (map d l) (map g l).
Proof. intros d f g l H. f_equal. now apply map_ext_in. Qed.
Lemma p_integ_sym : forall c pz p1 p2 t, p_integ c pz p1 p2 t = p_integ c pz p2 p1 t.
Proof. intros. unfold p_integ. destruct pz; [f_equal|]; ring. Qed.
(** exchanging the samples *)
Theorem c71_exchange : forall c xi p1 p2 zmin zmax l0 l1 zn un ck pz th,
  angular_corr_gal c xi p1 (Some p2) zmin zmax l0 l1 zn un ck pz th = angular_corr_gal c xi p2 (Some p1) zmin zmax l0 l1 zn un ck pz th.
Proof.
  intros. unfold angular_corr_gal. cbv zeta. destruct (selected ck p1 _) as [q1|], (selected ck p2 _) as [q2|]; auto. f_equal. unfold limber. f_equal. apply simpx2_ext. intros t _. f_equal. apply map_ext. intros v. f_equal. apply p_integ_sym.
Qed.
(** the general linearity of simpx over values attached to a mapped grid *)
Lemma combine_map : forall (d f : R -> R) l, combine (map d l) (map f l) = map (fun t => (d t, f t)) l.
Proof. induction l; simpl; congruence. Qed.
Lemma simpx_map_linear : forall (d : R -> R) f g k l, simpx (map d l) (map (fun t => f t + k * g t) l) = simpx (map d l) (map f l) + k * simpx (map d l) (map g l).
Proof.
  intros d f g k l. unfold simpx. rewrite !combine_map. pattern l. apply list_ind5; clear l; intros; cbn [map].
  - simpl; ring.
  - simpl; ring.
  - simpl. unfold Rdiv. ring.
  - rewrite !simpx_3. unfold panel; cbn [fst snd]. unfold Rdiv. ring.
  - rewrite !simpx_4. unfold panel, cartwright; cbn [fst snd]. unfold Rdiv. ring.
  - rewrite !simpx_5. cbn [map] in H. rewrite H. unfold panel; cbn [fst snd]. unfold Rdiv. ring.
Qed.
Lemma simpx_map_zero : forall (d : R -> R) l, simpx (map d l) (map (fun _ => 0) l) = 0.
Proof. intros d l. assert (H := simpx_map_linear d (fun _ => 0) (fun _ => 0) 1 l). rewrite (simpx2_ext d (fun _ => 0 + 1 * 0) (fun _ => 0)) in H by (intros; ring). lra. Qed.
Lemma simpx_map_scal : forall (d : R -> R) f k l, simpx (map d l) (map (fun t => k * f t) l) = k * simpx (map d l) (map f l).
Proof. intros d f k l. assert (H := simpx_map_linear d (fun _ => 0) f k l). rewrite simpx_map_zero in H. rewrite (simpx2_ext d (fun t => 0 + k * f t) (fun t => k * f t)) in H by (intros; ring). lra. Qed.
Lemma limber_linear : forall c pz p1 p2 xi eta k g u th, limber c pz p1 p2 (fun r => xi r + k * eta r) g u th = limber c pz p1 p2 xi g u th + k * limber c pz p1 p2 eta g u th.
Proof.
  intros. unfold limber.
  rewrite (simpx2_ext _ _ (fun t => simpx u (map (fun v => xi (sqrt (th ^ 2 * distance c pz t ^ 2 + v ^ 2)) * p_integ c pz p1 p2 t) u) + k * simpx u (map (fun v => eta (sqrt (th ^ 2 * distance c pz t ^ 2 + v ^ 2)) * p_integ c pz p1 p2 t) u))).
  - rewrite simpx_map_linear. ring.
  - intros t _. rewrite <- c100_linear. f_equal. apply map_ext. intros. ring.
Qed.
(** linear in the correlation function *)
Theorem c71_linear : forall c xi eta k p1 p2 zmin zmax l0 l1 zn un ck pz th a b,
  angular_corr_gal c xi p1 p2 zmin zmax l0 l1 zn un ck pz th = Some a -> angular_corr_gal c eta p1 p2 zmin zmax l0 l1 zn un ck pz th = Some b ->
  angular_corr_gal c (fun r => xi r + k * eta r) p1 p2 zmin zmax l0 l1 zn un ck pz th = Some (a + k * b).
Proof.
  intros c xi eta k p1 p2 zmin zmax l0 l1 zn un ck pz th a b. unfold angular_corr_gal. cbv zeta. destruct (selected ck p1 _) as [q1|]; [|discriminate].
  destruct (match p2 with None => _ | Some _ => _ end) as [q2|]; [|discriminate]. intros H1 H2. injection H1 as <-. injection H2 as <-. f_equal. apply limber_linear.
Qed.
(** every separation at which the correlation function is asked for is at least the line-of-sight one and the transverse one:
    two functions that agree from the smallest line-of-sight separation on give the same angular correlation *)
Lemma sep_ge : forall x v, 0 <= v -> v <= sqrt (x ^ 2 + v ^ 2).
Proof. intros x v H. rewrite <- (sqrt_pow2 v) at 1 by auto. apply sqrt_le_1_alt. assert (0 <= x ^ 2) by apply pow2_ge_0. lra. Qed.
Theorem c71_only_separations_beyond_umin : forall c xi eta p1 p2 zmin zmax l0 l1 zn un ck pz th, l0 <= l1 -> (forall r, Rpower 10 l0 <= r -> xi r = eta r) ->
  angular_corr_gal c xi p1 p2 zmin zmax l0 l1 zn un ck pz th = angular_corr_gal c eta p1 p2 zmin zmax l0 l1 zn un ck pz th.
Proof.
  intros c xi eta p1 p2 zmin zmax l0 l1 zn un ck pz th L H. unfold angular_corr_gal. cbv zeta. destruct (selected ck p1 _) as [q1|]; auto. destruct (match p2 with None => _ | Some _ => _ end) as [q2|]; auto. f_equal.
  unfold limber. f_equal. apply simpx2_ext. intros t _. f_equal. apply map_ext_in. intros v Hv. f_equal. apply logspace_in in Hv; [|apply exp_pos|].
  - apply H. apply Rle_trans with v; [lra|]. replace (th ^ 2 * distance c pz t ^ 2) with ((th * distance c pz t) ^ 2) by ring. apply sep_ge. assert (0 < Rpower 10 l0) by apply exp_pos. lra.
  - unfold Rpower. apply exp_le_. apply Rmult_le_compat_r; auto. left. rewrite <- ln_1. apply ln_increasing; lra.
Qed.
(** the Jacobian: dxdz is the derivative of the comoving distance in Mpc/h used for the same grid *)
Theorem c71_jacobian : forall c z, is_derive (c_dist c) z (c_dh c / c_E c z) -> is_derive (distance c true) z (dxdz c z).
Proof.
  intros c z H. unfold distance, dxdz. replace (c_dh c * c_h c / c_E c z) with (c_h c * (c_dh c / c_E c z)) by (unfold Rdiv; ring).
  apply (is_derive_ext (fun t => c_h c * c_dist c t)); [intros; apply Rmult_comm|]. apply (is_derive_scal (c_dist c) z (c_h c)). exact H.
Qed.
(** so a selection in redshift and the same selection in distance weigh each distance alike *)
Theorem c71_redshift_or_distance : forall c p1z p1x p2z p2x z, is_derive (c_dist c) z (c_dh c / c_E c z) -> dxdz c z <> 0 ->
  same_distribution (distance c true) p1z p1x z -> same_distribution (distance c true) p2z p2x z -> p_integ c true p1z p2z z = p_integ c false p1x p2x (distance c true z).
Proof.
  intros c p1z p1x p2z p2x z D N S1 S2. apply c71_jacobian in D. unfold p_integ. rewrite (S1 _ D), (S2 _ D). field. auto.
Qed.
(** non-negative, and smaller at larger angles when the correlation function decreases *)
Section Positive.
  Variables (c : cosmology) (pz : bool) (p1 p2 : R -> R) (g u : list R).
  Hypothesis Xi : incr (map (distance c pz) g).
  Hypothesis Xq : quasi_uniform (map (distance c pz) g).
  Hypothesis Ui : incr u.
  Hypothesis Uq : quasi_uniform u.
  Hypothesis Pp : forall t, In t g -> 0 <= p1 t * p2 t.
  Lemma simpx_map_positive : forall (d : R -> R) f l, incr (map d l) -> quasi_uniform (map d l) -> (forall t, In t l -> 0 <= f t) -> 0 <= simpx (map d l) (map f l).
  Proof.
    intros d f l. unfold simpx. rewrite combine_map. pattern l. apply list_ind5; clear l; intros; cbn [map] in *.
    - simpl; lra.
    - simpl; lra.
    - apply incr_inv in H. simpl. assert (0 <= f a) by (apply H1; simpl; auto). assert (0 <= f b) by (apply H1; simpl; auto). apply Rmult_le_pos; lra.
    - apply incr_inv in H. destruct H as [Q1 H]. apply incr_inv in H. destruct H as [Q2 _]. apply qu_inv in H0. destruct H0 as [K1 [K2 _]]. rewrite simpx_3. apply panel_pos; auto; apply H1; simpl; auto.
    - apply incr_inv in H. destruct H as [Q1 H]. apply incr_inv in H. destruct H as [Q2 H]. apply incr_inv in H. destruct H as [Q3 _]. apply qu_inv in H0. destruct H0 as [K1 [K2 H0]]. apply qu_inv in H0. destruct H0 as [K3 [K4 _]].
      rewrite simpx_4. apply tail_pos; auto; apply H1; simpl; auto.
    - apply incr_inv in H0. destruct H0 as [Q1 H0]. apply incr_inv in H0. destruct H0 as [Q2 H0]. apply qu_inv in H1. destruct H1 as [K1 [K2 H1]]. apply qu_inv in H1. destruct H1 as [K3 [K4 H1]].
      rewrite simpx_5. apply Rplus_le_le_0_compat; [apply panel_pos; auto; apply H2; simpl; auto|]. apply H; auto. intros s Hs. apply H2. simpl in *. tauto.
  Qed.
  Lemma p_integ_pos : forall t, In t g -> 0 <= p_integ c pz p1 p2 t.
  Proof.
    intros t Ht. specialize (Pp t Ht). unfold p_integ. destruct pz; auto. destruct (Req_dec (dxdz c t) 0) as [E|E].
    - rewrite E. unfold Rdiv. replace (0 ^ 2) with 0 by ring. rewrite Rinv_0. lra.
    - apply div_pos; auto. assert (0 <= dxdz c t ^ 2) by apply pow2_ge_0. destruct H; auto. exfalso. assert (dxdz c t ^ 2 <> 0) by (apply pow_nonzero; auto). lra.
  Qed.
  Lemma limber_pos : forall xi th, (forall r, 0 <= xi r) -> 0 <= limber c pz p1 p2 xi g u th.
  Proof.
    intros xi th H. unfold limber. assert (0 <= simpx (map (distance c pz) g) (map (fun t => simpx u (map (fun v => xi (sqrt (th ^ 2 * distance c pz t ^ 2 + v ^ 2)) * p_integ c pz p1 p2 t) u)) g)); [|lra].
    apply simpx_map_positive; auto. intros t Ht. apply c100_positive; auto. intros v Hv. apply Rmult_le_pos; auto. now apply p_integ_pos.
  Qed.
  Theorem c71_nonnegative : forall xi th, (forall r, 0 <= xi r) -> 0 <= limber c pz p1 p2 xi g u th.
  Proof. exact limber_pos. Qed.
  Theorem c71_decreasing : forall xi th1 th2, (forall r s, 0 <= r <= s -> xi s <= xi r) -> 0 <= th1 <= th2 -> limber c pz p1 p2 xi g u th2 <= limber c pz p1 p2 xi g u th1.
  Proof.
    intros xi th1 th2 H T. unfold limber. apply Rmult_le_compat_l; [lra|].
    set (F := fun th t => simpx u (map (fun v => xi (sqrt (th ^ 2 * distance c pz t ^ 2 + v ^ 2)) * p_integ c pz p1 p2 t) u)). fold (F th1) (F th2).
    assert (K : 0 <= simpx (map (distance c pz) g) (map (fun t => F th1 t + (-1) * F th2 t) g)).
    { apply simpx_map_positive; auto. intros t Ht. unfold F. rewrite <- c100_linear. apply c100_positive; auto. intros v Hv.
      assert (xi (sqrt (th2 ^ 2 * distance c pz t ^ 2 + v ^ 2)) <= xi (sqrt (th1 ^ 2 * distance c pz t ^ 2 + v ^ 2))). { apply H. split; [apply sqrt_pos|]. apply sqrt_le_1_alt. apply Rplus_le_compat_r. apply Rmult_le_compat_r; [apply pow2_ge_0|]. apply pow_incr. auto. }
      assert (P := p_integ_pos t Ht). assert (0 <= (xi (sqrt (th1 ^ 2 * distance c pz t ^ 2 + v ^ 2)) - xi (sqrt (th2 ^ 2 * distance c pz t ^ 2 + v ^ 2))) * p_integ c pz p1 p2 t) by (apply Rmult_le_pos; lra). lra. }
    rewrite simpx_map_linear in K. lra.
  Qed.
End Positive.
(** finding: angular_corr_matter passes the total matter correlation function, which tends to 1 and not to 0 (C63): an additive 1
    contributes twice the length of the line-of-sight range times the integral of the selection *)
Theorem c71_offset : forall c pz p1 p2 xi g l0 l1 un th, l0 < l1 -> (2 <= un)%nat -> let u := logspace (Rpower 10 l0) (Rpower 10 l1) un in
  limber c pz p1 p2 (fun r => xi r + 1) g u th = limber c pz p1 p2 xi g u th + 2 * (Rpower 10 l1 - Rpower 10 l0) * simpx (map (distance c pz) g) (map (p_integ c pz p1 p2) g).
Proof.
  intros c pz p1 p2 xi g l0 l1 un th L N u. assert (Q := limber_linear c pz p1 p2 xi (fun _ => 1) 1 g u th). cbv beta in Q.
  transitivity (limber c pz p1 p2 (fun r => xi r + 1 * 1) g u th). { unfold limber. f_equal. apply simpx2_ext. intros. f_equal. apply map_ext. intros. ring. } rewrite Q. f_equal. rewrite Rmult_1_l. unfold limber.
  assert (M : Rpower 10 l0 < Rpower 10 l1). { unfold Rpower. apply exp_increasing. apply Rmult_lt_compat_r; auto. rewrite <- ln_1. apply ln_increasing; lra. } assert (P : 0 < Rpower 10 l0) by apply exp_pos.
  rewrite (simpx2_ext _ _ (fun t => (Rpower 10 l1 - Rpower 10 l0) * p_integ c pz p1 p2 t)). { rewrite simpx_map_scal. ring. }
  intros t _. set (w := p_integ c pz p1 p2 t). rewrite simpx_pts_eq, (simpx_ext _ (fun v => w + 0 * v)) by (intros; ring). unfold u. rewrite simpx_affine by (rewrite ?logspace_len; auto using logspace_incr). rewrite logspace_last, logspace_hd by (auto; try lia; lra). lra.
Qed.
(** finding: the r grid of AngularCF is built from distances in Mpc while the integral uses Mpc/h: its ends enclose the smallest
    (largest) separation used iff h >= 1 (h <= 1) *)
Lemma lmin_first : forall (f : R -> R) z0 z1 n, z0 <= z1 -> (0 < n)%nat -> (forall a b, z0 <= a <= b -> b <= z1 -> f a <= f b) -> lmin (map f (linspace z0 z1 n)) = f z0.
Proof.
  intros f z0 z1 n H N M. assert (I : In (f z0) (map f (linspace z0 z1 n))). { apply in_map. rewrite <- (linspace_hd z0 z1 n) at 1 by auto. destruct n; [lia|]. unfold linspace. simpl. auto. }
  apply Rle_antisym; [now apply lmin_lb|]. assert (K : map f (linspace z0 z1 n) <> []) by (intros E; rewrite E in I; destruct I). apply lmin_in in K. apply in_map_iff in K. destruct K as [t [<- Ht]]. apply linspace_in in Ht; auto. apply M; lra.
Qed.
Lemma lmax_last : forall (f : R -> R) z0 z1 n, z0 <= z1 -> (2 <= n)%nat -> (forall a b, z0 <= a <= b -> b <= z1 -> f a <= f b) -> lmax (map f (linspace z0 z1 n)) = f z1.
Proof.
  intros f z0 z1 n H N M. assert (I : In (f z1) (map f (linspace z0 z1 n))). { apply in_map. rewrite <- (linspace_last z0 z1 n) at 1 by auto. unfold linspace. rewrite last_seq by lia. set (q := fun i => z0 + INR i * ((z1 - z0) / INR (n - 1))). change (In (q (0 + n - 1)%nat) (map q (seq 0 n))). apply in_map. apply in_seq. lia. }
  apply Rle_antisym; [|now apply lmax_ub]. assert (K : map f (linspace z0 z1 n) <> []) by (intros E; rewrite E in I; destruct I). apply lmax_in in K. apply in_map_iff in K. destruct K as [t [<- Ht]]. apply linspace_in in Ht; auto. apply M; lra.
Qed.
Lemma sep_le_iff : forall v th d h, 0 < th -> 0 < d -> 0 < h -> (sqrt (v ^ 2 + th ^ 2 * d ^ 2) <= sqrt (th ^ 2 * (d * h) ^ 2 + v ^ 2) <-> 1 <= h).
Proof.
  intros v th d h T D H. assert (P : 0 < th ^ 2 * d ^ 2) by (apply Rmult_lt_0_compat; apply pow_lt; auto). assert (V : 0 <= v ^ 2) by apply pow2_ge_0. assert (HH : 0 <= h ^ 2) by apply pow2_ge_0.
  replace (th ^ 2 * (d * h) ^ 2) with (th ^ 2 * d ^ 2 * h ^ 2) by ring. set (k := th ^ 2 * d ^ 2) in *. split; intros K.
  - apply Rnot_lt_le. intros L. assert (h ^ 2 < 1) by nra. apply Rle_not_lt in K. apply K. apply sqrt_lt_1; [assert (0 <= k * h ^ 2) by (apply Rmult_le_pos; lra); lra|lra|nra].
  - apply sqrt_le_1_alt. assert (1 <= h ^ 2) by nra. nra.
Qed.
Lemma sep_ge_iff : forall v th d h, 0 < th -> 0 < d -> 0 < h -> (sqrt (th ^ 2 * (d * h) ^ 2 + v ^ 2) <= sqrt (v ^ 2 + th ^ 2 * d ^ 2) <-> h <= 1).
Proof.
  intros v th d h T D H. assert (P : 0 < th ^ 2 * d ^ 2) by (apply Rmult_lt_0_compat; apply pow_lt; auto). assert (V : 0 <= v ^ 2) by apply pow2_ge_0. assert (HH : 0 <= h ^ 2) by apply pow2_ge_0.
  replace (th ^ 2 * (d * h) ^ 2) with (th ^ 2 * d ^ 2 * h ^ 2) by ring. set (k := th ^ 2 * d ^ 2) in *. split; intros K.
  - apply Rnot_lt_le. intros L. assert (1 < h ^ 2) by nra. apply Rle_not_lt in K. apply K. apply sqrt_lt_1; [lra|assert (0 <= k * h ^ 2) by (apply Rmult_le_pos; lra); lra|nra].
  - apply sqrt_le_1_alt. assert (h ^ 2 <= 1) by nra. nra.
Qed.
Theorem c71_r_grid_h : forall c z0 z1 zn l0 l1 th0 th1, z0 < z1 -> (2 <= zn)%nat -> 0 < c_dist c z0 -> (forall a b, z0 <= a <= b -> b <= z1 -> c_dist c a <= c_dist c b) -> 0 < c_h c -> 0 < th0 -> 0 < th1 ->
  (acf_rmin c z0 z1 zn l0 th0 <= sqrt (th0 ^ 2 * distance c true z0 ^ 2 + Rpower 10 l0 ^ 2) <-> 1 <= c_h c) /\
  (sqrt (th1 ^ 2 * distance c true z1 ^ 2 + Rpower 10 l1 ^ 2) <= acf_rmax c z0 z1 zn l1 th1 <-> c_h c <= 1).
Proof.
  intros c z0 z1 zn l0 l1 th0 th1 Z N D M H T0 T1. unfold acf_rmin, acf_rmax, acf_xvec. rewrite lmin_first, lmax_last by (auto; try lia; lra). unfold distance. assert (c_dist c z0 <= c_dist c z1) by (apply M; lra).
  split; [apply sep_le_iff; auto|apply sep_ge_iff; auto; lra].
Qed.
Example c71_nonvacuous : exists c : cosmology, (forall z, 0 < z -> is_derive (c_dist c) z (c_dh c / c_E c z)) /\ 0 < c_dist c 1 /\ c_h c < 1 /\ incr (map (distance c true) (linspace 1 2 5)) /\ quasi_uniform (map (distance c true) (linspace 1 2 5)).
Proof.
  exists (mkCosmo (fun z => 3000 * z) (7 / 10) 3000 (fun _ => 1)). simpl. split; [|split; [lra|split; [lra|]]].
  - intros z _. apply (is_derive_ext (fun t => 3000 * t)); auto. auto_derive; auto. field.
  - unfold distance; simpl. split; repeat constructor; lra.
Qed.
Print Assumptions c71_exchange.
Print Assumptions c71_decreasing.
Print Assumptions c71_offset.
Print Assumptions c71_r_grid_h.
