(** Properties of the tracer statistics and halo-model power spectra and correlation functions
    (halo_model.py): C57-C64, C66, C90-C93. *)
From Coq Require Import Reals List Bool Arith Lia Lra.
From Coquelicot Require Import Coquelicot.
From Verif Require Import Model.RBool Model.SpecialFn Model.SplineInt Model.ExtSpline Model.Exclusion Model.Profiles Model.HOD Model.HaloModel Model.Quad.
From Verif Require Import Spec.HMSpec Spec.ExclSpec Proofs.HMProofs Proofs.Calc Proofs.HODProofs Proofs.ProfileConv.
Import ListNotations.
Local Open Scope R_scope.

(** ** C57: fractions *)
Theorem c57_central_fraction_is_an_integral : forall I h t, q_linear I -> grid (d_nm h) (d_m h) -> mean_tracer_den I h t <> 0 ->
  central_fraction I h t = mint I h (fun i => d_dndm h i * cen_int (t_hod t) (d_m h i)) (tracer_mmin (t_hod t)) / mean_tracer_den I h t /\
  satellite_fraction I h t + central_fraction I h t = 1.
Proof.
  intros I h t L G N. split; [|unfold central_fraction; ring]. unfold central_fraction, satellite_fraction.
  assert (E : mean_tracer_den I h t = tint I h t (fun i => d_dndm h i * cen_int (t_hod t) (d_m h i)) + tint I h t (fun i => d_dndm h i * satellite_occupation (t_hod t) (d_m h i))).
  { unfold mean_tracer_den, tint. rewrite <- mint_plus by auto. apply mint_ext. intros. unfold tot_int. ring. }
  fold (tint I h t (fun i => d_dndm h i * cen_int (t_hod t) (d_m h i))).
  replace 1 with (mean_tracer_den I h t / mean_tracer_den I h t) at 1 by (field; auto). rewrite E at 1. unfold Rdiv. ring.
Qed.
Theorem c57_fractions_between_0_and_1 : forall I h t, q_linear I -> q_positive I -> grid (d_nm h) (d_m h) -> xmin_ok h (tracer_mmin (t_hod t)) ->
  0 < mean_tracer_den I h t -> (forall i, (i < d_nm h)%nat -> 0 <= d_dndm h i /\ 0 <= cen_int (t_hod t) (d_m h i) /\ 0 <= satellite_occupation (t_hod t) (d_m h i)) ->
  0 <= satellite_fraction I h t <= 1 /\ 0 <= central_fraction I h t <= 1.
Proof.
  intros I h t L P G X N A. destruct (c57_central_fraction_is_an_integral I h t L G) as [E S]; [lra|].
  assert (0 <= satellite_fraction I h t). { apply Rdiv_le_0_compat; auto. apply mint_pos; auto. intros i Hi. destruct (A i Hi) as [A1 [A2 A3]]. now apply Rmult_le_pos. }
  assert (0 <= central_fraction I h t). { rewrite E. apply Rdiv_le_0_compat; auto. apply mint_pos; auto. intros i Hi. destruct (A i Hi) as [A1 [A2 A3]]. now apply Rmult_le_pos. }
  lra.
Qed.

(** ** C58: effective bias and mass are averages *)
Definition weight (h : dmhm) (t : tracer) (i : nat) : R := d_dndm h i * tot_int (t_hod t) (d_m h i).
Lemma average_bounds : forall I h t g lo hi, q_linear I -> q_positive I -> grid (d_nm h) (d_m h) -> xmin_ok h (tracer_mmin (t_hod t)) ->
  0 < mean_tracer_den I h t -> (forall i, (i < d_nm h)%nat -> 0 <= weight h t i /\ lo <= g i <= hi) ->
  lo <= tint I h t (fun i => weight h t i * g i) / mean_tracer_den I h t <= hi.
Proof.
  intros I h t g lo hi L P G X N A. set (xm := tracer_mmin (t_hod t)) in *.
  assert (B : forall c, mint I h (fun i => c * weight h t i) xm = c * mint I h (weight h t) xm) by (intros; now apply mint_scal).
  change (mean_tracer_den I h t) with (mint I h (weight h t) xm) in *. change (tint I h t (fun i => weight h t i * g i)) with (mint I h (fun i => weight h t i * g i) xm).
  split.
  - apply Rmult_le_reg_r with (mint I h (weight h t) xm); auto. unfold Rdiv. rewrite Rmult_assoc, Rinv_l, Rmult_1_r, <- B by lra. apply mint_le; auto. intros i Hi. destruct (A i Hi). nra.
  - apply Rmult_le_reg_r with (mint I h (weight h t) xm); auto. unfold Rdiv. rewrite Rmult_assoc, Rinv_l, Rmult_1_r, <- B by lra. apply mint_le; auto. intros i Hi. destruct (A i Hi). nra.
Qed.
Theorem c58_bias_is_an_average : forall I h t lo hi, q_linear I -> q_positive I -> grid (d_nm h) (d_m h) -> xmin_ok h (tracer_mmin (t_hod t)) ->
  0 < mean_tracer_den I h t -> (forall i, (i < d_nm h)%nat -> 0 <= d_dndm h i * tot_int (t_hod t) (d_m h i) /\ lo <= d_bias h i <= hi) ->
  lo <= bias_effective_tracer I h t <= hi.
Proof. intros I h t lo hi L P G X N A. exact (average_bounds I h t (d_bias h) lo hi L P G X N A). Qed.
Theorem c58_constant_bias : forall I h t b, q_linear I -> grid (d_nm h) (d_m h) -> mean_tracer_den I h t <> 0 ->
  (forall i, (i < d_nm h)%nat -> d_bias h i = b) -> bias_effective_tracer I h t = b.
Proof.
  intros I h t b L G N A. unfold bias_effective_tracer, tint, mean_tracer_den, tint in *. set (xm := tracer_mmin (t_hod t)) in *.
  rewrite (mint_ext I h _ (fun i => b * (d_dndm h i * tot_int (t_hod t) (d_m h i)))) by (intros i Hi; rewrite A by auto; ring).
  rewrite mint_scal by auto. field. auto.
Qed.
Theorem c58_mass_is_an_average : forall I h t, q_linear I -> q_positive I -> grid (d_nm h) (d_m h) -> xmin_ok h (tracer_mmin (t_hod t)) ->
  0 < mean_tracer_den I h t -> (forall i, (i < d_nm h)%nat -> 0 <= d_dndm h i * tot_int (t_hod t) (d_m h i)) ->
  d_m h 0%nat <= Rpower 10 (mass_effective I h t) <= d_m h (d_nm h - 1)%nat.
Proof.
  intros I h t L P G X N A.
  assert (B := average_bounds I h t (d_m h) (d_m h 0%nat) (d_m h (d_nm h - 1)%nat) L P G X N).
  assert (K : forall i, (i < d_nm h)%nat -> 0 <= weight h t i /\ d_m h 0%nat <= d_m h i <= d_m h (d_nm h - 1)%nat).
  { intros i Hi. repeat split; [now apply A|apply (grid_mono (d_nm h)); auto; lia|apply (grid_mono (d_nm h)); auto; lia]. }
  specialize (B K). unfold mass_effective.
  replace (tint I h t (fun i => d_m h i * d_dndm h i * tot_int (t_hod t) (d_m h i))) with (tint I h t (fun i => weight h t i * d_m h i)) by (unfold tint; apply mint_ext; intros; unfold weight; ring).
  assert (0 < d_m h 0%nat) by (apply G; apply G). set (q := tint I h t (fun i => weight h t i * d_m h i) / mean_tracer_den I h t) in *.
  unfold Rpower. assert (L10 : ln 10 <> 0) by (rewrite <- ln_1; intros E; apply ln_inv in E; lra). replace (ln q / ln 10 * ln 10) with (ln q) by (field; auto). rewrite exp_ln; lra.
Qed.
(** the hypotheses are met: two masses, Zehavi05, the step quadrature *)
Definition h0 : dmhm := mkDM 3 (fun i => 10 ^ (11 + i)) (fun i => 1) (fun i => 1 + INR i) 1 1 (fun _ => 1) [1] (fun _ => 1) (fun _ => 1) (fun _ => 1) Linear 1 (fun _ => 1)
  (fun _ _ => 1) None 1 1 200 true true true None.
Definition t0 : tracer := mkTr (Zehavi05 true 12 13 1) (fun _ _ => 1) (fun _ _ => 1) None.
Lemma h0_grid : grid (d_nm h0) (d_m h0).
Proof.
  assert (P : forall n, 0 < 10 ^ n) by (intros; apply pow_lt; lra). repeat split; [apply Nat.lt_0_succ|intros i _; exact (P (11 + i)%nat)|].
  intros i j H. change (10 ^ (11 + i) < 10 ^ (11 + j)). apply Rlt_pow; [lra|lia].
Qed.
Lemma p10 : forall n : nat, Rpower 10 (INR n) = 10 ^ n.
Proof. intros. apply Rpower_pow. lra. Qed.
Lemma step3 : forall x F, x 0%nat <= x 1%nat -> x 1%nat <= x 2%nat -> step_quad (arr 3 x) (arr 3 F) (x 1%nat) (x 2%nat) = F 1%nat * (x 2%nat - x 1%nat).
Proof.
  intros x F H1 H2. unfold step_quad, arr. simpl.
  rewrite (Rmin_right (x 2%nat) (x 1%nat)), (Rmin_left (x 1%nat) (x 1%nat)), (Rmin_left (x 2%nat) (x 2%nat)), (Rmin_left (x 1%nat) (x 2%nat)) by lra.
  rewrite (Rmax_right (x 1%nat) (x 2%nat)), (Rmax_left (x 1%nat) (x 1%nat)) by lra. ring.
Qed.
Example c58_nonvacuous : xmin_ok h0 (tracer_mmin (t_hod t0)) /\ 0 < mean_tracer_den step_quad h0 t0 /\
  1 <= bias_effective_tracer step_quad h0 t0 <= 3.
Proof.
  assert (E12 : Rpower 10 12 = 10 ^ 12) by (rewrite <- p10; f_equal; simpl; lra).
  assert (X : xmin_ok h0 (tracer_mmin (t_hod t0))). { unfold t0, tracer_mmin, cut, Zehavi05, poisson_hod, h_central; simpl h_sharp; simpl h_flag; simpl. rewrite E12. simpl. lra. }
  assert (S : forall i, 0 <= satellite_occupation (t_hod t0) (d_m h0 i)).
  { intros i. unfold satellite_occupation, nc, central_occupation. simpl. unfold zehavi_co, one, zehavi_so. apply Rmult_le_pos; [destruct (Rltb _ _); lra|left; apply exp_pos]. }
  assert (N : 0 < mean_tracer_den step_quad h0 t0).
  { unfold mean_tracer_den, tint. rewrite mint_eq by apply h0_grid. unfold lo_lim, hi_lim, tracer_mmin, cut, h_central. simpl h_sharp; simpl h_flag; simpl h_kind; simpl h_inherent; simpl h_mmin. cbv beta iota zeta delta [andb orb]. rewrite E12.
    set (F := fun i => d_m h0 i * (d_dndm h0 i * tot_int (t_hod t0) (d_m h0 i))).
    assert (F1 : 0 < F 1%nat). { unfold F. apply Rmult_lt_0_compat; [apply h0_grid; simpl; lia|]. simpl d_dndm. rewrite Rmult_1_l. unfold tot_int. replace (cen_int (t_hod t0) (d_m h0 1%nat)) with 1 by reflexivity. specialize (S 1%nat). lra. }
    assert (D : d_m h0 1%nat = 10 ^ 12) by reflexivity. rewrite <- D.
    assert (A : forall n : nat, ln (10 ^ n) = INR n * ln 10) by (intros n; rewrite <- p10; unfold Rpower; apply ln_exp).
    assert (L : 0 < ln 10) by (rewrite <- ln_1; apply ln_increasing; lra).
    assert (Q := step3 (fun i => ln (d_m h0 i)) F). cbv beta in Q.
    replace (step_quad (arr (d_nm h0) (fun i => ln (d_m h0 i))) (arr (d_nm h0) F) (ln (d_m h0 1%nat)) (ln (d_m h0 (d_nm h0 - 1)%nat))) with (F 1%nat * (ln (d_m h0 2%nat) - ln (d_m h0 1%nat))).
    2: { symmetry. apply Q; left; apply ln_increasing; apply h0_grid; simpl; lia. }
    apply Rmult_lt_0_compat; auto. apply Rlt_Rminus. apply ln_increasing; apply h0_grid; simpl; lia. }
  split; [exact X|]. split; [exact N|].
  apply (c58_bias_is_an_average step_quad h0 t0 1 3 step_quad_linear step_quad_positive h0_grid X N).
  intros i Hi. split.
  - simpl d_dndm. rewrite Rmult_1_l. unfold tot_int. replace (cen_int (t_hod t0) (d_m h0 i)) with 1 by reflexivity. specialize (S i). lra.
  - simpl in Hi |- *. destruct i as [|[|[|i]]]; simpl; try lra; lia.
Qed.

(** ** C59: the sharp-cut convention *)
(** true mean density of tracers with a continuous mass function n between mlo and mhi *)
Definition true_density (n : R -> R) (hd : hod) (mlo mhi v : R) : Prop := is_RInt (fun m => n m * total_occupation hd m) mlo mhi v.
(** what the code integrates (with exact quadrature): from tracer_mmin, with _total_occupation *)
Definition code_density (n : R -> R) (hd : hod) (mlo mhi v : R) : Prop :=
  is_RInt (fun m => n m * tot_int hd m) (match tracer_mmin hd with Some x => x | None => mlo end) mhi v.
Lemma split_density : forall n hd g mlo mc mhi v w, mlo <= mc <= mhi -> (forall m, mlo < m < mc -> total_occupation hd m = 0) ->
  (forall m, mc < m < mhi -> n m * total_occupation hd m = n m * tot_int hd m - g m) ->
  is_RInt (fun m => n m * tot_int hd m) mc mhi v -> is_RInt g mc mhi w -> true_density n hd mlo mhi (v - w).
Proof.
  intros n hd g mlo mc mhi v w H Z E Hv Hw. unfold true_density. replace (v - w) with (0 + (v - w)) by ring. apply chasles with mc.
  - apply rint_zero; [lra|]. intros m Hm. rewrite Z by auto. ring.
  - apply (rext _ (fun m => n m * tot_int hd m - g m)); [lra|auto|]. now apply rminus.
Qed.
Lemma split_density0 : forall n hd mlo mc mhi v, mlo <= mc <= mhi -> (forall m, mlo < m < mc -> total_occupation hd m = 0) ->
  (forall m, mc < m < mhi -> total_occupation hd m = tot_int hd m) ->
  is_RInt (fun m => n m * tot_int hd m) mc mhi v -> true_density n hd mlo mhi v.
Proof.
  intros n hd mlo mc mhi v H Z E Hv. replace v with (v - 0) by ring. apply (split_density n hd (fun _ => 0) mlo mc mhi v 0); auto.
  - intros m Hm. rewrite E by auto. ring.
  - apply rint_zero; [lra|auto].
Qed.
Lemma zco_below : forall M m, m < pow10 M -> zehavi_co M m = 0.
Proof. intros. unfold zehavi_co. now rewrite (proj2 (Rltb_spec _ _) H). Qed.
Lemma zco_above : forall M m, pow10 M <= m -> zehavi_co M m = 1.
Proof. intros. unfold zehavi_co. now rewrite (proj2 (Rltb_false _ _) H). Qed.
Theorem c59_zehavi05 : forall n central Mmin M1 alpha mlo mhi v, mlo <= pow10 Mmin <= mhi ->
  code_density n (Zehavi05 central Mmin M1 alpha) mlo mhi v -> true_density n (Zehavi05 central Mmin M1 alpha) mlo mhi v.
Proof.
  intros n central Mmin M1 alpha mlo mhi v H C. destruct central.
  - apply (split_density0 n _ mlo (pow10 Mmin) mhi v); auto.
    + intros m Hm. unfold total_occupation, satellite_occupation, nc, central_occupation; simpl. rewrite zco_below by lra. unfold one. lra.
    + intros m Hm. unfold total_occupation, tot_int, satellite_occupation, nc, central_occupation, cen_int; simpl. rewrite zco_above by lra. reflexivity.
  - exact C.
Qed.
Theorem c59_tinker05 : forall n central Mmin M1 Mcut mlo mhi v, mlo <= pow10 Mmin <= mhi ->
  code_density n (Tinker05 central Mmin M1 Mcut) mlo mhi v -> true_density n (Tinker05 central Mmin M1 Mcut) mlo mhi v.
Proof.
  intros n central Mmin M1 Mcut mlo mhi v H C.
  assert (K : cut (Tinker05 central Mmin M1 Mcut) = true) by (destruct central; reflexivity).
  unfold code_density, tracer_mmin in C. rewrite K in C.
  apply (split_density0 n _ mlo (pow10 Mmin) mhi v); auto.
  - intros m Hm. unfold total_occupation, satellite_occupation, central_occupation, h_central; simpl. rewrite andb_false_r. unfold tinker_so. rewrite zco_below by lra. lra.
  - intros m Hm. unfold total_occupation, tot_int, cen_int. rewrite K. unfold central_occupation; simpl. rewrite zco_above by lra. reflexivity.
Qed.
Lemma wm_below : forall Mmin Mmax m, m < pow10 Mmin -> withmax_co Mmin Mmax m = 0.
Proof. intros. unfold withmax_co. now rewrite (proj2 (Rleb_false _ _) H). Qed.
Lemma wm_in : forall Mmin Mmax m, pow10 Mmin <= m <= pow10 Mmax -> withmax_co Mmin Mmax m = 1.
Proof. intros Mmin Mmax m [H1 H2]. unfold withmax_co. now rewrite (proj2 (Rleb_spec _ _) H1), (proj2 (Rleb_spec _ _) H2). Qed.
Lemma wm_above : forall Mmin Mmax m, pow10 Mmax < m -> withmax_co Mmin Mmax m = 0.
Proof. intros. unfold withmax_co. now rewrite (proj2 (Rleb_false _ _) H), andb_false_r. Qed.
(** finding: with a maximum mass the centrals above it are still counted *)
Theorem c59_with_max_overcounts : forall n Mmin M1 alpha Mmax mlo mhi v N, mlo <= pow10 Mmin -> pow10 Mmin <= pow10 Mmax -> pow10 Mmax <= mhi ->
  code_density n (Zehavi05WithMax true Mmin M1 alpha Mmax) mlo mhi v -> is_RInt n (pow10 Mmax) mhi N ->
  true_density n (Zehavi05WithMax true Mmin M1 alpha Mmax) mlo mhi (v - N).
Proof.
  intros n Mmin M1 alpha Mmax mlo mhi v N H1 H2 H3 C HN.
  apply (split_density n _ (fun m => if Rle_dec m (pow10 Mmax) then 0 else n m) mlo (pow10 Mmin) mhi v N); auto; [lra| | |].
  - intros m Hm. unfold total_occupation, satellite_occupation, nc, central_occupation; simpl. rewrite wm_below by lra. unfold one. lra.
  - intros m Hm. unfold total_occupation, tot_int, cen_int, satellite_occupation, nc, central_occupation; simpl. destruct (Rle_dec m (pow10 Mmax)); [rewrite wm_in by lra|rewrite wm_above by lra]; unfold one; lra.
  - replace N with (0 + N) by ring. apply chasles with (pow10 Mmax).
    + apply rint_zero; [lra|]. intros m Hm. destruct (Rle_dec m (pow10 Mmax)); lra.
    + apply (rext _ n); auto. intros m Hm. destruct (Rle_dec m (pow10 Mmax)); lra.
Qed.
(** finding: for a marked HOD the centrals are counted with weight 1 instead of A = 10**logA *)
Theorem c59_marked_ignores_amplitude : forall n Mmin M1 logA alpha Mmax mlo mhi v N, mlo <= pow10 Mmin <= mhi -> mhi <= pow10 Mmax ->
  code_density n (Zehavi05Marked true Mmin M1 logA alpha Mmax) mlo mhi v -> is_RInt n (pow10 Mmin) mhi N ->
  true_density n (Zehavi05Marked true Mmin M1 logA alpha Mmax) mlo mhi (v - (1 - pow10 logA) * N).
Proof.
  intros n Mmin M1 logA alpha Mmax mlo mhi v N H1 H2 C HN.
  apply (split_density n _ (fun m => (1 - pow10 logA) * n m) mlo (pow10 Mmin) mhi v ((1 - pow10 logA) * N)); auto.
  - intros m Hm. unfold total_occupation, satellite_occupation, nc, central_occupation; simpl. rewrite wm_below by lra. unfold Rdiv. lra.
  - intros m Hm. unfold total_occupation, tot_int, cen_int, satellite_occupation, nc, central_occupation; simpl. rewrite wm_in by lra. unfold marked_tpc. ring.
  - now apply rscal.
Qed.
Example c59_nonvacuous : code_density (fun _ => 1) (Tinker05 false 1 2 3) 5 10 0.
Proof. unfold code_density, tracer_mmin. simpl. replace (Rpower 10 1) with 10 by (rewrite Rpower_1; lra). apply @is_RInt_point. Qed.

(** ** C60: the lower limit of the 1-halo integrals *)
Theorem c60_limit : forall h mm k, 0 < k -> 0 < d_rho0 h -> 0 < d_delta h ->
  (d_turnover h = false -> mmin_1h h mm k = mm) /\
  (d_turnover h = true -> exists M, sphere_radius (d_delta h * d_rho0 h) M (PI / (10 * k)) /\ mmin_1h h mm k = Rmax mm M) /\
  mm <= mmin_1h h mm k /\ (forall k', 0 < k <= k' -> mmin_1h h mm k' <= mmin_1h h mm k).
Proof.
  intros h mm k Hk Hr Hd. assert (P := PI_RGT_0). unfold mmin_1h. repeat split.
  - intros ->. reflexivity.
  - intros ->. exists (4 * PI * d_rho0 h * d_delta h / 3 * (PI / k / 10) ^ 3). split; auto. split; [apply Rdiv_lt_0_compat; lra|]. field. lra.
  - destruct (d_turnover h); [apply Rmax_l|lra].
  - intros k' [_ H]. destruct (d_turnover h); [|lra]. apply Rle_max_compat_l. apply Rmult_le_compat_l; [|apply pow_incr; split].
    + assert (0 < PI * d_rho0 h * d_delta h) by (apply Rmult_lt_0_compat; auto; apply Rmult_lt_0_compat; auto). lra.
    + left. apply Rdiv_lt_0_compat; [apply Rdiv_lt_0_compat; lra|lra].
    + unfold Rdiv. apply Rmult_le_compat_r; [lra|]. apply Rmult_le_compat_l; [lra|]. apply Rinv_le_contravar; lra.
Qed.
(** finding: the tracer terms pass the HOD's minimum mass in log10 units.  It is below the first grid mass,
    so (the spline being zero outside its knots) it has no effect: the integrals are those with the first
    grid mass as limit, whatever the HOD's minimum mass *)
Lemma limit_irrelevant : forall I h f v k, q_zero_outside I -> grid (d_nm h) (d_m h) -> 0 < v <= d_m h 0%nat ->
  mint I h f (Some (mmin_1h h v k)) = mint I h f (Some (mmin_1h h (d_m h 0%nat) k)).
Proof.
  intros I h f v k Z G H. rewrite !mint_eq by auto. unfold lo_lim. unfold mmin_1h. set (X := 4 * PI * d_rho0 h * d_delta h / 3 * (PI / k / 10) ^ 3).
  assert (A : forall u, 0 < u <= d_m h 0%nat -> ln u <= ln (d_m h 0%nat)) by (intros u [H1 [H2|H2]]; [left; now apply ln_increasing|subst; lra]).
  destruct (grid_ln _ _ G) as [L _].
  assert (F : forall u, 0 < u <= d_m h 0%nat -> I (arr (d_nm h) (fun i => ln (d_m h i))) (arr (d_nm h) (fun i => d_m h i * f i)) (ln u) (hi_lim h) = I (arr (d_nm h) (fun i => ln (d_m h i))) (arr (d_nm h) (fun i => d_m h i * f i)) (ln (d_m h 0%nat)) (hi_lim h)).
  { intros u Hu. destruct (Z (arr (d_nm h) (fun i => ln (d_m h i))) (arr (d_nm h) (fun i => d_m h i * f i)) (hi_lim h)) as [Z1 _]. rewrite <- L. apply Z1. change (ln u <= lmin (tab (d_nm h) (fun i => ln (d_m h i)))). rewrite L. now apply A. }
  destruct (d_turnover h); [|now apply F].
  destruct (Rle_dec (d_m h 0%nat) X).
  - rewrite !Rmax_right by lra. reflexivity.
  - rewrite (Rmax_left (d_m h 0%nat) X) by lra. apply F. split; [eapply Rlt_le_trans; [|apply Rmax_l]; lra|]. apply Rmax_lub; lra.
Qed.
Theorem c60_hod_minimum_mass_never_used : forall I h t ik, q_zero_outside I -> grid (d_nm h) (d_m h) -> 0 < h_mmin (t_hod t) <= d_m h 0%nat ->
  p1h_ss I h t ik = mint I h (fun im => t_ukm t ik im ^ 2 * d_dndm h im * ss_pairs (t_hod t) (d_m h im)) (Some (mmin_1h h (d_m h 0%nat) (d_k h ik))) / mean_tracer_den I h t ^ 2 /\
  p1h_cs I h t ik = mint I h (fun im => d_dndm h im * 2 * cs_pairs (t_hod t) (d_m h im) * t_ukm t ik im) (Some (mmin_1h h (d_m h 0%nat) (d_k h ik))) / mean_tracer_den I h t ^ 2.
Proof. intros I h t ik Z G H. unfold p1h_ss, p1h_cs, do_1halo. split; rewrite (limit_irrelevant I h _ (h_mmin (t_hod t))) by auto; reflexivity. Qed.
(** and without the turnover every such integral warns about extrapolation *)
Theorem c60_spurious_warning : forall I h t f, grid (d_nm h) (d_m h) -> d_turnover h = false -> 0 < h_mmin (t_hod t) < d_m h 0%nat ->
  forall k, warn_lower (spline_integral I (tab (d_nm h) (d_m h)) (tab (d_nm h) f) (Some (mmin_1h h (h_mmin (t_hod t)) k)) None true) = true.
Proof.
  intros I h t f G T H k. unfold mmin_1h. rewrite T. simpl. rewrite tab_lmin by auto.
  replace (Reqb (h_mmin (t_hod t)) 0) with false by (symmetry; apply Reqb_false; lra). simpl. apply Rltb_spec. lra.
Qed.
(** the turnover can only remove power, and removes all of it where the sphere of radius pi/(10k) outweighs the largest halo *)
Theorem c60_turnover_reduces : forall I h integ md ik k, q_additive I -> q_positive I -> grid (d_nm h) (d_m h) -> md <> 0 ->
  (forall i, (i < d_nm h)%nat -> 0 <= integ ik i) -> k = d_k h ik -> mmin_1h h (d_m h 0%nat) k <= d_m h (d_nm h - 1)%nat ->
  do_1halo I h (d_m h 0%nat) integ md ik <= mint I h (integ ik) (Some (d_m h 0%nat)) / md ^ 2.
Proof.
  intros I h integ md ik k A P G M F -> H. unfold do_1halo. set (x := mmin_1h h (d_m h 0%nat) (d_k h ik)) in *.
  assert (X : d_m h 0%nat <= x). { unfold x, mmin_1h. destruct (d_turnover h); [apply Rmax_l|lra]. } assert (P0 : 0 < d_m h 0%nat) by (apply G; apply G).
  unfold Rdiv. apply Rmult_le_compat_r; [left; apply Rinv_0_lt_compat; apply pow2_gt_0; auto|].
  rewrite !mint_eq by auto. unfold lo_lim. rewrite <- (A _ _ (ln (d_m h 0%nat)) (ln x) (hi_lim h)).
  assert (0 <= I (arr (d_nm h) (fun i => ln (d_m h i))) (arr (d_nm h) (fun i => d_m h i * integ ik i)) (ln (d_m h 0%nat)) (ln x)); [|lra].
  apply P; [destruct X as [X|X]; [left; now apply ln_increasing|rewrite X; lra]|]. intros i Hi. apply Rmult_le_pos; [left; now apply G|auto].
Qed.
Theorem c60_turnover_kills_large_scales : forall I h mm integ md ik M, q_zero_outside I -> grid (d_nm h) (d_m h) -> d_turnover h = true -> 0 < d_k h ik ->
  sphere_radius (d_delta h * d_rho0 h) M (PI / (10 * d_k h ik)) -> d_m h (d_nm h - 1)%nat <= M -> do_1halo I h mm integ md ik = 0.
Proof.
  intros I h mm integ md ik M Z G T Hk [_ EM] H. unfold do_1halo. rewrite mint_eq by auto. unfold lo_lim.
  set (x := mmin_1h h mm (d_k h ik)). assert (N : (0 < d_nm h)%nat) by apply G.
  assert (PM : 0 < d_m h (d_nm h - 1)%nat) by (apply G; lia).
  assert (X : d_m h (d_nm h - 1)%nat <= x). { unfold x, mmin_1h. rewrite T. eapply Rle_trans; [|apply Rmax_r]. eapply Rle_trans; [exact H|]. right. rewrite <- EM. field. lra. }
  destruct (Z (arr (d_nm h) (fun i => ln (d_m h i))) (arr (d_nm h) (fun i => d_m h i * integ ik i)) (hi_lim h)) as [_ Z2].
  destruct (grid_ln _ _ G) as [_ L]. change arr with tab in *. rewrite L in Z2. rewrite Z2; [unfold Rdiv; ring| |unfold hi_lim; lra].
  destruct X as [X|X]; [left; now apply ln_increasing|rewrite X; lra].
Qed.
Example c60_nonvacuous : 0 < h_mmin (t_hod t0) <= d_m h0 0%nat.
Proof. simpl. lra. Qed.

(** ** C61: the 2-halo matter power *)
(** integrand per ln m of the large-scale matter bias *)
Definition bias_integrand (h : dmhm) (u : nat -> R) (i : nat) : R := d_dndm h i * d_m h i ^ 2 * d_bias h i * u i.
Lemma simpson_scal : forall n dx f c, scipy_simpson n dx (fun i => c * f i) = c * scipy_simpson n dx f.
Proof.
  intros. unfold scipy_simpson, sum_over. assert (E : forall l, lsum (map (fun i => scipy_simpson_weight n i * (c * f i)) l) = c * lsum (map (fun i => scipy_simpson_weight n i * f i) l)).
  { unfold lsum. induction l; simpl; [ring|]. rewrite IHl. ring. } rewrite E. ring.
Qed.
Lemma sum_ext : forall l (f g : nat -> R), (forall i, In i l -> f i = g i) -> sum_over l f = sum_over l g.
Proof. intros. unfold sum_over. f_equal. now apply map_ext_in. Qed.
Lemma simpson_ext : forall n dx f g, (forall i, (i < n)%nat -> f i = g i) -> scipy_simpson n dx f = scipy_simpson n dx g.
Proof. intros. unfold scipy_simpson. f_equal. apply sum_ext. intros i Hi. apply in_seq in Hi. rewrite H by lia. reflexivity. Qed.
Definition large_scale_quadrature (I : quadrature) (h : dmhm) (f : nat -> R) : R :=
  I (arr (d_nm h) (fun i => ln (d_m h i))) (arr (d_nm h) f) (ln (d_m h 0%nat)) (ln (d_m h (d_nm h - 1)%nat)).
Lemma noexcl_node : forall I spline uspline hk h e integ dmod eff deb P i, d_noexcl h = true -> d_sd h = None -> interpolates (spline 3%nat) -> grid (d_nk h) (d_k h) -> (i < d_nk h)%nat ->
  power_2h_auto I spline uspline hk h e integ dmod eff deb = Ok P -> P (d_k h i) = factor_2h I h e integ dmod eff deb 0 i * d_phc h (d_k h i).
Proof.
  intros I spline uspline hk h e integ dmod eff deb P i N S HI G Hi H. unfold power_2h_auto in H. rewrite N, S in H. simpl in H. unfold prim_2h in H.
  exact (efun_node _ _ _ _ _ _ _ _ _ _ HI G Hi H).
Qed.
(** with unit bias forced: the code divides Simpson's rule by the spline integral of the same integrand (u = 1);
    the normalisation of mass function, bias and density in haloes drops out *)
Theorem c61_exact : forall I spline uspline hk h P i, d_noexcl h = true -> d_sd h = None -> d_unity h = true -> q_linear I ->
  interpolates (spline 3%nat) -> grid (d_nk h) (d_k h) -> grid (d_nm h) (d_m h) -> (i < d_nk h)%nat -> d_rhoh h <> 0 ->
  power_2h_matter_noexcl I spline uspline hk h = Ok P ->
  let dx := ln (d_m h 1%nat / d_m h 0%nat) in
  P (d_k h i) = d_phc h (d_k h i) * (scipy_simpson (d_nm h) dx (bias_integrand h (d_ukm h i)) / large_scale_quadrature I h (bias_integrand h (fun _ => 1))) ^ 2.
Proof.
  intros I spline uspline hk h P i N S U L HI GK GM Hi Hr H dx. unfold power_2h_matter_noexcl in H. cbv zeta in H.
  rewrite (noexcl_node _ _ _ _ _ _ _ _ _ _ _ _ N S HI GK Hi H). rewrite Rmult_comm. f_equal. unfold factor_2h, bias_effective_matter. rewrite U.
  unfold noexcl_integrate, matter_exclusion, the_bias. rewrite S. simpl e_bias. cbv beta iota. unfold spline_integrate, e_xmin. simpl.
  unfold e_dlnx. simpl. fold dx.
  rewrite (simpson_ext _ _ _ (fun im => / d_rhoh h * bias_integrand h (d_ukm h i) im)) by (intros; unfold bias_integrand; field; auto). rewrite simpson_scal.
  unfold excl_eff_bias. simpl. rewrite xtf, tab_map, tab_lmin, tab_lmax by auto.
  replace (I (tab (d_nm h) (fun i0 => ln (d_m h i0))) (tab (d_nm h) (fun i0 => d_m h i0 * (d_dndm h i0 * d_m h i0 / d_rhoh h * d_bias h i0))) (ln (d_m h 0%nat)) (ln (d_m h (d_nm h - 1)%nat)))
    with (/ d_rhoh h * large_scale_quadrature I h (bias_integrand h (fun _ => 1))).
  2: { assert (Q := mint_scal I h (fun im => d_dndm h im * d_m h im * d_bias h im) (/ d_rhoh h) None L GM). rewrite !mint_eq in Q by auto. unfold lo_lim, hi_lim in Q. unfold large_scale_quadrature.
       rewrite (arr_ext _ (bias_integrand h (fun _ => 1)) (fun i0 => d_m h i0 * (d_dndm h i0 * d_m h i0 * d_bias h i0))) by (intros; unfold bias_integrand; ring). rewrite <- Q. f_equal. apply arr_ext. intros. field. auto. }
  set (A := scipy_simpson _ _ _). set (B := large_scale_quadrature _ _ _).
  destruct (Req_dec B 0) as [E|E]; [|field; auto]. rewrite E. unfold Rdiv. rewrite !Rmult_0_r, Rinv_0. ring.
Qed.
(** so where the profile is 1 the power is the halo-centre power, whenever the two quadratures agree on the bias integrand *)
Theorem c61_unit_large_scale_bias : forall I spline uspline hk h P i, d_noexcl h = true -> d_sd h = None -> d_unity h = true -> q_linear I ->
  interpolates (spline 3%nat) -> grid (d_nk h) (d_k h) -> grid (d_nm h) (d_m h) -> (i < d_nk h)%nat -> d_rhoh h <> 0 ->
  power_2h_matter_noexcl I spline uspline hk h = Ok P -> (forall im, (im < d_nm h)%nat -> d_ukm h i im = 1) ->
  large_scale_quadrature I h (bias_integrand h (fun _ => 1)) <> 0 ->
  scipy_simpson (d_nm h) (ln (d_m h 1%nat / d_m h 0%nat)) (bias_integrand h (fun _ => 1)) = large_scale_quadrature I h (bias_integrand h (fun _ => 1)) ->
  P (d_k h i) = d_phc h (d_k h i).
Proof.
  intros I spline uspline hk h P i N S U L HI GK GM Hi Hr H U1 Q E. rewrite (c61_exact I spline uspline hk h P i) by auto.
  rewrite (simpson_ext _ _ _ (bias_integrand h (fun _ => 1))) by (intros; unfold bias_integrand; rewrite U1 by auto; reflexivity). rewrite E. field. auto.
Qed.
(** finding: it is not exactly so in general - the ratio of the two quadrature rules remains, squared *)
Theorem c61_exactly_unit_refuted : forall I spline uspline hk h P i, d_noexcl h = true -> d_sd h = None -> d_unity h = true -> q_linear I ->
  interpolates (spline 3%nat) -> grid (d_nk h) (d_k h) -> grid (d_nm h) (d_m h) -> (i < d_nk h)%nat -> d_rhoh h <> 0 ->
  power_2h_matter_noexcl I spline uspline hk h = Ok P -> (forall im, (im < d_nm h)%nat -> d_ukm h i im = 1) -> d_phc h (d_k h i) <> 0 ->
  let Q := large_scale_quadrature I h (bias_integrand h (fun _ => 1)) in let S := scipy_simpson (d_nm h) (ln (d_m h 1%nat / d_m h 0%nat)) (bias_integrand h (fun _ => 1)) in
  Q <> 0 -> (P (d_k h i) = d_phc h (d_k h i) <-> S = Q \/ S = - Q).
Proof.
  intros I spline uspline hk h P i N Sd U L HI GK GM Hi Hr H U1 Hp Q S HQ.
  rewrite (c61_exact I spline uspline hk h P i) by auto.
  rewrite (simpson_ext _ _ _ (bias_integrand h (fun _ => 1))) by (intros; unfold bias_integrand; rewrite U1 by auto; reflexivity). fold Q S. clearbody Q S. split; intros E.
  - assert (X : (S / Q) ^ 2 = 1) by (apply Rmult_eq_reg_l with (d_phc h (d_k h i)); auto; lra).
    assert (Y : S = S / Q * Q) by (field; auto). assert (W : S / Q = 1 \/ S / Q = -1). { assert (Z : (S / Q - 1) * (S / Q + 1) = 0) by (simpl in X; lra). apply Rmult_integral in Z. destruct Z; [left|right]; lra. }
    destruct W as [W|W]; rewrite W in Y; [left|right]; lra.
  - destruct E as [->| ->]; field; auto.
Qed.
Theorem c61_unforced : forall I spline uspline hk h P i, d_noexcl h = true -> d_sd h = None -> d_unity h = false ->
  interpolates (spline 3%nat) -> grid (d_nk h) (d_k h) -> grid (d_nm h) (d_m h) -> (i < d_nk h)%nat -> d_rhoh h <> 0 ->
  power_2h_matter_noexcl I spline uspline hk h = Ok P ->
  P (d_k h i) = d_phc h (d_k h i) * (scipy_simpson (d_nm h) (ln (d_m h 1%nat / d_m h 0%nat)) (bias_integrand h (d_ukm h i)) / d_rhoh h) ^ 2.
Proof.
  intros I spline uspline hk h P i N S U HI GK GM Hi Hr H. unfold power_2h_matter_noexcl in H. cbv zeta in H.
  rewrite (noexcl_node _ _ _ _ _ _ _ _ _ _ _ _ N S HI GK Hi H). rewrite Rmult_comm. f_equal. unfold factor_2h. rewrite U.
  unfold noexcl_integrate, matter_exclusion, the_bias. rewrite S. simpl e_bias. cbv beta iota. unfold spline_integrate, e_xmin, e_dlnx. simpl.
  rewrite (simpson_ext _ _ _ (fun im => / d_rhoh h * bias_integrand h (d_ukm h i) im)) by (intros; unfold bias_integrand; field; auto). rewrite simpson_scal. field. auto.
Qed.
(** multiplying the mass function by a or the bias by b changes nothing when unit bias is forced *)
Definition rescaled (a b : R) (h : dmhm) : dmhm :=
  mkDM (d_nm h) (d_m h) (fun i => a * d_dndm h i) (fun i => b * d_bias h i) (d_dlog10m h) (d_nk h) (d_k h) (d_khm h) (d_power h) (d_phc h) (d_plin h) (d_hc h) (d_nr h) (d_r h)
    (d_ukm h) (d_lam h) (d_rho0 h) (d_rhoh h) (d_delta h) (d_turnover h) (d_unity h) (d_noexcl h) (d_sd h).
Theorem c61_normalisation_drops_out : forall I spline uspline hk h a b P P' i, a <> 0 -> b <> 0 -> d_noexcl h = true -> d_sd h = None -> d_unity h = true -> q_linear I ->
  interpolates (spline 3%nat) -> grid (d_nk h) (d_k h) -> grid (d_nm h) (d_m h) -> (i < d_nk h)%nat -> d_rhoh h <> 0 ->
  large_scale_quadrature I h (bias_integrand h (fun _ => 1)) <> 0 ->
  power_2h_matter_noexcl I spline uspline hk h = Ok P -> power_2h_matter_noexcl I spline uspline hk (rescaled a b h) = Ok P' -> P' (d_k h i) = P (d_k h i).
Proof.
  intros I spline uspline hk h a b P P' i Ha Hb N S U L HI GK GM Hi Hr HQ H H'. rewrite (c61_exact I spline uspline hk h P i) by auto.
  assert (E := c61_exact I spline uspline hk (rescaled a b h) P' i). simpl d_k in E. simpl d_nk in E. simpl d_nm in E. simpl d_m in E. simpl d_ukm in E. simpl d_phc in E. rewrite E by auto. f_equal.
  rewrite (simpson_ext _ _ _ (fun im => (a * b) * bias_integrand h (d_ukm h i) im)) by (intros; unfold bias_integrand; simpl; ring). rewrite simpson_scal.
  replace (large_scale_quadrature I (rescaled a b h) (bias_integrand (rescaled a b h) (fun _ => 1))) with ((a * b) * large_scale_quadrature I h (bias_integrand h (fun _ => 1))).
  - set (A := scipy_simpson _ _ _) in *. set (B := large_scale_quadrature _ _ _) in *. clearbody A B. replace (a * b * A / (a * b * B)) with (A / B) by (field; auto). reflexivity.
  - unfold large_scale_quadrature. simpl. assert (Q := mint_scal I h (fun im => d_dndm h im * d_m h im * d_bias h im) (a * b) None L GM). rewrite !mint_eq in Q by auto. unfold lo_lim, hi_lim in Q.
    rewrite (arr_ext _ (bias_integrand h (fun _ => 1)) (fun i0 => d_m h i0 * (d_dndm h i0 * d_m h i0 * d_bias h i0))) by (intros; unfold bias_integrand; ring). rewrite <- Q. f_equal. apply arr_ext. intros. unfold bias_integrand; simpl. ring.
Qed.

(** ** C62: large scales in the path through the correlation function *)
Definition through_corr (h : dmhm) : Prop := d_noexcl h = false \/ d_sd h <> None.
Lemma through_false : forall h, through_corr h -> d_noexcl h && match d_sd h with None => true | Some _ => false end = false.
Proof. intros h [H|H]; [rewrite H; reflexivity|]. destruct (d_sd h); [apply andb_false_r|congruence]. Qed.
Lemma mask_any : forall l, existsb (fun b => b) (map (fun k => Rltb k (1 / 100)) l) = true <-> exists k, In k l /\ k < 1 / 100.
Proof.
  intros. rewrite existsb_exists. split.
  - intros [b [H ->]]. apply in_map_iff in H. destruct H as [k [E H]]. exists k. split; auto. now apply Rltb_spec.
  - intros [k [H1 H2]]. exists true. split; auto. apply in_map_iff. exists k. split; auto. now apply Rltb_spec.
Qed.
(** finding: it fails exactly when some output wavenumber k_hm is below 0.01 and k_hm and k differ in length *)
Theorem c62_fails_iff : forall I spline uspline hk h e integ dmod eff deb xi, through_corr h -> corr_2h_auto I spline uspline hk h e integ dmod eff deb = Ok xi ->
  (power_2h_auto I spline uspline hk h e integ dmod eff deb = Raise IndexError <-> (exists k, In k (d_khm h) /\ k < 1 / 100) /\ length (d_khm h) <> d_nk h).
Proof.
  intros I spline uspline hk h e integ dmod eff deb xi T C. unfold power_2h_auto. rewrite (through_false h T), C. simpl. unfold overwrite_lowk. rewrite map_length.
  rewrite <- mask_any. destruct (existsb _ _) eqn:E.
  - destruct (Nat.eqb_spec (length (d_khm h)) (d_nk h)) as [L|L]; simpl.
    + split; [|intros [_ K]; contradiction]. intros K. exfalso. revert K. unfold efun. destruct (ext_spline_init _ _ _ _ _ _ _ _ _ _ _ _ _); discriminate.
    + split; auto.
  - simpl. split; [|intros [K _]; discriminate]. intros K. exfalso. revert K. unfold efun. destruct (ext_spline_init _ _ _ _ _ _ _ _ _ _ _ _ _); discriminate.
Qed.
(** otherwise the i-th value is overwritten according to the i-th k_hm (whatever the i-th k) with bias * P, not bias^2 * P *)
Theorem c62_overwritten : forall I spline uspline hk h e integ dmod eff deb P i, through_corr h -> interpolates (spline 3%nat) -> grid (d_nk h) (d_k h) -> (i < d_nk h)%nat ->
  power_2h_auto I spline uspline hk h e integ dmod eff deb = Ok P -> length (d_khm h) = d_nk h -> nth i (d_khm h) 0 < 1 / 100 ->
  P (d_k h i) = d_power h i * eff /\ (P (d_k h i) = eff ^ 2 * d_power h i <-> eff = 0 \/ eff = 1 \/ d_power h i = 0).
Proof.
  intros I spline uspline hk h e integ dmod eff deb P i T HI G Hi H L K.
  assert (E : P (d_k h i) = d_power h i * eff).
  { unfold power_2h_auto in H. rewrite (through_false h T) in H. destruct (corr_2h_auto _ _ _ _ _ _ _ _ _ _) as [xi|]; [|discriminate]. simpl in H. unfold overwrite_lowk in H.
    assert (X : existsb (fun b : bool => b) (map (fun k => Rltb k (1 / 100)) (d_khm h)) = true) by (apply mask_any; exists (nth i (d_khm h) 0); split; auto; apply nth_In; lia).
    rewrite X, map_length, L, Nat.eqb_refl in H. simpl in H. rewrite (efun_node _ _ _ _ _ _ _ _ _ _ HI G Hi H).
    set (f := fun k => Rltb k (1 / 100)). replace (nth i (map f (d_khm h)) false) with true; auto. rewrite (nth_indep _ false (f 0)) by (rewrite map_length; lia). rewrite map_nth. symmetry. now apply Rltb_spec. }
  split; auto. rewrite E. split; intros Q.
  - assert (Z : eff * (1 - eff) * d_power h i = 0) by lra. apply Rmult_integral in Z. destruct Z as [Z|Z]; auto. apply Rmult_integral in Z. destruct Z; [auto|right; left; lra].
  - destruct Q as [->|[->| ->]]; ring.
Qed.
(** if no k_hm is below 0.01 (the default k_hm starts there) nothing is overwritten *)
Theorem c62_default_untouched : forall I spline uspline hk h e integ dmod eff deb P xi i, through_corr h -> interpolates (spline 3%nat) -> grid (d_nk h) (d_k h) -> (i < d_nk h)%nat ->
  corr_2h_auto I spline uspline hk h e integ dmod eff deb = Ok xi -> power_2h_auto I spline uspline hk h e integ dmod eff deb = Ok P -> (forall k, In k (d_khm h) -> 1 / 100 <= k) ->
  P (d_k h i) = hk ToK xi (d_k h i).
Proof.
  intros I spline uspline hk h e integ dmod eff deb P xi i T HI G Hi C H K. unfold power_2h_auto in H. rewrite (through_false h T), C in H. simpl in H. unfold overwrite_lowk in H.
  assert (X : existsb (fun b : bool => b) (map (fun k => Rltb k (1 / 100)) (d_khm h)) = false). { apply not_true_iff_false. rewrite mask_any. intros [k [H1 H2]]. specialize (K k H1). lra. }
  rewrite X in H. simpl in H. exact (efun_node _ _ _ _ _ _ _ _ _ _ HI G Hi H).
Qed.
Example c62_nonvacuous : through_corr (mkDM 3 (d_m h0) (d_dndm h0) (d_bias h0) 1 1 (fun _ => 1) [1/1000; 1] (fun _ => 1) (fun _ => 1) (fun _ => 1) Linear 1 (fun _ => 1) (fun _ _ => 1) None 1 1 200 true true false None)
  /\ (exists k, In k [1/1000; 1] /\ k < 1 / 100) /\ length [1/1000; 1] <> 1%nat.
Proof. split; [left; reflexivity|]. split; [exists (1/1000); split; [simpl; auto|lra]|simpl; lia]. Qed.

Print Assumptions c57_fractions_between_0_and_1.
Print Assumptions c58_mass_is_an_average.
Print Assumptions c59_with_max_overcounts.
Print Assumptions c60_turnover_kills_large_scales.
Print Assumptions c61_exactly_unit_refuted.
Print Assumptions c62_overwritten.
