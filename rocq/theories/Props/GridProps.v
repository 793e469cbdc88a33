(** C101-C106: grids, parameter checks, and the selection function of the angular correlation. *)
From Coq Require Import Reals List Bool Arith ZArith Lia Lra.
From Verif Require Import Model.RBool Model.Quad Model.ExtSpline Model.Exclusion Model.Profiles Model.SimpsonX Model.IntegrateCorr Model.HaloModel Model.Grids.
From Verif Require Import Spec.HMSpec Proofs.SimpsonXProofs Proofs.IntegrateProofs Proofs.ExtSplineProofs Proofs.HMProofs Proofs.GridProofs.
From Verif Require Import Props.HaloModelProps Props.HaloModelProps2 Props.IntegrateProps Props.FindMminProps Props.HMTotalProps.
Import ListNotations.
Local Open Scope R_scope.

(** ** C101: the wavenumber, radius and table grids *)
(** the half-open arithmetic progression: exactly the points a + i d that lie before b *)
Theorem c101_arange_points : forall a b d l, arange a b d = Ok l ->
  (0 < d -> forall x, In x l <-> exists i, x = a + INR i * d /\ x < b) /\ (d < 0 -> forall x, In x l <-> exists i, x = a + INR i * d /\ b < x).
Proof.
  intros a b d l H. unfold arange in H. destruct (Reqb d 0) eqn:Z; [discriminate|]. injection H as <-. split; intros D x; rewrite in_map_iff; split.
  - intros [i [<- Hi]]. apply in_seq in Hi. destruct Hi as [_ Hi]. simpl in Hi. apply (proj1 (lt_rceil _ _)) in Hi. exists i. split; auto. apply (proj1 (div_lt_iff _ _ _ D)) in Hi. lra.
  - intros [i [-> Hi]]. exists i. split; auto. apply in_seq. split; [lia|]. simpl. apply lt_rceil. apply div_lt_iff; auto. lra.
  - intros [i [<- Hi]]. apply in_seq in Hi. destruct Hi as [_ Hi]. simpl in Hi. apply (proj1 (lt_rceil _ _)) in Hi. exists i. split; auto.
    replace ((b - a) / d) with ((a - b) / - d) in Hi by (field; lra). apply div_lt_iff in Hi; lra.
  - intros [i [-> Hi]]. exists i. split; auto. apply in_seq. split; [lia|]. simpl. apply lt_rceil. replace ((b - a) / d) with ((a - b) / - d) by (field; lra). apply div_lt_iff; lra.
Qed.
Lemma khm_points : forall a b d l, 0 < d -> rmap (map (Rpower 10)) (arange a b d) = Ok l ->
  (forall k, In k l <-> exists i, k = Rpower 10 (a + INR i * d) /\ k < Rpower 10 b) /\ incr l.
Proof.
  intros a b d l D H. destruct (arange a b d) as [u|e] eqn:E; [|discriminate]. simpl in H. injection H as <-. destruct (c101_arange_points a b d u E) as [P _]. specialize (P D). split.
  - intros k. rewrite in_map_iff. split.
    + intros [x [<- Hx]]. apply P in Hx. destruct Hx as [i [-> Hx]]. exists i. split; auto. now apply pow10_lt.
    + intros [i [-> Hx]]. exists (a + INR i * d). split; auto. apply P. exists i. split; auto. now apply pow10_lt.
  - rewrite arange_pos in E by auto. injection E as <-. rewrite map_map. apply incr_seq. intros i _ _. apply pow10_lt. rewrite S_INR. lra.
Qed.
(** the wavenumbers of the halo-model spectra: every power of ten from the lower end in steps of hm_dlog10k, in
    increasing order; the upper end itself is never one of them *)
Theorem c101_wavenumbers : forall kmin kmax d l, 0 < d -> k_hm kmin kmax d = Ok l ->
  (forall k, In k l <-> exists i, k = Rpower 10 (kmin + INR i * d) /\ k < Rpower 10 kmax) /\ incr l /\ ~ In (Rpower 10 kmax) l /\ (l <> [] <-> kmin < kmax).
Proof.
  intros kmin kmax d l D H. destruct (khm_points _ _ _ _ D H) as [P I]. repeat split; auto; try apply P.
  - intros K. apply P in K. destruct K as [i [_ K]]. lra.
  - intros N. destruct l as [|k l]; [congruence|]. destruct (P k) as [Q _]. destruct (Q (or_introl eq_refl)) as [i [-> K]]. apply (proj1 (pow10_lt _ _)) in K. assert (0 <= INR i * d) by (apply Rmult_le_pos; [apply pos_INR|lra]). lra.
  - intros K. assert (Z : In (Rpower 10 kmin) l). { apply P. exists 0%nat. simpl. rewrite Rmult_0_l, Rplus_0_r. split; auto. now apply pow10_lt. } intros ->. destruct Z.
Qed.
(** the scales: rnum points from rmin to rmax inclusive, increasing, equally spaced or in constant ratio *)
Theorem c101_scales_log : forall rmin rmax n l, 0 < rmin -> rmin < rmax -> r_grid (RScal rmin) rmax n true = Ok l ->
  exists v, l = map Some v /\ length v = Z.to_nat n /\ incr v /\ (forall x, In x v -> rmin <= x <= rmax) /\
    ((1 <= n)%Z -> hd 0 v = rmin) /\ ((2 <= n)%Z -> last v 0 = rmax) /\
    (forall i, (S i < Z.to_nat n)%nat -> nth (S i) v 0 = nth i v 0 * Rpower (rmax / rmin) (1 / INR (Z.to_nat n - 1))).
Proof.
  intros rmin rmax n l P L H. cbn [r_grid] in H. assert (N := npl_len _ _ _ _ H). destruct N as [N _]. rewrite npl_pos in H by (try assumption; lra). injection H as <-.
  exists (logspace rmin rmax (Z.to_nat n)). split; auto. split; [apply logspace_len|]. split; [now apply logspace_incr|]. split; [intros x; apply logspace_range; lra|].
  split; [intros; apply logspace_hd; auto; lia|]. split; [intros; apply logspace_last; [lra|lia]|].
  intros i Hi. rewrite !logspace_nth by lia. unfold Rpower. rewrite <- exp_plus. f_equal. rewrite S_INR. replace (ln (rmax / rmin)) with (ln rmax - ln rmin) by (unfold Rdiv; rewrite ln_mult, ln_Rinv by (try apply Rinv_0_lt_compat; lra); ring).
  assert (0 < INR (Z.to_nat n - 1)) by (apply lt_0_INR; lia). field. lra.
Qed.
(** a smallest scale that is not positive: no error, but every point is nan except the last, which is rmax *)
Theorem c101_scales_nan : forall rmin rmax n l, rmin <= 0 -> (2 <= n)%Z -> r_grid (RScal rmin) rmax n true = Ok l ->
  length l = Z.to_nat n /\ (forall i, (i < Z.to_nat n - 1)%nat -> nth i l (Some 0) = None) /\ (last l None = Some rmax <-> 0 <= rmax).
Proof.
  intros rmin rmax n l P N H. cbn [r_grid] in H. unfold np_logspace in H. replace (n <? 0)%Z with false in H by (symmetry; apply Z.ltb_ge; lia). replace (Rltb 0 rmin) with false in H by (symmetry; now apply Rltb_false).
  cbn [andb] in H. injection H as <-. set (k := Z.to_nat n). assert (K : (2 <= k)%nat) by (unfold k; lia). clearbody k. split; [now rewrite map_length, seq_length|]. split.
  - intros i Hi. set (g := fun i => if (i =? k - 1)%nat && (1 <? k)%nat then last_point rmax else None).
    rewrite (nth_indep _ (Some 0) (g 0%nat)) by (rewrite map_length, seq_length; lia). rewrite (map_nth g), seq_nth by lia. unfold g. replace ((0 + i =? k - 1)%nat) with false by (symmetry; apply Nat.eqb_neq; lia). reflexivity.
  - assert (SQ : seq 0 k = seq 0 (k - 1) ++ [(k - 1)%nat]) by (replace k with (S (k - 1)) at 1 by lia; rewrite seq_S; reflexivity). rewrite SQ, map_app. simpl map at 2. rewrite last_last. rewrite Nat.eqb_refl. replace (1 <? k)%nat with true by (symmetry; apply Nat.ltb_lt; lia). cbn [andb]. unfold last_point.
    destruct (Rltb rmax 0) eqn:E; [apply Rltb_spec in E; split; [discriminate|lra]|]. apply Rltb_false in E. split; auto.
Qed.
Theorem c101_scales_linear : forall rmin rmax n l, rmin < rmax -> r_grid (RScal rmin) rmax n false = Ok l ->
  exists v, l = map Some v /\ length v = Z.to_nat n /\ incr v /\ (forall x, In x v -> rmin <= x <= rmax) /\ ((1 <= n)%Z -> hd 0 v = rmin) /\ ((2 <= n)%Z -> last v 0 = rmax).
Proof.
  intros rmin rmax n l L H. cbn [r_grid] in H. unfold np_linspace in H. destruct (n <? 0)%Z eqn:E; [discriminate|]. apply Z.ltb_ge in E. injection H as <-.
  exists (linspace rmin rmax (Z.to_nat n)). split; auto. split; [apply linspace_len|]. split; [now apply linspace_incr|]. split; [intros x; apply linspace_in; lra|].
  split; intros; [apply linspace_hd|apply linspace_last]; lia.
Qed.
(** an array for rmin is used as it is, whatever rmax, rnum and rlog are *)
Theorem c101_scales_array : forall v rmax n b rmax' n' b', r_grid (RArr v) rmax n b = Ok (map Some v) /\ r_grid (RArr v) rmax n b = r_grid (RArr v) rmax' n' b'.
Proof. intros. split; reflexivity. Qed.
Example c101_nonvacuous : exists l, k_hm (-2) 2 (5 / 100) = Ok l /\ In (Rpower 10 0) l /\ exists v, r_grid (RScal (1 / 100)) 50 20 true = Ok v.
Proof.
  destruct (arange (-2) 2 (5 / 100)) as [u|e] eqn:E; [|rewrite arange_pos in E by lra; discriminate].
  exists (map (Rpower 10) u). unfold k_hm. rewrite E. split; [reflexivity|]. split.
  - apply in_map. destruct (c101_arange_points _ _ _ _ E) as [P _]. apply P; [lra|]. exists 40%nat. split; [|lra]. rewrite INR_IZR_INZ. simpl Z.of_nat. lra.
  - cbn [r_grid]. rewrite npl_pos by (try lia; lra). eauto.
Qed.

(** ** C102: the internal table of radii and the rmax warning *)
(** the table starts at 10^-3 and never reaches the radius announced by the warning *)
Theorem c102_table_ends_early : forall d l, 0 < d -> r_table d = Ok l -> (forall r, In r l -> / 1000 <= r < Rpower 10 logr_max) /\ In (/ 1000) l /\ exists r, In r l /\ Rpower 10 (logr_max - d) <= r /\ (forall r', In r' l -> r' <= r).
Proof.
  assert (M : Rpower 10 logr_min = / 1000). { unfold logr_min. replace (-3) with (- (INR 3)) by (simpl; lra). rewrite Rpower_Ropp, Rpower_pow by lra. f_equal. simpl. lra. }
  intros d l D H. unfold r_table in H. destruct (khm_points _ _ _ _ D H) as [P _]. assert (Q : forall i, 0 <= INR i * d) by (intros; apply Rmult_le_pos; [apply pos_INR|lra]). split; [|split].
  - intros r Hr. apply P in Hr. destruct Hr as [i [-> K]]. split; auto. rewrite <- M. assert (B := Q i). destruct B as [B|B].
    + left. apply pow10_lt. lra.
    + rewrite <- B, Rplus_0_r. lra.
  - apply P. exists 0%nat. simpl. rewrite Rmult_0_l, Rplus_0_r. split; auto. rewrite <- M. apply pow10_lt. unfold logr_min, logr_max. lra.
  - set (n := Z.to_nat (rceil ((logr_max - logr_min) / d))). assert (N : (0 < n)%nat). { apply rceil_pos. unfold Rdiv. apply Rmult_lt_0_compat; [unfold logr_max, logr_min; lra|now apply Rinv_0_lt_compat]. }
    exists (Rpower 10 (logr_min + INR (n - 1) * d)). assert (L : INR (n - 1) < (logr_max - logr_min) / d) by (apply lt_rceil; fold n; lia). assert (U : ~ INR n < (logr_max - logr_min) / d) by (intros K; apply (proj2 (lt_rceil _ _)) in K; fold n in K; lia).
    apply (proj1 (div_lt_iff _ _ _ D)) in L. split; [|split].
    + apply P. exists (n - 1)%nat. split; auto. apply pow10_lt. lra.
    + assert (K : logr_max - d <= logr_min + INR (n - 1) * d). { assert (~ INR n * d < logr_max - logr_min) by (intros K; apply U; now apply div_lt_iff). replace n with (S (n - 1)) in H0 at 1 by lia. rewrite S_INR in H0. lra. }
      destruct K as [K|K]; [left; now apply pow10_lt|rewrite K; lra].
    + intros r' Hr. apply P in Hr. destruct Hr as [j [-> K]]. apply (proj1 (pow10_lt _ _)) in K. assert (J : (j <= n - 1)%nat). { enough (j < n)%nat by lia. unfold n. apply lt_rceil. apply div_lt_iff; auto. lra. }
      assert (INR j * d <= INR (n - 1) * d) by (apply Rmult_le_compat_r; [lra|now apply le_INR]). destruct (Req_dec (INR j * d) (INR (n - 1) * d)) as [->|]; [lra|]. left. apply pow10_lt. lra.
Qed.
Lemma incr_nth : forall l, incr l -> forall i j, (i < j < length l)%nat -> nth i l 0 < nth j l 0.
Proof.
  induction 1 as [|a|a b t L I IH]; intros i j H; simpl in H; try lia. destruct j as [|j]; [lia|]. destruct i as [|i].
  - simpl nth at 1. destruct j as [|j]; [exact L|]. eapply Rlt_trans; [exact L|]. apply (IH 0%nat (S j)). simpl. lia.
  - apply (IH i j). simpl. lia.
Qed.
Lemma table_grid : forall d l h, 0 < d -> r_table d = Ok l -> d_nr h = length l -> (forall i, d_r h i = nth i l 0) -> grid (d_nr h) (d_r h).
Proof.
  intros d l h D T Hn Hr. destruct (c102_table_ends_early d l D T) as [A [B _]]. unfold r_table in T. destruct (khm_points _ _ _ _ D T) as [_ I]. rewrite Hn. split; [|split].
  - destruct l; [destruct B|simpl; lia].
  - intros i Hi. rewrite Hr. apply Rlt_le_trans with (/ 1000); [lra|]. apply A. now apply nth_In.
  - intros i j Hi. rewrite !Hr. apply incr_nth; auto.
Qed.
(** finding: there are radii that no warning covers and at which the 2-halo matter correlation is exactly 0 and the total exactly 1,
    for every table spacing and every spectrum *)
Theorem c102_silent_radii : forall d l I spline uspline hk h e integ dmod eff deb xi, 0 < d -> r_table d = Ok l -> d_nr h = length l -> (forall i, d_r h i = nth i l 0) ->
  corr_matter I spline uspline hk (corr_2h_auto I spline uspline hk h e integ dmod eff deb) h = Ok xi ->
  exists r, rmax_warns r = false /\ r <= Rpower 10 logr_max /\ xi r = 1.
Proof.
  intros d l I spline uspline hk h e integ dmod eff deb xi D T Hn Hr H. assert (G := table_grid d l h D T Hn Hr). destruct (c102_table_ends_early d l D T) as [A _].
  exists (Rpower 10 logr_max). split; [|split; [lra|]].
  - unfold rmax_warns. apply Rltb_false. lra.
  - eapply c63_total_is_one_beyond_table; eauto. rewrite Hr. apply A. apply nth_In. rewrite <- Hn. destruct G. lia.
Qed.
(** finding: the warning says that larger radii have zero correlation; they have total correlation 1 *)
Theorem c102_warned_radii_are_one : forall d l I spline uspline hk h e integ dmod eff deb xi r, 0 < d -> r_table d = Ok l -> d_nr h = length l -> (forall i, d_r h i = nth i l 0) ->
  corr_matter I spline uspline hk (corr_2h_auto I spline uspline hk h e integ dmod eff deb) h = Ok xi -> rmax_warns r = true -> xi r = 1.
Proof.
  intros d l I spline uspline hk h e integ dmod eff deb xi r D T Hn Hr H W. assert (G := table_grid d l h D T Hn Hr). destruct (c102_table_ends_early d l D T) as [A _]. unfold rmax_warns in W. apply Rltb_spec in W.
  eapply c63_total_is_one_beyond_table; eauto. rewrite Hr. eapply Rlt_trans; [|exact W]. apply A. apply nth_In. rewrite <- Hn. destruct G. lia.
Qed.

(** a concrete model on the table of spacing 1 *)
Definition h_table (l : list R) : dmhm := mkDM 3 (d_m h0) (d_dndm h0) (d_bias h0) 1 4 (fun i => INR (S i)) [1] (fun _ => 1) (fun k => / k) (fun _ => 1) Linear (length l) (fun i => nth i l 0) (fun _ _ => 1) None 1 1 200 false false true None.
Example c102_nonvacuous : forall us hk e integ dmod eff, exists l xi r, r_table 1 = Ok l /\
  corr_matter step_quad (fun _ => linterp) us hk (corr_2h_auto step_quad (fun _ => linterp) us hk (h_table l) e integ dmod eff false) (h_table l) = Ok xi /\ rmax_warns r = false /\ xi r = 1.
Proof.
  intros us hk e integ dmod eff. destruct (r_table 1) as [l|x] eqn:T; [|exfalso; unfold r_table in T; rewrite arange_pos in T by lra; discriminate].
  assert (G : grid (d_nr (h_table l)) (d_r (h_table l))) by (apply (table_grid 1 l); simpl; auto; lra). assert (GK : grid (d_nk (h_table l)) (d_k (h_table l))) by (apply grid_INR; simpl; lia).
  destruct (c98_matter_total step_quad (fun _ => linterp) us hk (h_table l) GK G eq_refl eq_refl) as [_ [[P HP] [_ K]]].
  assert (X : exists x, corr_2h_auto step_quad (fun _ => linterp) us hk (h_table l) e integ dmod eff false = Ok x).
  { unfold corr_2h_auto. apply bind_total; [|intros; apply efun_total; [exact G|discriminate|discriminate]]. unfold rows. cbn [d_noexcl h_table d_sd andb seq map rseq].
    apply bind_total; [|intros; simpl; eauto]. unfold prim_2h. apply efun_total; [exact GK|discriminate|cbn; discriminate]. }
  destruct (K _ X) as [xi Hxi]. destruct (c102_silent_radii 1 l step_quad (fun _ => linterp) us hk (h_table l) e integ dmod eff false xi) as [r [R1 [_ R2]]]; auto; [lra|].
  exists l, xi, r. auto.
Qed.

(** ** C103: what validation accepts *)
Lemma bind_ok_unit : forall {A B} (x : res A) (f : A -> res B) y, bind x f = Ok y <-> exists a, x = Ok a /\ f a = Ok y.
Proof. intros A B [a|e] f y; simpl; split; intros H; eauto; [destruct H as [b [K H]]; injection K as <-; auto|discriminate|destruct H as [a [K _]]; discriminate]. Qed.
Lemma assert_ok : forall b u, py_assert b = Ok u <-> b = true.
Proof. intros b []; unfold py_assert; destruct b; split; auto; discriminate. Qed.
Lemma rgrid_nonempty : forall x rmax n b, (exists l, r_grid (RScal x) rmax n b = Ok l /\ nonempty l = true) <-> (1 <= n)%Z.
Proof.
  intros x rmax n b. split.
  - intros [l [H K]]. apply nonempty_len in K. cbn [r_grid] in H. destruct b.
    + apply npl_len in H. lia.
    + unfold np_linspace in H. destruct (n <? 0)%Z; [discriminate|]. injection H as <-. rewrite map_length, linspace_len in K. lia.
  - intros N. cbn [r_grid]. destruct b.
    + unfold np_logspace. replace (n <? 0)%Z with false by (symmetry; apply Z.ltb_ge; lia). destruct (_ && _)%bool; eexists; (split; [reflexivity|]); apply nonempty_len; rewrite map_length; [rewrite logspace_len|rewrite seq_length]; lia.
    + unfold np_linspace. replace (n <? 0)%Z with false by (symmetry; apply Z.ltb_ge; lia). eexists. split; [reflexivity|]. apply nonempty_len. rewrite map_length, linspace_len. lia.
Qed.
Lemma khm_nonempty : forall a b d, a < b -> ((exists k, k_hm a b d = Ok k /\ nonempty k = true) <-> 0 < d).
Proof.
  intros a b d L. unfold k_hm, arange. destruct (Reqb d 0) eqn:Z.
  - apply Reqb_spec in Z. split; [intros [k [H _]]; discriminate|lra].
  - simpl. assert (d <> 0) by (intros K; apply Reqb_spec in K; congruence). split.
    + intros [k [H1 H2]]. injection H1 as <-. apply nonempty_len in H2. rewrite !map_length, seq_length in H2. apply (proj1 (rceil_pos _)) in H2. destruct (Rlt_le_dec 0 d); auto.
      assert (0 < - ((b - a) / d)). { replace (- ((b - a) / d)) with ((b - a) / - d) by (field; auto). apply Rdiv_lt_0_compat; lra. } lra.
    + intros D. eexists. split; [reflexivity|]. apply nonempty_len. rewrite !map_length, seq_length. apply rceil_pos. apply Rdiv_lt_0_compat; lra.
Qed.
(** a model with a numeric rmin passes validation exactly when ...; rlog, dr_table and the sign of rmin play no role *)
Theorem c103_accepts_iff : forall base rmin rmax n rlog kmin kmax d,
  validate base (RScal rmin) rmax n rlog kmin kmax d = Ok tt <-> base = Ok tt /\ rmin < rmax /\ (1 <= n)%Z /\ kmin < kmax /\ 0 < d.
Proof.
  intros base rmin rmax n rlog kmin kmax d. unfold validate. rewrite bind_ok_unit. split.
  - intros [[] [B H]]. split; auto. apply bind_ok_unit in H. destruct H as [[] [H1 H]]. apply assert_ok in H1. apply Rltb_spec in H1. split; auto.
    apply bind_ok_unit in H. destruct H as [r [H2 H]]. apply bind_ok_unit in H. destruct H as [[] [H3 H]]. apply assert_ok in H3. split; [eapply rgrid_nonempty; eauto|].
    apply bind_ok_unit in H. destruct H as [[] [H4 H]]. apply assert_ok in H4. apply Rltb_spec in H4. split; auto.
    apply bind_ok_unit in H. destruct H as [k [H5 H]]. apply bind_ok_unit in H. destruct H as [[] [H6 _]]. apply assert_ok in H6. eapply khm_nonempty; eauto.
  - intros [B [L [N [K D]]]]. exists tt. split; auto. apply Rltb_spec in L. rewrite L. cbn [py_assert bind]. destruct (proj2 (rgrid_nonempty rmin rmax n rlog) N) as [r [-> Hr]]. cbn [bind]. rewrite Hr. cbn [py_assert bind].
    destruct (proj2 (khm_nonempty _ _ _ K) D) as [kk [Hk Hn]]. apply Rltb_spec in K. rewrite K. cbn [py_assert bind]. rewrite Hk. cbn [bind]. rewrite Hn. cbn [py_assert bind].
    replace (Rltb logr_min logr_max) with true; auto. symmetry. apply Rltb_spec. unfold logr_min, logr_max. lra.
Qed.
Theorem c103_accepts_array_iff : forall base v rmax n rlog kmin kmax d,
  validate base (RArr v) rmax n rlog kmin kmax d = Ok tt <-> base = Ok tt /\ v <> [] /\ kmin < kmax /\ 0 < d.
Proof.
  intros base v rmax n rlog kmin kmax d. unfold validate. rewrite bind_ok_unit. split.
  - intros [[] [B H]]. split; auto. cbn [bind r_grid] in H. apply bind_ok_unit in H. destruct H as [[] [H3 H]]. apply assert_ok in H3. split; [intros ->; discriminate|].
    apply bind_ok_unit in H. destruct H as [[] [H4 H]]. apply assert_ok in H4. apply Rltb_spec in H4. split; auto.
    apply bind_ok_unit in H. destruct H as [k [H5 H]]. apply bind_ok_unit in H. destruct H as [[] [H6 _]]. apply assert_ok in H6. eapply khm_nonempty; eauto.
  - intros [B [N [K D]]]. exists tt. split; auto. cbn [bind r_grid]. destruct v as [|x v]; [congruence|]. cbn [map nonempty py_assert bind].
    destruct (proj2 (khm_nonempty _ _ _ K) D) as [kk [Hk Hn]]. apply Rltb_spec in K. rewrite K. cbn [py_assert bind]. rewrite Hk. cbn [bind]. rewrite Hn. cbn [py_assert bind].
    replace (Rltb logr_min logr_max) with true; auto. symmetry. apply Rltb_spec. unfold logr_min, logr_max. lra.
Qed.
(** finding: a validated model need not have usable scales: with rlog and rmin <= 0 every scale but the last is nan *)
Theorem c103_valid_but_nan : forall rmin rmax n kmin kmax d l, rmin <= 0 -> validate (Ok tt) (RScal rmin) rmax n true kmin kmax d = Ok tt -> r_grid (RScal rmin) rmax n true = Ok l ->
  forall i, (S i < length l)%nat -> nth i l (Some 0) = None.
Proof.
  intros rmin rmax n kmin kmax d l R V H i Hi. cbn [r_grid] in H. assert (N := npl_len _ _ _ _ H). destruct N as [N N2]. rewrite N2 in Hi. unfold np_logspace in H. replace (n <? 0)%Z with false in H by (symmetry; apply Z.ltb_ge; lia).
  replace (Rltb 0 rmin) with false in H by (symmetry; apply Rltb_false; lra). cbn [andb] in H. injection H as <-.
  match goal with |- nth i (map ?f _) _ = _ => set (g := f) end. rewrite (nth_indep _ (Some 0) (g 0%nat)) by (rewrite map_length, seq_length; lia). rewrite (map_nth g (seq 0 (Z.to_nat n)) 0%nat i), seq_nth by lia. unfold g.
  replace (0 + i =? Z.to_nat n - 1)%nat with false by (symmetry; apply Nat.eqb_neq; lia). reflexivity.
Qed.
(** finding: dr_table is not checked; for dr_table < 0 the table of radii is empty *)
Theorem c103_table_may_be_empty : forall d, r_table d = Ok [] <-> d < 0.
Proof.
  intros d. unfold r_table, arange. destruct (Reqb d 0) eqn:Z; simpl.
  - apply Reqb_spec in Z. split; [discriminate|lra].
  - assert (N : d <> 0) by (intros K; apply Reqb_spec in K; congruence). assert (E : logr_max - logr_min = 11 / 2) by (unfold logr_max, logr_min; lra). rewrite E. split.
    + intros H. injection H as H. destruct (Z.to_nat (rceil (11 / 2 / d))) eqn:Q; [|discriminate]. destruct (Rlt_le_dec d 0); auto. exfalso.
      assert (0 < 11 / 2 / d) by (apply Rdiv_lt_0_compat; lra). apply rceil_pos in H0. lia.
    + intros D. assert (K : ~ (0 < Z.to_nat (rceil (11 / 2 / d)))%nat). { intros K. apply (proj1 (rceil_pos _)) in K. assert (0 < - (11 / 2 / d)). { replace (- (11 / 2 / d)) with (11 / 2 / - d) by (field; auto). apply Rdiv_lt_0_compat; lra. } lra. }
      replace (Z.to_nat (rceil (11 / 2 / d))) with 0%nat by lia. reflexivity.
Qed.
Example c103_nonvacuous : validate (Ok tt) (RScal (1 / 100)) 50 20 true (-2) 2 (5 / 100) = Ok tt /\ validate (Ok tt) (RScal 0) 50 20 true (-2) 2 (5 / 100) = Ok tt.
Proof. split; apply c103_accepts_iff; repeat split; try lia; lra. Qed.

(** ** C104: the tracer mask *)
(** a tracer model passes validation exactly when at least two masses of the grid carry tracers *)
Theorem c104_tracer_accepts_iff : forall m v, validate_tracer (Ok tt) m (Some v) = Ok tt <-> (2 <= length (filter (fun x => Rleb (Rpower 10 v) x) m))%nat.
Proof.
  intros m v. unfold validate_tracer. cbn [bind tracer_mask]. rewrite assert_ok, Nat.ltb_lt. replace (length (filter (fun b : bool => b) (map (fun x => Rleb (Rpower 10 v) x) m))) with (length (filter (fun x => Rleb (Rpower 10 v) x) m)); [lia|].
  induction m as [|x m IH]; simpl; auto. destruct (Rleb (Rpower 10 v) x); simpl; auto.
Qed.
(** without a minimum mass every mass is kept *)
Theorem c104_no_minimum : forall m, tracer_mask m None = map (fun _ => true) m /\ (validate_tracer (Ok tt) m None = Ok tt <-> (2 <= length m)%nat).
Proof.
  intros m. assert (E : tracer_mask m None = map (fun _ => true) m). { cbn [tracer_mask]. apply map_ext_in. intros x Hx. apply Rleb_spec. now apply lmin_lb. }
  split; auto. unfold validate_tracer. cbn [bind]. rewrite E, assert_ok, Nat.ltb_lt. clear E. replace (length (filter (fun b : bool => b) (map (fun _ => true) m))) with (length m); [lia|]. induction m; simpl; auto.
Qed.
(** raising the minimum mass only removes masses; on a grid starting at 10^Mmin the mask removes nothing exactly when the warning region or its edge is reached *)
Theorem c104_mask_monotone : forall m v w i, v <= w -> nth i (tracer_mask m (Some w)) false = true -> nth i (tracer_mask m (Some v)) false = true.
Proof.
  intros m v w i L. cbn [tracer_mask]. revert i. induction m as [|x m IH]; intros [|i]; simpl; auto. intros H. apply Rleb_spec in H. apply Rleb_spec. eapply Rle_trans; [|exact H]. destruct L as [L| ->]; [left; now apply pow10_lt|lra].
Qed.
(** the warning appears exactly if the HOD has a minimum mass and it is below the mass grid *)
Theorem c104_warns_iff : forall Mmin mmin, tracer_mask_warns Mmin mmin = true <-> exists v, mmin = Some v /\ v < Mmin.
Proof. intros Mmin [v|]; simpl; [rewrite Rltb_spec; split; [eauto|intros [w [H L]]; injection H as <-; auto]|split; [discriminate|intros [v [H _]]; discriminate]]. Qed.
Theorem c104_warning_keeps_all : forall m Mmin v, (forall x, In x m -> Rpower 10 Mmin <= x) -> tracer_mask_warns Mmin (Some v) = true -> tracer_mask m (Some v) = map (fun _ => true) m.
Proof.
  intros m Mmin v G W. cbn [tracer_mask_warns] in W. apply Rltb_spec in W. cbn [tracer_mask]. apply map_ext_in. intros x Hx. apply Rleb_spec. eapply Rle_trans; [|apply G; auto]. left. now apply pow10_lt.
Qed.
Example c104_nonvacuous : validate_tracer (Ok tt) [1; 10; 100; 1000] (Some 1) = Ok tt /\ validate_tracer (Ok tt) [1; 10; 100; 1000] (Some 3) = Raise AssertionError.
Proof.
  assert (P : forall n, Rpower 10 (INR n) = 10 ^ n) by (intros; apply Rpower_pow; lra). assert (P1 : Rpower 10 1 = 10) by (specialize (P 1%nat); simpl in P; rewrite P; lra). assert (P3 : Rpower 10 3 = 1000). { specialize (P 3%nat). replace (INR 3) with 3 in P by (simpl; lra). rewrite P. simpl. lra. }
  assert (T : forall x y, x <= y -> Rleb x y = true) by (intros; now apply Rleb_spec). assert (F : forall x y, y < x -> Rleb x y = false) by (intros; apply Rleb_false; auto). split.
  - apply c104_tracer_accepts_iff. cbn [filter]. rewrite P1, F, !T by lra. simpl. lia.
  - unfold validate_tracer. cbn [bind tracer_mask map]. rewrite P3, !F, T by lra. reflexivity.
Qed.

(** ** C105: projected separations *)
Lemma py_int_nonneg : forall v, 0 <= v -> (0 <= py_int v)%Z /\ IZR (py_int v) <= v < IZR (py_int v) + 1.
Proof.
  intros v V. unfold py_int. replace (Rltb v 0) with false by (symmetry; apply Rltb_false; lra). destruct (archimed v) as [A B]. rewrite minus_IZR. split; [|lra].
  assert (0 < up v)%Z by (apply lt_IZR; lra). lia.
Qed.
(** finding: rp_num is accepted exactly when it is not negative; 0 <= rp_num < 1 (documented as rejected) gives no separations, and then
    the 3D scales of the projection raise *)
Theorem c105_rp_num : forall v, ((exists n, set_rp_num v = Ok n) <-> 0 <= v) /\
  (forall n rpmin rpmax lg l, set_rp_num v = Ok n -> rp_grid (RScal rpmin) rpmax n lg = Ok l -> length l = Z.to_nat n /\ (l = [] <-> v < 1)).
Proof.
  intros v. split.
  - unfold set_rp_num. destruct (Rltb v 0) eqn:E; [apply Rltb_spec in E|apply Rltb_false in E]; split; eauto; try lra. intros [n H]; discriminate.
  - intros n rpmin rpmax lg l S H. unfold set_rp_num in S. destruct (Rltb v 0) eqn:E; [discriminate|]. apply Rltb_false in E. injection S as <-. destruct (py_int_nonneg v E) as [A B].
    assert (L : length l = Z.to_nat (py_int v)). { unfold rp_grid in H. cbn [r_grid] in H. destruct lg; [now apply npl_len in H|]. unfold np_linspace in H. replace (py_int v <? 0)%Z with false in H by (symmetry; apply Z.ltb_ge; auto). injection H as <-. now rewrite map_length, linspace_len. }
    split; auto. split.
    + intros ->. simpl in L. assert (K : (py_int v <= 0)%Z) by lia. apply IZR_le in K. lra.
    + intros K. assert (Z : (py_int v < 1)%Z) by (apply lt_IZR; lra). destruct l; auto. simpl in L. lia.
Qed.
Theorem c105_fractional_number_raises : forall v n rpmin rpmax lg rp pl k, set_rp_num v = Ok n -> v < 1 -> rp_grid (RScal rpmin) rpmax n lg = Ok (map Some rp) ->
  pcf_r_grid pl rp k = Raise ValueError.
Proof.
  intros v n rpmin rpmax lg rp pl k S V H. destruct (c105_rp_num v) as [_ P]. destruct (P _ _ _ _ _ S H) as [_ [_ Q]]. specialize (Q V). destruct rp; [reflexivity|discriminate].
Qed.
(** the 3D scales cover exactly the range needed by the projection: from the smallest separation to the line-of-sight limit, which exceeds
    every separation by at least a factor of five when it is not given *)
Theorem c105_scales_cover : forall pl rp n l, rp <> [] -> (forall x, In x rp -> 0 < x) -> pl = None \/ pl = Some 0 -> pcf_r_grid pl rp n = Ok l ->
  exists rl v, pcf_rlim pl rp = Ok rl /\ l = map Some v /\ length v = Z.to_nat n /\ incr v /\ ((1 <= n)%Z -> hd 0 v = lmin rp) /\ ((2 <= n)%Z -> last v 0 = rl) /\ 80 <= rl /\ forall x, In x rp -> lmin rp <= x /\ 5 * x <= rl.
Proof.
  intros pl rp n l N P PL H. assert (T : truthy pl = false). { destruct PL as [->| ->]; auto. simpl. replace (Reqb 0 0) with true; auto. symmetry. now apply Reqb_spec. }
  destruct rp as [|x0 rp]; [congruence|]. set (q := x0 :: rp) in *. unfold pcf_r_grid in H. unfold q in H at 1. cbv iota in H. unfold pcf_rlim in H. rewrite T in H. unfold q in H at 1. cbv iota in H. cbn [bind] in H.
  assert (RL : rlim pl q = Rmax 80 (5 * lmax q)) by (unfold rlim; now rewrite T). rewrite RL in H.
  assert (A : 0 < lmin q). { apply P. apply lmin_in. unfold q. discriminate. }
  assert (B : lmin q < Rmax 80 (5 * lmax q)). { assert (lmin q <= lmax q). { apply lmax_ub. apply lmin_in. unfold q; discriminate. } eapply Rlt_le_trans; [|apply Rmax_r]. lra. }
  assert (NN := npl_len _ _ _ _ H). destruct NN as [NN _]. rewrite npl_pos in H by (try assumption; lra). injection H as <-.
  exists (Rmax 80 (5 * lmax q)), (logspace (lmin q) (Rmax 80 (5 * lmax q)) (Z.to_nat n)). split; [unfold pcf_rlim; rewrite T; unfold q at 1; cbv iota; now rewrite RL|]. split; auto. split; [apply logspace_len|].
  split; [now apply logspace_incr|]. split; [intros; apply logspace_hd; auto; lia|]. split; [intros; apply logspace_last; [lra|lia]|]. split; [apply Rmax_l|].
  intros x Hx. split; [now apply lmin_lb|]. eapply Rle_trans; [|apply Rmax_r]. apply Rmult_le_compat_l; [lra|]. now apply lmax_ub.
Qed.
Example c105_nonvacuous : set_rp_num (1 / 2) = Ok 0%Z /\ exists l, pcf_r_grid None [1; 2] 3 = Ok l /\ length l = 3%nat.
Proof.
  split.
  - unfold set_rp_num. replace (Rltb (1 / 2) 0) with false by (symmetry; apply Rltb_false; lra). f_equal. destruct (py_int_nonneg (1 / 2)) as [A B]; [lra|]. assert (py_int (1 / 2) < 1)%Z by (apply lt_IZR; lra). lia.
  - unfold pcf_r_grid, pcf_rlim. cbn [truthy]. cbv iota. cbn [bind]. assert (A : 0 < lmin [1; 2]). { destruct (lmin_in [1; 2]) as [<-|[<-|[]]]; [discriminate|lra|lra]. }
    rewrite npl_pos; [|lia|auto|unfold rlim; cbn [truthy]; cbv iota; eapply Rlt_le_trans; [|apply Rmax_l]; lra]. eexists. split; [reflexivity|]. now rewrite map_length, logspace_len.
Qed.

(** a fractional number of scales is cut towards zero: the number used is within one of the number given, on its zero side; so every
    number between -1 and 1 gives an empty grid instead of an error, and an error needs -1 or less *)
Theorem c105_scale_number : forall v d, let n := pcf_rnum (Some v) d in
  (0 <= v -> IZR n <= v < IZR n + 1) /\ (v <= 0 -> IZR n - 1 < v <= IZR n) /\
  (forall pl rp rl, rp <> [] -> (forall x, In x rp -> 0 < x) -> pcf_rlim pl rp = Ok rl -> ((exists e, pcf_r_grid pl rp n = Raise e) <-> v <= -1) /\ (-1 < v < 1 -> pcf_r_grid pl rp n = Ok [])).
Proof.
  intros v d n. assert (A : 0 <= v -> IZR n <= v < IZR n + 1). { intros V. unfold n, pcf_rnum, py_int. replace (Rltb v 0) with false by (symmetry; apply Rltb_false; lra). destruct (archimed v). rewrite minus_IZR. lra. }
  assert (B : v <= 0 -> IZR n - 1 < v <= IZR n). { intros V. destruct (Req_dec v 0) as [Z|Z]; [|unfold n, pcf_rnum, py_int; replace (Rltb v 0) with true by (symmetry; apply Rltb_spec; lra); destruct (rceil_bounds v); lra]. destruct (A ltac:(lra)) as [A1 A2]. assert (n = 0)%Z; [|subst n; rewrite H; lra]. assert (X : (n <= 0)%Z) by (apply le_IZR; lra). assert (Y : (-1 < n)%Z) by (apply lt_IZR; lra). lia. }
  split; [exact A|]. split; [exact B|]. intros pl rp rl N P L. clearbody n. unfold pcf_r_grid. destruct rp as [|x rp]; [congruence|]. rewrite L. cbn [bind]. unfold np_logspace.
  assert (P0 : 0 < lmin (x :: rp)) by (apply P, lmin_in; discriminate).
  replace (Rltb (lmin (x :: rp)) 0) with false by (symmetry; apply Rltb_false; lra).
  assert (E : (n < 0)%Z <-> v <= -1). { split; intros H. - apply Rnot_lt_le. intros V. destruct (Rle_dec v 0); [destruct B as [B1 B2]; auto; assert (X : (n <= -1)%Z) by lia; apply IZR_le in X; lra|destruct A as [A1 A2]; [lra|]; assert (X : (n <= -1)%Z) by lia; apply IZR_le in X; lra]. - destruct B as [B1 B2]; [lra|]. apply lt_IZR. lra. }
  split.
  - destruct (n <? 0)%Z eqn:Z; [apply Z.ltb_lt in Z|apply Z.ltb_ge in Z]. + split; [intros _; now apply E|eauto]. + split; [|intros V; apply E in V; lia]. match goal with |- (exists e, (if ?c then _ else _) = _) -> _ => destruct c end; intros [e H]; try discriminate.
  - intros V. assert (Z : n = 0%Z). { destruct (Rle_dec 0 v). - destruct A as [A1 A2]; auto. assert (X : (n < 1)%Z) by (apply lt_IZR; lra). assert (Y : (-1 < n)%Z) by (apply lt_IZR; lra). lia. - destruct B as [B1 B2]; [lra|]. assert (X : (n < 1)%Z) by (apply lt_IZR; lra). assert (Y : (-1 < n)%Z) by (apply lt_IZR; lra). lia. }
    rewrite Z. simpl. match goal with |- context [if ?c then _ else _] => destruct c end; reflexivity.
Qed.

(** without a number of its own the projection uses five radial scales per projected one *)
Theorem c105_default_scale_number : forall v n, set_rp_num v = Ok n -> pcf_rnum None (IZR n) = (5 * n)%Z.
Proof.
  intros v n H. unfold set_rp_num in H. destruct (Rltb v 0) eqn:E; [discriminate|]. apply Rltb_false in E. injection H as <-. assert (N : (0 <= py_int v)%Z). { unfold py_int. replace (Rltb v 0) with false by (symmetry; apply Rltb_false; lra). destruct (archimed v) as [A B]. assert (0 < up v)%Z by (apply lt_IZR; lra). lia. }
  set (n := py_int v) in *. clearbody n. unfold pcf_rnum. rewrite <- mult_IZR. unfold py_int. apply IZR_le in N. replace (Rltb (IZR (5 * n)) 0) with false by (symmetry; apply Rltb_false; rewrite mult_IZR; lra).
  destruct (archimed (IZR (5 * n))) as [A B]. apply lt_IZR in A. assert (up (IZR (5 * n)) <= 5 * n + 1)%Z; [|lia]. apply le_IZR. rewrite plus_IZR. lra.
Qed.

(** ** C106: angles and the selection function *)
(** every accepted pair of limits gives theta_num increasing angles between them, ends included, provided the lower one is positive *)
Theorem c106_angles : forall a b n lg t, set_theta_min a = Ok a -> set_theta_max b = Ok b -> 0 < a -> a < b -> theta_grid a b n lg = Ok t ->
  exists v, t = map Some v /\ length v = Z.to_nat n /\ incr v /\ (forall x, In x v -> a <= x <= b) /\ ((1 <= n)%Z -> hd 0 v = a) /\ ((2 <= n)%Z -> last v 0 = b).
Proof.
  intros a b n lg t _ _ A L H. unfold theta_grid in H. replace (Rltb b a) with false in H by (symmetry; apply Rltb_false; lra). destruct lg.
  - destruct (c101_scales_log a b n t A L) as [v [V1 [V2 [V3 [V4 [V5 [V6 _]]]]]]]; [exact H|]. exists v. tauto.
  - destruct (c101_scales_linear a b n t L) as [v V]; [exact H|]. exists v. tauto.
Qed.
(** the angles raise exactly when the limits are in the wrong order or the number is negative *)
Theorem c106_angles_raise_iff : forall a b n lg, (exists e, theta_grid a b n lg = Raise e) <-> b < a \/ (n < 0)%Z.
Proof.
  intros a b n lg. unfold theta_grid, np_logspace, np_linspace. destruct (Rltb b a) eqn:E; [apply Rltb_spec in E; split; eauto|]. apply Rltb_false in E. destruct (n <? 0)%Z eqn:Z; [apply Z.ltb_lt in Z|apply Z.ltb_ge in Z].
  - destruct lg; simpl; split; eauto.
  - split; [|intros [K|K]; [lra|lia]]. destruct lg; simpl; [destruct (_ && _)%bool|]; intros [e H]; discriminate.
Qed.
(** finding: the limits are in radians but the check is in degrees: 180 radians is accepted; and a zero lower limit (documented as
    rejected) is accepted and gives nan for every angle but the last on the default logarithmic grid *)
Theorem c106_limits_accepted : (forall v, 0 <= v -> set_theta_min v = Ok v) /\ (forall v, v <= 180 -> set_theta_max v = Ok v) /\ set_theta_max (50 * PI) = Ok (50 * PI).
Proof.
  assert (A : forall v, v <= 180 -> set_theta_max v = Ok v) by (intros v V; unfold set_theta_max; replace (Rltb 180 v) with false by (symmetry; apply Rltb_false; lra); reflexivity). split; [|split; auto].
  - intros v V. unfold set_theta_min. replace (Rltb v 0) with false by (symmetry; apply Rltb_false; lra). reflexivity.
  - apply A. destruct PI_ineq with 2%nat as [_ H]. unfold tg_alt, PI_tg in H. simpl in H. lra.
Qed.
Theorem c106_zero_lower_limit_nan : forall b n t i, 0 <= b -> theta_grid 0 b n true = Ok t -> (S i < length t)%nat -> nth i t (Some 0) = None.
Proof.
  intros b n t i B H Hi. unfold theta_grid in H. replace (Rltb b 0) with false in H by (symmetry; apply Rltb_false; lra). assert (N := npl_len _ _ _ _ H). destruct N as [N N2]. rewrite N2 in Hi. unfold np_logspace in H.
  replace (n <? 0)%Z with false in H by (symmetry; apply Z.ltb_ge; lia). replace (Rltb 0 0) with false in H by (symmetry; apply Rltb_false; lra). cbn [andb] in H. injection H as <-.
  match goal with |- nth i (map ?f _) _ = _ => set (g := f) end. rewrite (nth_indep _ (Some 0) (g 0%nat)) by (rewrite map_length, seq_length; lia). rewrite (map_nth g (seq 0 (Z.to_nat n)) 0%nat i), seq_nth by lia. unfold g.
  replace (0 + i =? Z.to_nat n - 1)%nat with false by (symmetry; apply Nat.eqb_neq; lia). reflexivity.
Qed.
(** the default selection function is chosen once, at construction: whatever the history of redshift updates, it stays flat over the
    ORIGINAL redshift range *)
Theorem c106_selection_frozen : forall z0 z1 l, Forall (fun u => u_p1 u = None) l -> a_p1 (acf_run (acf_init None z0 z1) l) = flat_z_dist z0 z1.
Proof.
  intros z0 z1 l H. unfold acf_run. assert (G : forall s, a_p1 s = flat_z_dist z0 z1 -> a_p1 (fold_left acf_update l s) = flat_z_dist z0 z1); [|now apply G].
  induction H as [|u l U _ IH]; intros s E; simpl; auto. apply IH. unfold acf_update. simpl. now rewrite U.
Qed.
(** the limits in use after any run of updates are the last ones given, each on its own, or the ones the object was built with *)
Definition given {A : Type} (f : acf_call -> option A) (l : list acf_call) : list A := flat_map (fun u => match f u with Some x => [x] | None => [] end) l.
Theorem c106_limits_last_given : forall p1 z0 z1 l, let s := acf_run (acf_init p1 z0 z1) l in
  a_zmin s = last (given u_zmin l) z0 /\ a_zmax s = last (given u_zmax l) z1 /\ a_p1 s = last (given u_p1 l) (match p1 with Some p => p | None => flat_z_dist z0 z1 end).
Proof.
  intros p1 z0 z1 l. assert (G : forall l s, a_zmin (fold_left acf_update l s) = last (given u_zmin l) (a_zmin s) /\ a_zmax (fold_left acf_update l s) = last (given u_zmax l) (a_zmax s) /\ a_p1 (fold_left acf_update l s) = last (given u_p1 l) (a_p1 s)).
  2: { destruct (G l (acf_init p1 z0 z1)) as [A [B C]]. unfold acf_run. split; [exact A|]. split; [exact B|]. rewrite C. destruct p1; reflexivity. }
  clear. induction l as [|u l IH]; intros s; simpl; auto. destruct (IH (acf_update s u)) as [A [B C]]. rewrite A, B, C. unfold given, acf_update. simpl.
  assert (LC : forall (T : Type) (m : list T) (x d : T), last (x :: m) d = last m x). { intros T m. induction m as [|y m IHm]; intros x d; auto. change (last (x :: y :: m) d) with (last (y :: m) d). now rewrite !IHm. }
  repeat split; [destruct (u_zmin u)|destruct (u_zmax u)|destruct (u_p1 u)]; cbn [oget app]; rewrite ?LC; reflexivity.
Qed.

(** finding: after an update to a later (or earlier), disjoint redshift range the angular correlation is nan at every angle *)
Theorem c106_update_disjoint_nan : forall c xi z0 z1 l lu0 lu1 zn un th, Forall (fun u => u_p1 u = None) l -> let s := acf_run (acf_init None z0 z1) l in
  a_zmin s <= a_zmax s -> z1 < a_zmin s \/ a_zmax s < z0 -> acf_angular c xi s lu0 lu1 zn un true true th = None.
Proof.
  intros c xi z0 z1 l lu0 lu1 zn un th H s L D. unfold acf_angular, angular_corr_gal, selected. cbv zeta. unfold angular_grid. unfold s at 1. rewrite (c106_selection_frozen z0 z1 l H). fold s.
  replace (check_p (mkSel (flat_z_dist z0 z1) None) (linspace (a_zmin s) (a_zmax s) zn)) with (@None (R -> R)); auto. symmetry. apply c70_nan_iff. unfold p_integral; cbn [s_int s_f]. rewrite simpx_pts_eq, (simpx_ext _ (fun _ => 0)); [apply simpx_zero|].
  intros z Hz. apply linspace_in in Hz; auto. unfold flat_z_dist. destruct D as [D|D].
  - replace (Rleb z z1) with false by (symmetry; apply Rleb_false; lra). now rewrite andb_false_r.
  - replace (Rleb z0 z) with false by (symmetry; apply Rleb_false; lra). reflexivity.
Qed.
Example c106_nonvacuous : acf_angular (mkCosmo (fun z => 3000 * z) (7 / 10) 3000 (fun _ => 1)) (fun _ => 1) (acf_run (acf_init None (2 / 10) (4 / 10)) [mkAcfCall None (Some (6 / 10)) (Some (8 / 10))]) (-4) 2 100 100 true true (1 / 100) = None.
Proof. apply c106_update_disjoint_nan; [repeat constructor| |]; cbn; lra. Qed.
Print Assumptions c101_wavenumbers.
Print Assumptions c102_silent_radii.
Print Assumptions c103_accepts_iff.
Print Assumptions c104_tracer_accepts_iff.
Print Assumptions c105_scales_cover.
Print Assumptions c106_update_disjoint_nan.
