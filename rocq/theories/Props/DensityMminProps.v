(** How the mean tracer density depends on M_min (C146).  Code under study: /repo/src/halomod/halo_model.py:1190-1240, hod.py:270-303, 305-353, 440-465. *)
From Coq Require Import Reals List Bool Arith Lia Lra.
From Coquelicot Require Import Coquelicot.
From Verif Require Import Model.RBool Model.SpecialFn Model.Profiles Model.HOD Model.HaloModel Model.Cross Spec.HMSpec Proofs.HMProofs Proofs.Calc Proofs.Erf Proofs.DensityMminProofs Props.HaloModelProps Props.FindMminProps Props.CrossProps.
Import ListNotations.
Local Open Scope R_scope.

(** the quadrature is continuous in its lower limit, as the integral of an interpolating function is *)
Definition q_continuous (I : quadrature) : Prop := forall x y b a, continuous (fun a => I x y a b) a.
(** the integral, from a to the largest tabulated mass, of the interpolant that is 1 at the j-th tabulated mass and 0 at all others *)
Definition node_weight (I : quadrature) (h : dmhm) (j : nat) (a : R) : R :=
  I (arr (d_nm h) (fun i => ln (d_m h i))) (arr (d_nm h) (fun i => if (i =? j)%nat then 1 else 0)) a (ln (d_m h (d_nm h - 1)%nat)).

Section D.
  Variables (I : quadrature) (h : dmhm) (u rho : nat -> nat -> R) (lam : option (nat -> nat -> R)).
  Hypothesis L : q_linear I.
  Hypothesis C : q_continuous I.
  Hypothesis G : grid (d_nm h) (d_m h).
  (** the mean density of the tracer for a given hod *)
  Let den (hd : hod) : R := mean_tracer_den I h (mkTr hd u rho lam).
  Let lm (i : nat) := ln (d_m h i).

  Lemma den_sum_cut : forall hd, cut hd = true -> den hd = gs (d_nm h) (fun i => (d_m h i * (d_dndm h i * tot_int hd (d_m h i))) * node_weight I h i (h_mmin hd * ln 10)).
  Proof.
    intros hd E. unfold den, mean_tracer_den, tint. cbv beta iota delta [t_hod]. rewrite mint_eq by auto. rewrite quad_weights by auto. apply gs_ext. intros i Hi. unfold node_weight, lo_lim, hi_lim, tracer_mmin. rewrite E.
    unfold Rpower. rewrite ln_exp. reflexivity.
  Qed.
  Lemma den_sum_all : forall hd, cut hd = false -> den hd = gs (d_nm h) (fun i => (d_m h i * (d_dndm h i * tot_int hd (d_m h i))) * node_weight I h i (ln (d_m h 0%nat))).
  Proof.
    intros hd E. unfold den, mean_tracer_den, tint. cbv beta iota delta [t_hod]. rewrite mint_eq by auto. rewrite quad_weights by auto. apply gs_ext. intros i Hi. unfold node_weight, lo_lim, hi_lim, tracer_mmin. rewrite E. reflexivity.
  Qed.
  Lemma pow10_lt : forall a b, pow10 a < pow10 b <-> a < b.
  Proof.
    intros a b. unfold pow10. split; intros H; [|apply Rpower_lt; lra]. destruct (Rlt_le_dec a b) as [|K]; auto. exfalso. destruct (Req_dec a b) as [->|]; [lra|]. assert (Rpower 10 b < Rpower 10 a) by (apply Rpower_lt; lra). lra.
  Qed.
  Lemma log_pow : forall m, 0 < m -> pow10 (log10 m) = m.
  Proof. intros m H. unfold pow10, log10, Rpower. replace (ln m / ln 10 * ln 10) with (ln m); [apply exp_ln; auto|]. field. apply Rgt_not_eq. rewrite <- ln_1. apply ln_increasing; lra. Qed.
  Lemma lt_log : forall m M, 0 < m -> (m < pow10 M <-> log10 m < M).
  Proof. intros m M H. rewrite <- (log_pow m H) at 1. apply pow10_lt. Qed.
  Lemma lower_lim : forall (F : (R -> Prop) -> Prop) (M0 : R) i, Filter F -> (forall f : R -> R, continuous f M0 -> filterlim f F (locally (f M0))) ->
    filterlim (fun M => node_weight I h i (M * ln 10)) F (locally (node_weight I h i (M0 * ln 10))).
  Proof.
    intros F M0 i HF H. apply (H (fun M => node_weight I h i (M * ln 10))). apply (continuous_comp (fun M => M * ln 10) (node_weight I h i)); [|apply C].
    apply (ex_derive_continuous (K := R_AbsRing) (V := R_NormedModule)). auto_derive. auto.
  Qed.

  (** ** Zehavi05 with the central condition *)
  Variables (M1 alpha : R).
  Let z (M : R) := den (Zehavi05 true M M1 alpha).
  (** what the satellites of the j-th tabulated mass contribute to the integrand in log mass *)
  Let sat (j : nat) : R := d_m h j * (d_dndm h j * Rpower (d_m h j / pow10 M1) alpha).
  Let zterm (M : R) (i : nat) : R := d_m h i * (d_dndm h i * (1 + (if Rltb (d_m h i) (pow10 M) then 0 else 1) * Rpower (d_m h i / pow10 M1) alpha)).
  Lemma z_sum : forall M, z M = gs (d_nm h) (fun i => zterm M i * node_weight I h i (M * ln 10)).
  Proof.
    intros M. unfold z. rewrite den_sum_cut by reflexivity. apply gs_ext. intros i Hi. f_equal. unfold zterm, tot_int, cen_int, satellite_occupation, nc, central_occupation, cut, h_central. simpl. unfold zehavi_co, zehavi_so, one.
    replace ((if Rltb (d_m h i) (pow10 M) then 0 else 1) / 1) with (if Rltb (d_m h i) (pow10 M) then 0 else 1) by (destruct (Rltb _ _); field). reflexivity.
  Qed.
  Lemma z_lim : forall (F : (R -> Prop) -> Prop) (M0 : R) (l : nat -> R), Filter F -> (forall f : R -> R, continuous f M0 -> filterlim f F (locally (f M0))) ->
    (forall i, (i < d_nm h)%nat -> F (fun M => (if Rltb (d_m h i) (pow10 M) then 0 else 1) = l i)) ->
    filterlim z F (locally (gs (d_nm h) (fun i => (d_m h i * (d_dndm h i * (1 + l i * Rpower (d_m h i / pow10 M1) alpha))) * node_weight I h i (M0 * ln 10)))).
  Proof.
    intros F M0 l HF HC HL. apply (filterlim_ext (fun M => gs (d_nm h) (fun i => zterm M i * node_weight I h i (M * ln 10)))). { intros M. symmetry. apply z_sum. }
    apply (lim_gs F HF (d_nm h) (fun i M => zterm M i * node_weight I h i (M * ln 10))). intros i Hi. apply lim_mult; auto; [|now apply lower_lim].
    apply lim_eventually_const; auto. generalize (HL i Hi). apply filter_imp. intros M E. unfold zterm. rewrite E. reflexivity.
  Qed.
  Lemma ind_near : forall m M0, 0 < m -> m <> pow10 M0 -> locally M0 (fun M => (if Rltb m (pow10 M) then 0 else 1) = (if Rltb m (pow10 M0) then 0 else 1)).
  Proof.
    intros m M0 Hm N. assert (log10 m <> M0). { intros E. apply N. rewrite <- E. symmetry. now apply log_pow. }
    assert (P : 0 < Rabs (log10 m - M0)) by (apply Rabs_pos_lt; lra). exists (mkposreal _ P). intros M HM. simpl in HM. unfold ball in HM. simpl in HM. unfold AbsRing_ball, abs, minus, plus, opp in HM. simpl in HM.
    assert (E : Rltb m (pow10 M) = Rltb m (pow10 M0)).
    { apply Bool.eq_iff_eq_true. rewrite !Rltb_spec, !lt_log by auto. unfold Rabs in HM. destruct (Rcase_abs (M + - M0)), (Rcase_abs (log10 m - M0)); split; intros; lra. }
    rewrite E. reflexivity.
  Qed.
  Lemma ind_left : forall m M0, 0 < m -> at_left M0 (fun M => (if Rltb m (pow10 M) then 0 else 1) = (if Rltb m (pow10 M0) then 0 else 1)).
  Proof.
    intros m M0 Hm. destruct (Req_dec m (pow10 M0)) as [E|N].
    - unfold at_left, within. apply filter_forall. intros M HM. replace (Rltb m (pow10 M0)) with false by (symmetry; apply Rltb_false; lra). replace (Rltb m (pow10 M)) with false; auto. symmetry. apply Rltb_false. rewrite E. left. now apply pow10_lt.
    - unfold at_left, within. generalize (ind_near m M0 Hm N). apply filter_imp. auto.
  Qed.
  Lemma ind_right : forall m M0, 0 < m -> at_right M0 (fun M => (if Rltb m (pow10 M) then 0 else 1) = (if Rleb m (pow10 M0) then 0 else 1)).
  Proof.
    intros m M0 Hm. destruct (Req_dec m (pow10 M0)) as [E|N].
    - unfold at_right, within. apply filter_forall. intros M HM. replace (Rleb m (pow10 M0)) with true by (symmetry; apply Rleb_spec; lra). replace (Rltb m (pow10 M)) with true; auto. symmetry. apply Rltb_spec. rewrite E. now apply pow10_lt.
    - unfold at_right, within. generalize (ind_near m M0 Hm N). apply filter_imp. intros M E _. rewrite E. destruct (Rltb m (pow10 M0)) eqn:A, (Rleb m (pow10 M0)) eqn:B; auto.
      + apply Rltb_spec in A. exfalso. assert (K : Rleb m (pow10 M0) = true) by (apply Rleb_spec; lra). congruence.
      + apply Rleb_spec in B. exfalso. assert (K : Rltb m (pow10 M0) = true) by (apply Rltb_spec; lra). congruence.
  Qed.
  Lemma z_left : forall M0, filterlim z (at_left M0) (locally (z M0)).
  Proof.
    intros M0. rewrite z_sum. apply (z_lim (at_left M0) M0 (fun i => if Rltb (d_m h i) (pow10 M0) then 0 else 1)); [typeclasses eauto|intros f0 Hf0; apply cont_left; exact Hf0|]. intros i Hi. apply ind_left. now apply G.
  Qed.
  Lemma z_right : forall M0, filterlim z (at_right M0) (locally (gs (d_nm h) (fun i => (d_m h i * (d_dndm h i * (1 + (if Rleb (d_m h i) (pow10 M0) then 0 else 1) * Rpower (d_m h i / pow10 M1) alpha))) * node_weight I h i (M0 * ln 10)))).
  Proof. intros M0. apply (z_lim (at_right M0) M0 (fun i => if Rleb (d_m h i) (pow10 M0) then 0 else 1)); [typeclasses eauto|intros f0 Hf0; apply cont_right; exact Hf0|]. intros i Hi. apply ind_right. now apply G. Qed.

  (** C146: between tabulated masses the density is a continuous function of M_min *)
  Theorem c146_continuous_between : forall M0, (forall i, (i < d_nm h)%nat -> d_m h i <> pow10 M0) -> continuous (fun M => mean_tracer_den I h (mkTr (Zehavi05 true M M1 alpha) u rho lam)) M0.
  Proof.
    intros M0 N. change (continuous z M0). unfold continuous. rewrite z_sum. apply (z_lim (locally M0) M0 (fun i => if Rltb (d_m h i) (pow10 M0) then 0 else 1)); [typeclasses eauto|auto|]. intros i Hi. apply ind_near; auto. now apply G.
  Qed.
  (** finding: at every tabulated mass it jumps - by what the satellites of that mass contribute, because the satellites of tabulated masses below 10^M_min are set to zero before interpolating *)
  Theorem c146_jump : forall M0 j, (j < d_nm h)%nat -> d_m h j = pow10 M0 ->
    let den := fun M => mean_tracer_den I h (mkTr (Zehavi05 true M M1 alpha) u rho lam) in
    let jump := d_m h j * d_dndm h j * Rpower (d_m h j / pow10 M1) alpha * node_weight I h j (ln (d_m h j)) in
    filterlim den (at_left M0) (locally (den M0)) /\ filterlim den (at_right M0) (locally (den M0 - jump)) /\ (continuous den M0 <-> jump = 0).
  Proof.
    intros M0 j Hj E den' jump. change den' with z.
    assert (LE : ln (d_m h j) = M0 * ln 10) by (rewrite E; unfold pow10, Rpower; apply ln_exp).
    assert (V : gs (d_nm h) (fun i => (d_m h i * (d_dndm h i * (1 + (if Rleb (d_m h i) (pow10 M0) then 0 else 1) * Rpower (d_m h i / pow10 M1) alpha))) * node_weight I h i (M0 * ln 10)) = z M0 - jump).
    { assert (D : z M0 - gs (d_nm h) (fun i => (d_m h i * (d_dndm h i * (1 + (if Rleb (d_m h i) (pow10 M0) then 0 else 1) * Rpower (d_m h i / pow10 M1) alpha))) * node_weight I h i (M0 * ln 10)) = jump).
      { rewrite z_sum, gs_minus. rewrite (gs_single _ j); auto.
        - unfold zterm. replace (Rltb (d_m h j) (pow10 M0)) with false by (symmetry; apply Rltb_false; lra). replace (Rleb (d_m h j) (pow10 M0)) with true by (symmetry; apply Rleb_spec; lra). unfold jump. rewrite LE. ring.
        - intros i Hi N. unfold zterm. assert (NE : d_m h i <> pow10 M0). { rewrite <- E. destruct G as (_ & _ & Inc). destruct (Nat.lt_total i j) as [K|[K|K]]; [|contradiction|]; [specialize (Inc i j ltac:(lia))|specialize (Inc j i ltac:(lia))]; lra. }
          destruct (Rltb (d_m h i) (pow10 M0)) eqn:A, (Rleb (d_m h i) (pow10 M0)) eqn:B; try ring.
          + apply Rltb_spec in A. assert (K : Rleb (d_m h i) (pow10 M0) = true) by (apply Rleb_spec; lra). congruence.
          + apply Rleb_spec in B. assert (K : Rltb (d_m h i) (pow10 M0) = true) by (apply Rltb_spec; lra). congruence. }
      lra. }
    assert (RL := z_right M0). rewrite V in RL. split; [apply z_left|]. split; [exact RL|]. split.
    - intros HC. apply cont_right in HC. assert (Q := filterlim_locally_unique z (z M0) (z M0 - jump) HC RL). lra.
    - intros Z. unfold continuous. apply lim_locally_sides; auto; [apply z_left|]. replace (z M0) with (z M0 - jump) by lra. exact RL.
  Qed.
End D.
Print Assumptions c146_continuous_between.
Print Assumptions c146_jump.


Section Others.
  Variables (I : quadrature) (h : dmhm) (u rho : nat -> nat -> R) (lam : option (nat -> nat -> R)).
  Hypothesis L : q_linear I.
  Hypothesis G : grid (d_nm h) (d_m h).

  (** finding: Zehavi05 without the central condition: M_min only matters through the tabulated masses below it - density, effective bias and satellite fraction are the same for all M_min
      between two tabulated masses *)
  Theorem c146_steps : forall M M' M1 alpha, (forall i, (i < d_nm h)%nat -> (d_m h i < pow10 M <-> d_m h i < pow10 M')) ->
    let t := fun M => mkTr (Zehavi05 false M M1 alpha) u rho lam in
    mean_tracer_den I h (t M) = mean_tracer_den I h (t M') /\ bias_effective_tracer I h (t M) = bias_effective_tracer I h (t M') /\ satellite_fraction I h (t M) = satellite_fraction I h (t M').
  Proof.
    intros M M' M1 alpha H t.
    assert (O : forall i, (i < d_nm h)%nat -> tot_int (t_hod (t M)) (d_m h i) = tot_int (t_hod (t M')) (d_m h i)).
    { intros i Hi. unfold tot_int, cen_int, satellite_occupation, nc, central_occupation, cut, h_central, t. simpl. unfold zehavi_co. specialize (H i Hi).
      destruct (Rltb (d_m h i) (pow10 M)) eqn:A, (Rltb (d_m h i) (pow10 M')) eqn:B; auto; [apply Rltb_spec in A; apply H in A; apply Rltb_spec in A; congruence|apply Rltb_spec in B; apply H in B; apply Rltb_spec in B; congruence]. }
    assert (D : mean_tracer_den I h (t M) = mean_tracer_den I h (t M')). { unfold mean_tracer_den, tint, tracer_mmin. simpl t_hod. cbv beta iota delta [cut h_sharp h_central h_inherent Zehavi05 poisson_hod h_kind h_flag andb orb]. apply mint_ext. intros i Hi. f_equal. exact (O i Hi). }
    split; [exact D|]. split.
    - unfold bias_effective_tracer. rewrite D. f_equal. unfold tint, tracer_mmin. simpl t_hod. cbv beta iota delta [cut h_sharp h_central h_inherent Zehavi05 poisson_hod h_kind h_flag andb orb]. apply mint_ext. intros i Hi. f_equal. f_equal. exact (O i Hi).
    - unfold satellite_fraction. rewrite D. f_equal.
  Qed.
  (** so only as many densities as there are tabulated masses (plus one) can be had by choosing M_min *)
  Theorem c146_finitely_many : forall M1 alpha, exists values, length values = S (d_nm h) /\ forall M, In (mean_tracer_den I h (mkTr (Zehavi05 false M M1 alpha) u rho lam)) values.
  Proof.
    intros M1 alpha. set (v := fun k => gs (d_nm h) (fun i => (d_m h i * (d_dndm h i * ((if (i <? k)%nat then 0 else 1) + zehavi_so M1 alpha (d_m h i)))) * node_weight I h i (ln (d_m h 0%nat)))).
    exists (map v (seq 0 (S (d_nm h)))). split; [rewrite map_length, seq_length; reflexivity|]. intros M.
    assert (K : forall n, (n <= d_nm h)%nat -> exists k, (k <= n)%nat /\ forall i, (i < n)%nat -> ((i < k)%nat <-> d_m h i < pow10 M)).
    { induction n as [|n IH]; intros Hn; [exists 0%nat; split; [lia|intros; lia]|]. destruct IH as (k & A & B); [lia|]. destruct (Rlt_le_dec (d_m h n) (pow10 M)) as [Q|Q].
      - exists (S n). split; [lia|]. intros i Hi. split; [|intros; lia]. intros _. destruct (Nat.eq_dec i n) as [->|]; auto. destruct G as (_ & _ & Inc). specialize (Inc i n ltac:(lia)). lra.
      - exists k. split; [lia|]. intros i Hi. destruct (Nat.eq_dec i n) as [->|]; [|apply B; lia]. split; [lia|lra]. }
    destruct (K (d_nm h) ltac:(lia)) as (k & A & B). apply in_map_iff. exists k. split; [|apply in_seq; lia].
    rewrite (den_sum_all I h u rho lam L G) by reflexivity. unfold v. apply gs_ext. intros i Hi. f_equal. f_equal. f_equal. unfold tot_int, cen_int, satellite_occupation, nc, central_occupation, cut, h_central. simpl. unfold zehavi_co. f_equal.
    specialize (B i Hi). destruct (Nat.ltb_spec i k) as [P|P], (Rltb (d_m h i) (pow10 M)) eqn:Q; auto.
    - apply B in P. apply Rltb_spec in P. congruence.
    - apply Rltb_spec in Q. apply B in Q. lia.
  Qed.

  (** without a sharp cut (Zheng05), and for Tinker05 - whose satellites vanish at M_min - the density is continuous in M_min *)
  Theorem c146_zheng_continuous : forall central M1 alpha M0 sig M, sig <> 0 -> continuous (fun M => mean_tracer_den I h (mkTr (Zheng05 central M M1 alpha M0 sig) u rho lam)) M.
  Proof.
    intros central M1 alpha M0 sig M Hs.
    apply (continuous_ext (fun M => gs (d_nm h) (fun i => (d_m h i * (d_dndm h i * total_occupation (Zheng05 central M M1 alpha M0 sig) (d_m h i))) * node_weight I h i (ln (d_m h 0%nat))))).
    { intros x. symmetry. apply (den_sum_all I h u rho lam L G). reflexivity. }
    apply (lim_gs (locally M) _ (d_nm h) (fun i M => (d_m h i * (d_dndm h i * total_occupation (Zheng05 central M M1 alpha M0 sig) (d_m h i))) * node_weight I h i (ln (d_m h 0%nat)))). intros i Hi.
    apply lim_mult; [typeclasses eauto| |apply filterlim_const]. apply lim_mult; [typeclasses eauto|apply filterlim_const|]. apply lim_mult; [typeclasses eauto|apply filterlim_const|].
    exact (proj1 (continuity_pt_filterlim (fun t => total_occupation (Zheng05 central t M1 alpha M0 sig) (d_m h i)) M) (zheng_total_cont central M1 alpha M0 sig (d_m h i) M Hs)).
  Qed.

  Hypothesis C : q_continuous I.
  Lemma tinker_factor : forall p, 0 < p -> forall t, continuous (fun t => if Rleb t 0 then 0 else exp (- p / t)) t.
  Proof.
    intros p Hp t. destruct (Rtotal_order t 0) as [N|[->|P]].
    - apply (continuous_ext_loc _ (fun _ => 0)); [|apply continuous_const]. exists (mkposreal (- t) ltac:(lra)). intros x Hx. unfold ball in Hx; simpl in Hx; unfold AbsRing_ball, abs, minus, plus, opp in Hx; simpl in Hx.
      replace (Rleb x 0) with true; auto. symmetry. apply Rleb_spec. unfold Rabs in Hx. destruct (Rcase_abs _) in Hx; lra.
    - unfold continuous. replace (Rleb 0 0) with true by (symmetry; apply Rleb_spec; lra). intros P [e He]. exists (mkposreal (e * p) ltac:(apply Rmult_lt_0_compat; [apply cond_pos|auto])). intros x Hx. apply He.
      unfold ball in *; simpl in *; unfold AbsRing_ball, abs, minus, plus, opp in *; simpl in *. destruct (Rleb x 0) eqn:E.
      + rewrite Ropp_0, Rplus_0_l, Rabs_R0. apply cond_pos.
      + apply Rleb_false in E. rewrite Ropp_0, Rplus_0_r in *. rewrite Rabs_pos_eq in Hx by lra. rewrite Rabs_pos_eq by (left; apply exp_pos).
        assert (Y : 1 + p / x < exp (p / x)) by (apply exp_ineq1; apply Rgt_not_eq; apply Rdiv_lt_0_compat; auto).
        replace (- p / x) with (- (p / x)) by (field; lra). rewrite exp_Ropp. assert (Q : 0 < p / x) by (apply Rdiv_lt_0_compat; auto).
        apply Rle_lt_trans with (/ (p / x)); [apply Rinv_le_contravar; lra|]. replace (/ (p / x)) with (x / p) by (field; lra). apply (Rmult_lt_reg_r p); auto. unfold Rdiv. rewrite Rmult_assoc, Rinv_l by lra. lra.
    - apply (continuous_ext_loc _ (fun x => exp (- p / x))).
      + exists (mkposreal t P). intros x Hx. unfold ball in Hx; simpl in Hx; unfold AbsRing_ball, abs, minus, plus, opp in Hx; simpl in Hx. replace (Rleb x 0) with false; auto. symmetry. apply Rleb_false. unfold Rabs in Hx. destruct (Rcase_abs _) in Hx; lra.
      + apply (ex_derive_continuous (K := R_AbsRing) (V := R_NormedModule)). auto_derive. lra.
  Qed.
  Theorem c146_tinker_continuous : forall central M1 Mcut M, continuous (fun M => mean_tracer_den I h (mkTr (Tinker05 central M M1 Mcut) u rho lam)) M.
  Proof.
    intros central M1 Mcut M. set (g := fun t => if Rleb t 0 then 0 else exp (- pow10 Mcut / t)).
    apply (continuous_ext (fun M => gs (d_nm h) (fun i => (d_m h i * (d_dndm h i * (1 + g (d_m h i - pow10 M) * (d_m h i / pow10 M1)))) * node_weight I h i (M * ln 10)))).
    { intros x. assert (E := den_sum_cut I h u rho lam L G (Tinker05 central x M1 Mcut)). rewrite E by (destruct central; reflexivity). apply gs_ext. intros i Hi. f_equal. f_equal. f_equal.
      unfold tot_int, cen_int. replace (cut (Tinker05 central x M1 Mcut)) with true by (destruct central; reflexivity). f_equal. unfold satellite_occupation. replace (h_central _ && negb (h_inherent (Tinker05 central x M1 Mcut))) with false by (destruct central; reflexivity).
      simpl h_so. unfold tinker_so, zehavi_co, g. f_equal. destruct (Rleb (d_m h i - pow10 x) 0) eqn:Q.
      - apply Rleb_spec in Q. destruct (Rltb (d_m h i) (pow10 x)) eqn:W; [ring|]. apply Rltb_false in W. replace (Reqb (d_m h i) (pow10 x)) with true by (symmetry; apply Reqb_spec; lra). ring.
      - apply Rleb_false in Q. replace (Rltb (d_m h i) (pow10 x)) with false by (symmetry; apply Rltb_false; lra). destruct (Reqb (d_m h i) (pow10 x)) eqn:W; [apply Reqb_spec in W; lra|]. ring. }
    apply (lim_gs (locally M) _ (d_nm h) (fun i M => (d_m h i * (d_dndm h i * (1 + g (d_m h i - pow10 M) * (d_m h i / pow10 M1)))) * node_weight I h i (M * ln 10))). intros i Hi.
    apply lim_mult; [typeclasses eauto| |apply (lower_lim I h C (locally M) M i); [typeclasses eauto|auto]].
    apply lim_mult; [typeclasses eauto|apply filterlim_const|]. apply lim_mult; [typeclasses eauto|apply filterlim_const|]. apply lim_plus; [typeclasses eauto|apply filterlim_const|]. apply lim_mult; [typeclasses eauto| |apply filterlim_const].
    apply (continuous_comp (fun M => d_m h i - pow10 M) g); [|apply tinker_factor; unfold pow10; apply exp_pos].
    apply (ex_derive_continuous (K := R_AbsRing) (V := R_NormedModule)). unfold pow10, Rpower. auto_derive. auto.
  Qed.
End Others.
Print Assumptions c146_steps.
Print Assumptions c146_finitely_many.
Print Assumptions c146_zheng_continuous.
Print Assumptions c146_tinker_continuous.

(** *** concrete: the tracer of the other examples (central condition, M_min = 12, masses 10^11, 10^12, 10^13) with a continuous, linear rule *)
Lemma step_quad_continuous : q_continuous step_quad.
Proof.
  intros x y b a. unfold step_quad. assert (S : forall x y t, continuous (stepF x y) t).
  { clear. induction x as [|a x IH]; intros y t; [apply continuous_const|]. destruct x as [|b x]; [apply continuous_const|]. destruct y as [|v y]; [apply continuous_const|].
    apply (continuous_ext (fun t => v * Rmax a (Rmin t b) + stepF (b :: x) y t)); [reflexivity|]. apply (continuous_plus (V := R_NormedModule)); [|apply IH].
    apply (continuous_scal_r (V := R_NormedModule) v (fun t => Rmax a (Rmin t b))). 
    apply (continuous_ext (fun t => / 2 * (a + (/ 2 * (t + b - Rabs (t - b))) + Rabs (a - / 2 * (t + b - Rabs (t - b)))))).
    - intros s. assert (E : / 2 * (s + b - Rabs (s - b)) = Rmin s b) by (unfold Rmin, Rabs; destruct (Rle_dec s b), (Rcase_abs (s - b)); lra). rewrite E. unfold Rmax, Rabs. destruct (Rle_dec a (Rmin s b)), (Rcase_abs (a - Rmin s b)); lra.
    - assert (A : continuous (fun t => / 2 * (t + b - Rabs (t - b))) t).
      { apply (continuous_scal_r (V := R_NormedModule) (/ 2) (fun t => t + b - Rabs (t - b))). apply (continuous_minus (V := R_NormedModule) (fun t => t + b) (fun t => Rabs (t - b))).
        - apply (ex_derive_continuous (K := R_AbsRing) (V := R_NormedModule)). auto_derive. auto.
        - apply (continuous_comp (fun t => t - b) Rabs); [|apply continuous_Rabs]. apply (ex_derive_continuous (K := R_AbsRing) (V := R_NormedModule)). auto_derive. auto. }
      apply (continuous_scal_r (V := R_NormedModule) (/ 2) (fun t => a + / 2 * (t + b - Rabs (t - b)) + Rabs (a - / 2 * (t + b - Rabs (t - b))))). apply (continuous_plus (V := R_NormedModule) (fun t => a + / 2 * (t + b - Rabs (t - b))) (fun t => Rabs (a - / 2 * (t + b - Rabs (t - b))))).
      + apply (continuous_plus (V := R_NormedModule) (fun _ => a)); [apply continuous_const|exact A].
      + apply (continuous_comp (fun t => a - / 2 * (t + b - Rabs (t - b))) Rabs); [|apply continuous_Rabs]. apply (continuous_minus (V := R_NormedModule) (fun _ => a)); [apply continuous_const|exact A]. }
  apply (continuous_minus (V := R_NormedModule) (fun _ => stepF x y b) (stepF x y)); [apply continuous_const|apply S].
Qed.
Example c146_discontinuous : ~ continuous (fun M => mean_tracer_den step_quad h0 (mkTr (Zehavi05 true M 13 1) (fun _ _ => 1) (fun _ _ => 1) None)) 12.
Proof.
  assert (E12 : pow10 12 = 10 ^ 12) by (unfold pow10; rewrite <- p10; f_equal; simpl; lra).
  destruct (c146_jump step_quad h0 (fun _ _ => 1) (fun _ _ => 1) None step_quad_linear step_quad_continuous h0_grid 13 1 12 1%nat ltac:(simpl; lia) ltac:(symmetry; exact E12)) as (_ & _ & Q).
  intros K. apply Q in K. revert K. apply Rgt_not_eq. apply Rmult_lt_0_compat.
  - apply Rmult_lt_0_compat; [|apply exp_pos]. apply Rmult_lt_0_compat; [apply h0_grid; simpl; lia|simpl; lra].
  - unfold node_weight. set (lm := fun i => ln (d_m h0 i)). assert (S0 : lm 0%nat < lm 1%nat) by (apply ln_increasing; apply h0_grid; simpl; lia). assert (S1 : lm 1%nat < lm 2%nat) by (apply ln_increasing; apply h0_grid; simpl; lia).
    assert (T := step3 lm (fun i => if (i =? 1)%nat then 1 else 0) ltac:(lra) ltac:(lra)). simpl in T.
    match goal with |- 0 < ?X => replace X with (1 * (lm 2%nat - lm 1%nat)); lra end.
Qed.

(** ** the 2-halo cross power: its documentation promises a result that varies smoothly with M_min *)
Definition weighted (h : dmhm) (w : nat -> R) : dmhm :=
  mkDM (d_nm h) (d_m h) (fun i => d_dndm h i * w i) (d_bias h) (d_dlog10m h) (d_nk h) (d_k h) (d_khm h) (d_power h) (d_phc h) (d_plin h) (d_hc h) (d_nr h) (d_r h) (d_ukm h) (d_lam h) (d_rho0 h) (d_rhoh h) (d_delta h)
       (d_turnover h) (d_unity h) (d_noexcl h) (d_sd h).
(** finding: with a Zehavi05 tracer under the central condition, the cross power at a tabulated wavenumber times the density of that tracer jumps as M_min passes a tabulated mass *)
Theorem c146_cross_jump : forall I sp us h h2 u rho lam t2 M1 alpha M0 j ik (P : R -> R -> R), q_linear I -> q_continuous I -> interpolates (sp 3%nat) -> grid (d_nm h) (d_m h) -> grid (d_nk h) (d_k h) -> (ik < d_nk h)%nat ->
  (0 < j < d_nm h)%nat -> d_m h j = pow10 M0 -> let t := fun M => mkTr (Zehavi05 true M M1 alpha) u rho lam in
  (forall M, power_2h_cross I sp us h h2 (t M) t2 = Ok (P M)) -> (forall M, mean_tracer_den I h (t M) <> 0) ->
  let other := b_cross I h2 t2 ik * d_phc h (d_k h ik) / mean_tracer_den I h2 t2 in
  let jump := d_m h j * d_dndm h j * d_bias h j * u ik j * Rpower (d_m h j / pow10 M1) alpha * node_weight I h j (ln (d_m h j)) * other in
  let Q := fun M => P M (d_k h ik) * mean_tracer_den I h (t M) in
  filterlim Q (at_left M0) (locally (Q M0)) /\ filterlim Q (at_right M0) (locally (Q M0 - jump)).
Proof.
  intros I sp us h h2 u rho lam t2 M1 alpha M0 j ik P L C Hs GM GK Hk Hj E t HP HN other jump Q.
  set (h' := weighted h (fun i => d_bias h i * u ik i)).
  assert (B : forall M, d_m h 0%nat < pow10 M -> Q M = mean_tracer_den I h' (t M) * other).
  { intros M HM. unfold Q. rewrite (efun_node _ _ _ _ _ _ _ _ _ _ Hs GK Hk (HP M)). unfold p2h_cross. rewrite (b_is_tint I h (t M) ik GM eq_refl HM).
    replace (mean_tracer_den I h' (t M)) with (tint I h (t M) (fun im => d_dndm h im * tot_int (t_hod (t M)) (d_m h im) * d_bias h im * t_ukm (t M) ik im)).
    - unfold other, Rdiv. rewrite Rinv_mult. specialize (HN M). transitivity (tint I h (t M) (fun im => d_dndm h im * tot_int (t_hod (t M)) (d_m h im) * d_bias h im * t_ukm (t M) ik im) * b_cross I h2 t2 ik * d_phc h (d_k h ik) * / mean_tracer_den I h2 t2 * (/ mean_tracer_den I h (t M) * mean_tracer_den I h (t M))); [ring|]. rewrite Rinv_l by auto. ring.
    - unfold mean_tracer_den, tint. unfold mint. simpl d_nm. simpl d_m. f_equal. f_equal. apply tab_ext. intros i Hi. simpl d_dndm. simpl t_ukm. ring. }
  destruct (c146_jump I h' u rho lam L C GM M1 alpha M0 j (proj2 Hj) E) as (HL & HR & _). simpl d_m in HR. simpl d_dndm in HR.
  assert (LOW : locally M0 (fun M => d_m h 0%nat < pow10 M)).
  { assert (K : d_m h 0%nat < pow10 M0) by (rewrite <- E; apply GM; lia). assert (Z : 0 < d_m h 0%nat) by (apply GM; lia). assert (K2 := proj1 (lt_log (d_m h 0%nat) M0 Z) K). exists (mkposreal (M0 - log10 (d_m h 0%nat)) ltac:(lra)).
    intros M HM. unfold ball in HM; simpl in HM; unfold AbsRing_ball, abs, minus, plus, opp in HM; simpl in HM. apply lt_log; auto. unfold Rabs in HM. destruct (Rcase_abs _) in HM; lra. }
  assert (Q0 : Q M0 = mean_tracer_den I h' (t M0) * other) by (apply B; apply (locally_singleton _ _ LOW)).
  split.
  - rewrite Q0. apply (filterlim_ext_loc (fun M => mean_tracer_den I h' (t M) * other)); [unfold at_left, within; generalize LOW; apply filter_imp; intros M HM _; symmetry; apply B; auto|]. apply lim_mult; [typeclasses eauto|exact HL|apply filterlim_const].
  - replace (Q M0 - jump) with ((mean_tracer_den I h' (t M0) - d_m h j * (d_dndm h j * (d_bias h j * u ik j)) * Rpower (d_m h j / pow10 M1) alpha * node_weight I h' j (ln (d_m h j))) * other) by (rewrite Q0; unfold jump; change (node_weight I h' j) with (node_weight I h j); ring).
    apply (filterlim_ext_loc (fun M => mean_tracer_den I h' (t M) * other)); [unfold at_right, within; generalize LOW; apply filter_imp; intros M HM _; symmetry; apply B; auto|]. apply lim_mult; [typeclasses eauto|exact HR|apply filterlim_const].
Qed.
Print Assumptions c146_cross_jump.
