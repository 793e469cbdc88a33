(** How the occupations respond to their parameters (C128). *)
From Coq Require Import Reals Bool Lra Lia.
From Coquelicot Require Import Coquelicot.
From Verif Require Import Model.RBool Model.SpecialFn Model.HOD Spec.HODParamSpec Proofs.Erf Proofs.HODProofs.
Local Open Scope R_scope.

Lemma fewer_poisson : forall h' h m t, h_kind h' = Poisson -> h_kind h = Poisson -> h_flag h' = h_flag h -> h_inherent h' = h_inherent h ->
  h_tpc h' m = t -> h_tpc h m = t -> 0 < t -> 0 <= h_co h' m <= h_co h m -> 0 <= h_so h' m <= h_so h m -> fewer h' h m.
Proof.
  intros h' h m t K' K F I T' T Ht C S. assert (It : 0 < / t) by (apply Rinv_0_lt_compat; auto).
  assert (SO : 0 <= satellite_occupation h' m <= satellite_occupation h m).
  { unfold satellite_occupation, h_central, nc, central_occupation. rewrite K', K, F, I, T', T. destruct (h_flag h && negb (h_inherent h)); auto.
    assert (0 <= h_co h' m / t <= h_co h m / t) by (unfold Rdiv; split; [apply Rmult_le_pos; lra|apply Rmult_le_compat_r; lra]).
    split; [apply Rmult_le_pos; lra|apply Rmult_le_compat; lra]. }
  assert (CO : central_occupation h' m = h_co h' m /\ central_occupation h m = h_co h m) by (unfold central_occupation; rewrite K', K; auto). destruct CO as [C1 C2].
  unfold fewer. unfold total_occupation, ss_pairs, cs_pairs, h_central. rewrite K', K, F, T', T, C1, C2. repeat split; try lra.
  - apply pow_incr. lra.
  - destruct (h_flag h); [apply Rmult_le_compat_r; lra|apply Rmult_le_compat; lra].
Qed.
Lemma fewer_bulk : forall h' h m, h_kind h' = Bulk -> h_kind h = Bulk -> 0 <= h_so h' m <= h_so h m -> fewer h' h m.
Proof.
  intros h' h m K' K S. unfold fewer, total_occupation, ss_pairs, cs_pairs, satellite_occupation, central_occupation, h_central. rewrite K', K. cbn [andb].
  repeat split; try lra. apply pow_incr. lra.
Qed.
Ltac poisson t := apply (fewer_poisson _ _ _ t); try reflexivity; try lra.

Lemma rp_nonneg : forall a b, 0 <= Rpower a b. Proof. intros. left. apply exp_pos. Qed.
Lemma rp_base_le : forall a b x, 0 < a <= b -> 0 <= x -> Rpower a x <= Rpower b x.
Proof. intros. apply Rle_Rpower_l; auto. Qed.
Lemma div_pow10_le : forall m M M', 0 < m -> M <= M' -> 0 < m / pow10 M' <= m / pow10 M.
Proof.
  intros m M M' Hm H. pose proof (pow10_pos M). pose proof (pow10_pos M'). pose proof (pow10_mono M M' H). unfold Rdiv.
  split; [apply Rmult_lt_0_compat; auto; apply Rinv_0_lt_compat; auto|]. apply Rmult_le_compat_l; [lra|]. apply Rinv_le_contravar; auto.
Qed.
Lemma rp_exp_le : forall a x y, 1 <= a -> x <= y -> Rpower a x <= Rpower a y.
Proof. intros a x y Ha H. unfold Rpower. assert (0 <= ln a). { rewrite <- ln_1. destruct Ha as [Ha| <-]; [left; apply ln_increasing; lra|lra]. } assert (x * ln a <= y * ln a) by (apply Rmult_le_compat_r; auto). destruct H1 as [H1| ->]; [left; apply exp_increasing; auto|lra]. Qed.
Lemma rp_exp_ge : forall a x y, 0 < a <= 1 -> x <= y -> Rpower a y <= Rpower a x.
Proof. intros a x y [Ha Hb] H. unfold Rpower. assert (ln a <= 0). { rewrite <- ln_1. destruct Hb as [Hb| ->]; [left; apply ln_increasing; lra|lra]. } assert (y * ln a <= x * ln a) by nra. destruct H1 as [H1| ->]; [left; apply exp_increasing; auto|lra]. Qed.

Lemma zehavi_co_Mmin : forall M M' m, M <= M' -> 0 <= zehavi_co M' m <= zehavi_co M m.
Proof.
  intros. unfold zehavi_co. pose proof (pow10_mono M M' H). destruct (Rltb m (pow10 M')) eqn:E', (Rltb m (pow10 M)) eqn:E; try lra.
  apply Rltb_spec in E. apply Rltb_false in E'. lra.
Qed.
Lemma withmax_co_mono : forall M M' N N' m, M <= M' -> N' <= N -> 0 <= withmax_co M' N' m <= withmax_co M N m.
Proof.
  intros. unfold withmax_co. pose proof (pow10_mono M M' H). pose proof (pow10_mono N' N H0).
  destruct (Rleb (pow10 M') m && Rleb m (pow10 N')) eqn:E', (Rleb (pow10 M) m && Rleb m (pow10 N)) eqn:E; try lra.
  exfalso. rewrite andb_true_iff, !Rleb_spec in E'. apply andb_false_iff in E. rewrite !Rleb_false in E. lra.
Qed.
Lemma zheng_co_arg : forall M s M' s' m, (log10 m - M') / s' <= (log10 m - M) / s -> 0 <= zheng_co M' s' m <= zheng_co M s m.
Proof.
  intros M s M' s' m H. pose proof (zheng_range M' s' m). split; [lra|]. unfold zheng_co.
  assert (erf ((log10 m - M') / s') <= erf ((log10 m - M) / s)). { destruct H as [H| ->]; [left; apply erf_incr; auto|lra]. } lra.
Qed.
Lemma zheng_so_nonneg : forall M1 a M0 m, 0 <= zheng_so M1 a M0 m.
Proof. intros. unfold zheng_so. destruct (Rltb _ _); [apply rp_nonneg|lra]. Qed.
Lemma zehavi_so_nonneg : forall M1 a m, 0 <= zehavi_so M1 a m.
Proof. intros. apply rp_nonneg. Qed.
Lemma zehavi_so_M1 : forall M1 M1' a m, 0 < m -> M1 <= M1' -> 0 <= a -> 0 <= zehavi_so M1' a m <= zehavi_so M1 a m.
Proof. intros. split; [apply zehavi_so_nonneg|]. apply rp_base_le; auto. apply div_pow10_le; auto. Qed.
Lemma zehavi_so_up : forall M1 a a' m, pow10 M1 <= m -> a <= a' -> 0 <= zehavi_so M1 a m <= zehavi_so M1 a' m.
Proof.
  intros. split; [apply zehavi_so_nonneg|]. apply rp_exp_le; auto. pose proof (pow10_pos M1). apply Rmult_le_reg_r with (pow10 M1); auto. unfold Rdiv. rewrite Rmult_assoc, Rinv_l by lra. lra.
Qed.
Lemma zehavi_so_down : forall M1 a a' m, 0 < m <= pow10 M1 -> a <= a' -> 0 <= zehavi_so M1 a' m <= zehavi_so M1 a m.
Proof.
  intros. split; [apply zehavi_so_nonneg|]. apply rp_exp_ge; auto. pose proof (pow10_pos M1). split; [apply Rdiv_lt_0_compat; lra|]. apply Rmult_le_reg_r with (pow10 M1); auto. unfold Rdiv. rewrite Rmult_assoc, Rinv_l by lra. lra.
Qed.

(** C128: a higher minimum mass puts no more into any halo: every threshold model but Contreras13/Geach12 *)
Theorem c128_raise_Mmin : forall fl M M' M1 a M0 s Mcut Mmax A sA m, M <= M' -> 0 < s -> 0 < m ->
  fewer (Zehavi05 fl M' M1 a) (Zehavi05 fl M M1 a) m /\
  fewer (Zheng05 fl M' M1 a M0 s) (Zheng05 fl M M1 a M0 s) m /\
  fewer (Tinker05 fl M' M1 Mcut) (Tinker05 fl M M1 Mcut) m /\
  fewer (Zehavi05WithMax fl M' M1 a Mmax) (Zehavi05WithMax fl M M1 a Mmax) m /\
  fewer (Zehavi05Marked fl M' M1 A a Mmax) (Zehavi05Marked fl M M1 A a Mmax) m /\
  fewer (ContinuousPowerLaw fl M' M1 A a Mmax sA) (ContinuousPowerLaw fl M M1 A a Mmax sA) m /\
  fewer (ConstantHOD fl A M' sA) (ConstantHOD fl A M sA) m.
Proof.
  intros fl M M' M1 a M0 s Mcut Mmax A sA m H Hs Hm. pose proof (pow10_pos A) as PA.
  split; [|split; [|split; [|split; [|split; [|split]]]]].
  - poisson 1; simpl. apply zehavi_co_Mmin; auto. split; [apply zehavi_so_nonneg|lra].
  - poisson 1; simpl. apply zheng_co_arg. unfold Rdiv. apply Rmult_le_compat_r; [left; apply Rinv_0_lt_compat; auto|lra]. split; [apply zheng_so_nonneg|lra].
  - poisson 1; simpl. apply zehavi_co_Mmin; auto. split; [apply tinker_so_nonneg; auto|].
    unfold tinker_so. assert (D : 0 < m / pow10 M1) by (apply Rdiv_lt_0_compat; auto; apply pow10_pos). apply Rmult_le_compat_r; [lra|].
    pose proof (zehavi_co_Mmin M M' m H) as Z. pose proof (pow10_mono M M' H) as PM.
    destruct (zehavi_co_01 M' m) as [E|E]; rewrite E in *.
    + rewrite Rmult_0_l. apply Rmult_le_pos; [lra|]. destruct (Reqb _ _); [lra|left; apply exp_pos].
    + assert (E1 : zehavi_co M m = 1) by (destruct (zehavi_co_01 M m); lra). rewrite E1, !Rmult_1_l.
      unfold zehavi_co in E. destruct (Rltb m (pow10 M')) eqn:L; [lra|]. apply Rltb_false in L.
      destruct (Reqb m (pow10 M')) eqn:Q; [destruct (Reqb m (pow10 M)); [lra|left; apply exp_pos]|]. apply Reqb_false in Q.
      destruct (Reqb m (pow10 M)) eqn:Q'; [apply Reqb_spec in Q'; lra|]. apply Reqb_false in Q'.
      assert (X : - pow10 Mcut / (m - pow10 M') <= - pow10 Mcut / (m - pow10 M)).
      { unfold Rdiv. pose proof (pow10_pos Mcut). assert (/ (m - pow10 M) <= / (m - pow10 M')) by (apply Rinv_le_contravar; lra). nra. }
      destruct X as [X| ->]; [left; apply exp_increasing; auto|lra].
  - poisson 1; simpl. apply withmax_co_mono; lra. split; [apply zehavi_so_nonneg|lra].
  - poisson (pow10 A); simpl; unfold marked_tpc.
    + pose proof (withmax_co_mono M M' Mmax Mmax m H ltac:(lra)). split; [apply Rmult_le_pos; lra|apply Rmult_le_compat_r; lra].
    + pose proof (zehavi_so_nonneg M1 a m). split; [apply Rmult_le_pos; lra|lra].
  - apply fewer_bulk; try reflexivity. simpl. unfold cpl_so. pose proof (rp_nonneg (m / pow10 M1) a). assert (0 <= pow10 A * (Rpower (m / pow10 M1) a + 1)) by (apply Rmult_le_pos; lra).
    pose proof (pow10_mono M M' H). destruct (Rleb (pow10 M') m && _) eqn:E', (Rleb (pow10 M) m && _) eqn:E; try lra.
    exfalso. rewrite andb_true_iff, !Rleb_spec in E'. apply andb_false_iff in E. rewrite !Rleb_false in E. lra.
  - apply fewer_bulk; try reflexivity. simpl. unfold constant_so. pose proof (pow10_mono M M' H).
    destruct (Rltb (pow10 M') m) eqn:E', (Rltb (pow10 M) m) eqn:E; try lra. apply Rltb_spec in E'. apply Rltb_false in E. lra.
Qed.
Print Assumptions c128_raise_Mmin.

(** ... but Contreras13 and Geach12 have a Gaussian bump that moves with M_min: with fca = 0 a higher M_min gives more centrals to
    every halo above both *)
Theorem c128_contreras_Mmin_refuted : forall fl M M' M1 a M0 s fcb fs d x m, M < M' -> 0 < s -> 0 < x -> 0 < fcb -> pow10 M' <= m ->
  central_occupation (Contreras13 fl M M1 a M0 s 0 fcb fs d x) m < central_occupation (Contreras13 fl M' M1 a M0 s 0 fcb fs d x) m.
Proof.
  intros fl M M' M1 a M0 s fcb fs d x m H Hs Hx Hf Hm. cbn [central_occupation Contreras13 poisson_hod h_kind h_co]. unfold contreras_co.
  assert (P : 0 < m) by (pose proof (pow10_pos M'); lra). rewrite !log10_div by auto. rewrite !Rmult_0_l, !Rplus_0_r.
  assert (L : M' <= log10 m) by (rewrite <- (log10_pow10 M'); apply log10_mono; auto; apply pow10_pos).
  apply Rmult_lt_compat_l; [lra|]. apply exp_increasing. unfold Rdiv. apply Rmult_lt_compat_r.
  - apply Rinv_0_lt_compat. assert (0 < x * s) by (apply Rmult_lt_0_compat; auto). nra.
  - nra.
Qed.
Print Assumptions c128_contreras_Mmin_refuted.

(** a higher M_1 puts no more into any halo, in every model (slopes not negative) *)
Theorem c128_raise_M1 : forall fl M M1 M1' a M0 s Mcut Mmax A sA fca fcb fs d x m, M1 <= M1' -> 0 <= a -> 0 < m -> 0 <= fs -> 0 < d ->
  0 <= contreras_co M s fca fcb x m ->
  fewer (Zehavi05 fl M M1' a) (Zehavi05 fl M M1 a) m /\
  fewer (Zheng05 fl M M1' a M0 s) (Zheng05 fl M M1 a M0 s) m /\
  fewer (Contreras13 fl M M1' a M0 s fca fcb fs d x) (Contreras13 fl M M1 a M0 s fca fcb fs d x) m /\
  fewer (Tinker05 fl M M1' Mcut) (Tinker05 fl M M1 Mcut) m /\
  fewer (Zehavi05WithMax fl M M1' a Mmax) (Zehavi05WithMax fl M M1 a Mmax) m /\
  fewer (Zehavi05Marked fl M M1' A a Mmax) (Zehavi05Marked fl M M1 A a Mmax) m /\
  fewer (ContinuousPowerLaw fl M M1' A a Mmax sA) (ContinuousPowerLaw fl M M1 A a Mmax sA) m.
Proof.
  intros fl M M1 M1' a M0 s Mcut Mmax A sA fca fcb fs d x m H Ha Hm Hfs Hd HC. pose proof (pow10_pos A) as PA.
  pose proof (zehavi_so_M1 M1 M1' a m Hm H Ha) as Z. assert (ZC := zehavi_co_Mmin M M m ltac:(lra)). assert (WC := withmax_co_mono M M Mmax Mmax m ltac:(lra) ltac:(lra)).
  split; [|split; [|split; [|split; [|split; [|split]]]]].
  - poisson 1; simpl; lra.
  - poisson 1; simpl; [pose proof (zheng_range M s m); lra|]. split; [apply zheng_so_nonneg|]. unfold zheng_so. destruct (Rltb (pow10 M0) m) eqn:E; [|lra].
    apply Rltb_spec in E. apply rp_base_le; auto. apply div_pow10_le; auto. lra.
  - poisson 1; simpl; [lra|]. unfold contreras_so. pose proof (erf1_pos (log10 (m / pow10 M1') / d)).
    assert (X : erf (log10 (m / pow10 M1') / d) <= erf (log10 (m / pow10 M1) / d)).
    { assert (Y : log10 (m / pow10 M1') / d <= log10 (m / pow10 M1) / d). { rewrite !log10_div by auto. unfold Rdiv. apply Rmult_le_compat_r; [left; apply Rinv_0_lt_compat; auto|lra]. }
      destruct Y as [Y| ->]; [left; apply erf_incr; auto|lra]. }
    unfold zehavi_so in Z. split; [apply Rmult_le_pos; [apply Rmult_le_pos; lra|lra]|]. apply Rmult_le_compat; try lra; [apply Rmult_le_pos; lra|apply Rmult_le_compat_l; lra].
  - poisson 1; simpl; [lra|]. split; [apply tinker_so_nonneg; auto|]. unfold tinker_so. apply Rmult_le_compat_l; [|apply div_pow10_le; auto].
    apply Rmult_le_pos; [lra|]. destruct (Reqb _ _); [lra|left; apply exp_pos].
  - poisson 1; simpl; lra.
  - poisson (pow10 A); simpl; unfold marked_tpc. split; [apply Rmult_le_pos; lra|lra]. split; [apply Rmult_le_pos; lra|apply Rmult_le_compat_r; lra].
  - apply fewer_bulk; try reflexivity. simpl. unfold cpl_so. unfold zehavi_so in Z. destruct (_ && _); [|lra]. split; [apply Rmult_le_pos; lra|apply Rmult_le_compat_l; lra].
Qed.
Print Assumptions c128_raise_M1.

(** the other mass scales: M_0 (Zheng05) and M_cut (Tinker05) reduce, M_max extends *)
Theorem c128_raise_other_masses : forall fl M M1 a M0 M0' s Mcut Mcut' Mmax Mmax' A sA m, M0 <= M0' -> Mcut <= Mcut' -> Mmax' <= Mmax -> 0 <= a -> 0 < m ->
  fewer (Zheng05 fl M M1 a M0' s) (Zheng05 fl M M1 a M0 s) m /\
  fewer (Tinker05 fl M M1 Mcut') (Tinker05 fl M M1 Mcut) m /\
  fewer (Zehavi05WithMax fl M M1 a Mmax') (Zehavi05WithMax fl M M1 a Mmax) m /\
  fewer (Zehavi05Marked fl M M1 A a Mmax') (Zehavi05Marked fl M M1 A a Mmax) m /\
  fewer (ContinuousPowerLaw fl M M1 A a Mmax' sA) (ContinuousPowerLaw fl M M1 A a Mmax sA) m.
Proof.
  intros fl M M1 a M0 M0' s Mcut Mcut' Mmax Mmax' A sA m H0 Hc Hx Ha Hm. pose proof (pow10_pos A) as PA.
  split; [|split; [|split; [|split]]].
  - poisson 1; simpl; [pose proof (zheng_range M s m); lra|]. split; [apply zheng_so_nonneg|]. pose proof (zheng_so_nonneg M1 a M0 m). unfold zheng_so in *. pose proof (pow10_mono M0 M0' H0).
    destruct (Rltb (pow10 M0') m) eqn:E; [|lra]. apply Rltb_spec in E. rewrite (proj2 (Rltb_spec _ _)) by lra.
    apply rp_base_le; auto. pose proof (pow10_pos M1). assert (0 < / pow10 M1) by (apply Rinv_0_lt_compat; auto). unfold Rdiv. split; [apply Rmult_lt_0_compat; lra|apply Rmult_le_compat_r; lra].
  - poisson 1; simpl; [apply zehavi_co_Mmin; lra|]. split; [apply tinker_so_nonneg; auto|]. unfold tinker_so. apply Rmult_le_compat_r; [left; apply Rdiv_lt_0_compat; auto; apply pow10_pos|].
    destruct (zehavi_co_01 M m) as [E|E]; rewrite E; [lra|]. apply Rmult_le_compat_l; [lra|].
    unfold zehavi_co in E. destruct (Rltb m (pow10 M)) eqn:L; [lra|]. apply Rltb_false in L. destruct (Reqb m (pow10 M)) eqn:Q; [lra|]. apply Reqb_false in Q.
    assert (X : - pow10 Mcut' / (m - pow10 M) <= - pow10 Mcut / (m - pow10 M)). { unfold Rdiv. pose proof (pow10_mono _ _ Hc). apply Rmult_le_compat_r; [left; apply Rinv_0_lt_compat; lra|lra]. }
    destruct X as [X| ->]; [left; apply exp_increasing; auto|lra].
  - poisson 1; simpl; [apply withmax_co_mono; lra|]. split; [apply zehavi_so_nonneg|lra].
  - poisson (pow10 A); simpl; unfold marked_tpc.
    + pose proof (withmax_co_mono M M Mmax Mmax' m ltac:(lra) Hx). split; [apply Rmult_le_pos; lra|apply Rmult_le_compat_r; lra].
    + pose proof (zehavi_so_nonneg M1 a m). split; [apply Rmult_le_pos; lra|lra].
  - apply fewer_bulk; try reflexivity. simpl. unfold cpl_so. pose proof (rp_nonneg (m / pow10 M1) a). assert (0 <= pow10 A * (Rpower (m / pow10 M1) a + 1)) by (apply Rmult_le_pos; lra).
    pose proof (pow10_mono Mmax' Mmax Hx). destruct (Rleb (pow10 M) m && Rleb m (pow10 Mmax')) eqn:E', (Rleb (pow10 M) m && Rleb m (pow10 Mmax)) eqn:E; try lra.
    exfalso. rewrite andb_true_iff, !Rleb_spec in E'. apply andb_false_iff in E. rewrite !Rleb_false in E. lra.
Qed.
Print Assumptions c128_raise_other_masses.

(** a steeper slope: no fewer above the pivot mass, no more below it *)
Theorem c128_raise_alpha : forall fl M M1 a a' Mmax A sA m, a <= a' -> 0 < m ->
  (pow10 M1 <= m -> fewer (Zehavi05 fl M M1 a) (Zehavi05 fl M M1 a') m /\ fewer (Zehavi05WithMax fl M M1 a Mmax) (Zehavi05WithMax fl M M1 a' Mmax) m /\
     fewer (Zehavi05Marked fl M M1 A a Mmax) (Zehavi05Marked fl M M1 A a' Mmax) m /\ fewer (ContinuousPowerLaw fl M M1 A a Mmax sA) (ContinuousPowerLaw fl M M1 A a' Mmax sA) m) /\
  (m <= pow10 M1 -> fewer (Zehavi05 fl M M1 a') (Zehavi05 fl M M1 a) m /\ fewer (Zehavi05WithMax fl M M1 a' Mmax) (Zehavi05WithMax fl M M1 a Mmax) m /\
     fewer (Zehavi05Marked fl M M1 A a' Mmax) (Zehavi05Marked fl M M1 A a Mmax) m /\ fewer (ContinuousPowerLaw fl M M1 A a' Mmax sA) (ContinuousPowerLaw fl M M1 A a Mmax sA) m).
Proof.
  assert (G : forall fl M M1 a a' Mmax A sA m, zehavi_so M1 a m <= zehavi_so M1 a' m ->
    fewer (Zehavi05 fl M M1 a) (Zehavi05 fl M M1 a') m /\ fewer (Zehavi05WithMax fl M M1 a Mmax) (Zehavi05WithMax fl M M1 a' Mmax) m /\
     fewer (Zehavi05Marked fl M M1 A a Mmax) (Zehavi05Marked fl M M1 A a' Mmax) m /\ fewer (ContinuousPowerLaw fl M M1 A a Mmax sA) (ContinuousPowerLaw fl M M1 A a' Mmax sA) m).
  { intros fl M M1 a a' Mmax A sA m H. pose proof (zehavi_so_nonneg M1 a m). pose proof (pow10_pos A).
    assert (ZC := zehavi_co_Mmin M M m ltac:(lra)). assert (WC := withmax_co_mono M M Mmax Mmax m ltac:(lra) ltac:(lra)).
    split; [poisson 1; simpl; lra|]. split; [poisson 1; simpl; lra|]. split.
    - poisson (pow10 A); simpl; unfold marked_tpc. split; [apply Rmult_le_pos; lra|lra]. split; [apply Rmult_le_pos; lra|apply Rmult_le_compat_r; lra].
    - apply fewer_bulk; try reflexivity. simpl. unfold cpl_so. unfold zehavi_so in *. destruct (_ && _); [|lra]. split; [apply Rmult_le_pos; lra|apply Rmult_le_compat_l; lra]. }
  intros fl M M1 a a' Mmax A sA m H Hm. split; intros P; apply G; [apply zehavi_so_up; auto|apply zehavi_so_down; auto].
Qed.
Print Assumptions c128_raise_alpha.
(** Zheng05's pivot is 10**M_0 + 10**M_1 *)
Theorem c128_raise_alpha_zheng : forall fl M M1 a a' M0 s m, a <= a' -> 0 < m ->
  (pow10 M0 + pow10 M1 <= m -> fewer (Zheng05 fl M M1 a M0 s) (Zheng05 fl M M1 a' M0 s) m) /\
  (m <= pow10 M0 + pow10 M1 -> fewer (Zheng05 fl M M1 a' M0 s) (Zheng05 fl M M1 a M0 s) m).
Proof.
  intros fl M M1 a a' M0 s m H Hm. pose proof (pow10_pos M1). pose proof (pow10_pos M0). pose proof (zheng_range M s m).
  split; intros P; poisson 1; simpl; try lra; (split; [apply zheng_so_nonneg|]); unfold zheng_so; destruct (Rltb (pow10 M0) m) eqn:E; try lra; apply Rltb_spec in E.
  - apply rp_exp_le; auto. apply Rmult_le_reg_r with (pow10 M1); auto. unfold Rdiv. rewrite Rmult_assoc, Rinv_l by lra. lra.
  - apply rp_exp_ge; auto. split; [apply Rdiv_lt_0_compat; lra|]. apply Rmult_le_reg_r with (pow10 M1); auto. unfold Rdiv. rewrite Rmult_assoc, Rinv_l by lra. lra.
Qed.
Print Assumptions c128_raise_alpha_zheng.

(** a wider scatter in Zheng05: no fewer below M_min, no more above *)
Theorem c128_raise_scatter : forall fl M M1 a M0 s s' m, 0 < s <= s' -> 0 < m ->
  (m <= pow10 M -> fewer (Zheng05 fl M M1 a M0 s) (Zheng05 fl M M1 a M0 s') m) /\
  (pow10 M <= m -> fewer (Zheng05 fl M M1 a M0 s') (Zheng05 fl M M1 a M0 s) m).
Proof.
  intros fl M M1 a M0 s s' m [Hs H] Hm. assert (I : 0 < / s' <= / s) by (split; [apply Rinv_0_lt_compat; lra|apply Rinv_le_contravar; lra]).
  pose proof (zheng_so_nonneg M1 a M0 m). split; intros P; poisson 1; simpl; try lra; apply zheng_co_arg.
  - assert (log10 m <= M) by (rewrite <- (log10_pow10 M); apply log10_mono; auto). unfold Rdiv. nra.
  - assert (M <= log10 m) by (rewrite <- (log10_pow10 M); apply log10_mono; auto; apply pow10_pos). unfold Rdiv. nra.
Qed.
Print Assumptions c128_raise_scatter.

(** the amplitude logA scales the tracer amounts by a power of ten, whatever the halo mass *)
Theorem c128_amplitude : forall fl M M1 a Mmax A e sA m,
  (let h' := Zehavi05Marked fl M M1 (A + e) a Mmax in let h := Zehavi05Marked fl M M1 A a Mmax in
   total_occupation h' m = pow10 e * total_occupation h m /\ ss_pairs h' m = pow10 e ^ 2 * ss_pairs h m /\ cs_pairs h' m = pow10 e ^ 2 * cs_pairs h m /\
   nc h' m = nc h m /\ ns h' m = ns h m) /\
  (let h' := ContinuousPowerLaw fl M M1 (A + e) a Mmax sA in let h := ContinuousPowerLaw fl M M1 A a Mmax sA in total_occupation h' m = pow10 e * total_occupation h m) /\
  (let h' := ConstantHOD fl (A + e) M sA in let h := ConstantHOD fl A M sA in total_occupation h' m = pow10 e * total_occupation h m).
Proof.
  intros fl M M1 a Mmax A e sA m. assert (P : pow10 (A + e) = pow10 A * pow10 e) by (unfold pow10; apply Rpower_plus). pose proof (pow10_pos A). pose proof (pow10_pos e).
  split; [|split].
  - unfold total_occupation, ss_pairs, cs_pairs, ns, nc, satellite_occupation, nc, central_occupation, h_central. simpl. unfold marked_tpc. rewrite P. rewrite andb_true_r.
    destruct fl; repeat split; field; lra.
  - unfold total_occupation, satellite_occupation, central_occupation, h_central. simpl. unfold cpl_so. rewrite P. destruct (_ && _); ring.
  - unfold total_occupation, satellite_occupation, central_occupation, h_central. simpl. unfold constant_so. rewrite P. destruct (Rltb _ _); ring.
Qed.
Print Assumptions c128_amplitude.

(** *** the hypotheses are met: fiducial-like parameters, a halo of 10**13 *)
Example params_ok : 11.6222 <= 12 /\ 12.851 <= 13 /\ 0 <= 1.049 /\ 0 < pow10 13 /\ 0 < 0.26 /\ 0 <= contreras_co 11.6222 0.26 0.5 0 1 (pow10 13).
Proof. repeat split; try lra; try apply pow10_pos. rewrite contreras_fcb0. pose proof (erf1_pos (log10 (pow10 13 / pow10 11.6222) / 1 / 0.26)). lra. Qed.
