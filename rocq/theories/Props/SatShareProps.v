(** C159: what moves the satellite fraction, and where the satellites sit. *)
From Coq Require Import String Reals Lra Lia Bool Psatz List Arith.
From Coquelicot Require Import Coquelicot.
From Verif Require Import Model.RBool Model.SpecialFn Model.Profiles Model.SplineInt Model.ExtSpline Model.Quad Model.Exclusion Model.HOD Model.HaloModel.
From Verif Require Import Spec.HMSpec Proofs.Calc Proofs.Erf Proofs.HODProofs Proofs.HMProofs Props.HODProps Props.HaloModelProps Props.HaloModelProps2 Props.FourierPairHMProps Props.HMTotalProps Props.CompositeProps Props.SampleOrderProps.
Import ListNotations.
Local Open Scope R_scope.

(** [g] is the satellite share of the HOD on the grid: satellites over all galaxies of a halo *)
Definition satellite_share (h : dmhm) (hd : hod) (g : nat -> R) : Prop :=
  forall i, (i < d_nm h)%nat -> satellite_occupation hd (d_m h i) = g i * integrated hd (d_m h i).

(** ** two samples *)
Section Two.
  Variables (I : quadrature) (h : dmhm) (t1 t2 : tracer).
  Hypothesis LI : q_linear I.
  Hypothesis PI_ : q_positive I.
  Hypothesis GM : grid (d_nm h) (d_m h).
  Hypothesis SAME : tracer_mmin (t_hod t1) = tracer_mmin (t_hod t2).
  Hypothesis X : match tracer_mmin (t_hod t1) with Some x => 0 < x <= d_m h (d_nm h - 1)%nat | None => True end.
  Hypothesis DN : forall i, (i < d_nm h)%nat -> 0 <= d_dndm h i.
  Hypothesis D1 : 0 < mean_tracer_den I h t1.
  Hypothesis D2 : 0 < mean_tracer_den I h t2.
  Lemma x_ok : forall t, tracer_mmin (t_hod t) = tracer_mmin (t_hod t1) -> xmin_ok h (tracer_mmin (t_hod t)).
  Proof. intros t ->. exact X. Qed.
  Lemma share_int : forall t g, satellite_share h (t_hod t) g ->
    tint I h t (fun i => d_dndm h i * satellite_occupation (t_hod t) (d_m h i)) = tint I h t (fun i => d_dndm h i * tot_int (t_hod t) (d_m h i) * g i).
  Proof. intros t g G. unfold tint. apply mint_ext. intros i Hi. rewrite (G i Hi), integrated_eq. ring. Qed.
  (** heavier haloes, and at each mass no smaller a satellite share *)
  Theorem c159_heavier_sample : forall g1 g2, heavier h (integrated (t_hod t1)) (integrated (t_hod t2)) -> satellite_share h (t_hod t1) g1 -> satellite_share h (t_hod t2) g2 ->
    (forall i j, (i < j < d_nm h)%nat -> g1 i <= g1 j) -> (forall i, (i < d_nm h)%nat -> g1 i <= g2 i /\ 0 <= integrated (t_hod t2) (d_m h i)) ->
    satellite_fraction I h t1 <= satellite_fraction I h t2 /\ central_fraction I h t2 <= central_fraction I h t1.
  Proof.
    intros g1 g2 HV G1 G2 M L. enough (E : satellite_fraction I h t1 <= satellite_fraction I h t2) by (split; auto; unfold central_fraction; lra).
    unfold satellite_fraction. rewrite (share_int t1 g1 G1), (share_int t2 g2 G2).
    apply Rle_trans with (tint I h t2 (fun i => d_dndm h i * tot_int (t_hod t2) (d_m h i) * g1 i) / mean_tracer_den I h t2).
    - now apply (averages I h t1 t2 LI PI_ GM SAME X HV DN D1 D2).
    - unfold Rdiv. apply Rmult_le_compat_r; [left; now apply Rinv_0_lt_compat|]. unfold tint. apply mint_le; auto; [apply x_ok; now rewrite SAME|]. intros i Hi. destruct (L i Hi) as [A B]. rewrite integrated_eq in B.
      apply Rmult_le_compat_l; auto. apply Rmult_le_pos; auto.
  Qed.
  (** the same centrals and no fewer satellites in any halo *)
  Theorem c159_more_satellites : (forall i, (i < d_nm h)%nat -> satellite_occupation (t_hod t1) (d_m h i) <= satellite_occupation (t_hod t2) (d_m h i) /\
      integrated (t_hod t2) (d_m h i) - satellite_occupation (t_hod t2) (d_m h i) <= integrated (t_hod t1) (d_m h i) - satellite_occupation (t_hod t1) (d_m h i)) ->
    (forall i, (i < d_nm h)%nat -> 0 <= satellite_occupation (t_hod t1) (d_m h i) <= integrated (t_hod t1) (d_m h i) /\ satellite_occupation (t_hod t2) (d_m h i) <= integrated (t_hod t2) (d_m h i)) ->
    satellite_fraction I h t1 <= satellite_fraction I h t2 /\ central_fraction I h t2 <= central_fraction I h t1.
  Proof.
    intros O P. enough (E : satellite_fraction I h t1 <= satellite_fraction I h t2) by (split; auto; unfold central_fraction; lra).
    set (S t := tint I h t (fun i => d_dndm h i * satellite_occupation (t_hod t) (d_m h i))). set (C t := tint I h t (fun i => d_dndm h i * (tot_int (t_hod t) (d_m h i) - satellite_occupation (t_hod t) (d_m h i)))).
    assert (N : forall t, mean_tracer_den I h t = C t + S t). { intros t. unfold C, S, mean_tracer_den, tint. rewrite <- mint_plus by auto. apply mint_ext. intros. ring. }
    assert (SS : S t1 <= S t2). { unfold S, tint. rewrite <- SAME. apply mint_le; auto. intros i Hi. apply Rmult_le_compat_l; auto. now apply O. }
    assert (CC : C t2 <= C t1). { unfold C, tint. rewrite <- SAME. apply mint_le; auto. intros i Hi. apply Rmult_le_compat_l; auto. destruct (O i Hi) as [_ Q]. now rewrite !integrated_eq in Q. }
    assert (S1 : 0 <= S t1). { unfold S, tint. apply mint_pos; auto. intros i Hi. apply Rmult_le_pos; auto. now apply P. }
    assert (C2 : 0 <= C t2). { unfold C, tint. rewrite <- SAME. apply mint_pos; auto. intros i Hi. apply Rmult_le_pos; auto. destruct (P i Hi) as [_ Q]. rewrite integrated_eq in Q. lra. }
    unfold satellite_fraction. fold (S t1). fold (S t2). assert (A1 := N t1). assert (A2 := N t2). rewrite A1 in D1 |- *. rewrite A2 in D2 |- *.
    apply Rmult_le_reg_r with ((C t1 + S t1) * (C t2 + S t2)); [now apply Rmult_lt_0_compat|].
    replace (S t1 / (C t1 + S t1) * ((C t1 + S t1) * (C t2 + S t2))) with (S t1 * (C t2 + S t2)) by (field; lra). replace (S t2 / (C t2 + S t2) * ((C t1 + S t1) * (C t2 + S t2))) with (S t2 * (C t1 + S t1)) by (field; lra). nra.
  Qed.
End Two.
Print Assumptions c159_heavier_sample.
Print Assumptions c159_more_satellites.

(** ** one sample: satellites sit in heavier haloes than its centrals *)
Section One.
  Variables (I : quadrature) (h : dmhm) (t : tracer) (g f : nat -> R).
  Hypothesis LI : q_linear I.
  Hypothesis PI_ : q_positive I.
  Hypothesis GM : grid (d_nm h) (d_m h).
  Hypothesis X : match tracer_mmin (t_hod t) with Some x => 0 < x <= d_m h (d_nm h - 1)%nat | None => True end.
  Hypothesis DN : forall i, (i < d_nm h)%nat -> 0 <= d_dndm h i /\ 0 <= integrated (t_hod t) (d_m h i).
  Hypothesis SH : satellite_share h (t_hod t) g.
  Hypothesis MG : forall i j, (i < j < d_nm h)%nat -> g i <= g j.
  Hypothesis MF : forall i j, (i < j < d_nm h)%nat -> f i <= f j.
  Let n := mean_tracer_den I h t.
  Let sat := tint I h t (fun i => d_dndm h i * satellite_occupation (t_hod t) (d_m h i)).
  Let f_all := tint I h t (fun i => d_dndm h i * integrated (t_hod t) (d_m h i) * f i) / n.
  Let f_sat := tint I h t (fun i => d_dndm h i * satellite_occupation (t_hod t) (d_m h i) * f i) / sat.
  Let f_cen := tint I h t (fun i => d_dndm h i * (integrated (t_hod t) (d_m h i) - satellite_occupation (t_hod t) (d_m h i)) * f i) / (n - sat).
  Theorem c159_where_satellites_sit : 0 < sat < n -> f_cen <= f_all <= f_sat.
  Proof.
    intros [S0 S1]. set (F := tint I h t (fun i => d_dndm h i * integrated (t_hod t) (d_m h i) * f i)) in *. set (G := tint I h t (fun i => d_dndm h i * satellite_occupation (t_hod t) (d_m h i) * f i)) in *.
    assert (K : F * sat <= G * n).
    { unfold F, G, sat, n, mean_tracer_den, tint.
      rewrite (mint_ext I h (fun i => d_dndm h i * tot_int (t_hod t) (d_m h i)) (fun i => d_dndm h i * integrated (t_hod t) (d_m h i))) by (intros; now rewrite integrated_eq).
      apply (mint_chebyshev I h _ (fun i => d_dndm h i * integrated (t_hod t) (d_m h i)) (fun i => d_dndm h i * satellite_occupation (t_hod t) (d_m h i)) f); auto.
      intros i j Hij. split; [|now apply MF]. rewrite !SH by lia. destruct (DN i ltac:(lia)) as [A B]. destruct (DN j ltac:(lia)) as [A' B']. assert (Q := MG i j Hij).
      replace (d_dndm h j * integrated (t_hod t) (d_m h j) * (d_dndm h i * (g i * integrated (t_hod t) (d_m h i)))) with ((d_dndm h i * integrated (t_hod t) (d_m h i)) * (d_dndm h j * integrated (t_hod t) (d_m h j)) * g i) by ring.
      replace (d_dndm h i * integrated (t_hod t) (d_m h i) * (d_dndm h j * (g j * integrated (t_hod t) (d_m h j)))) with ((d_dndm h i * integrated (t_hod t) (d_m h i)) * (d_dndm h j * integrated (t_hod t) (d_m h j)) * g j) by ring.
      apply Rmult_le_compat_l; auto. apply Rmult_le_pos; now apply Rmult_le_pos. }
    assert (E : tint I h t (fun i => d_dndm h i * (integrated (t_hod t) (d_m h i) - satellite_occupation (t_hod t) (d_m h i)) * f i) = F - G).
    { unfold F, G, tint. replace (mint I h (fun i => d_dndm h i * integrated (t_hod t) (d_m h i) * f i) (tracer_mmin (t_hod t)) - mint I h (fun i => d_dndm h i * satellite_occupation (t_hod t) (d_m h i) * f i) (tracer_mmin (t_hod t)))
        with (mint I h (fun i => d_dndm h i * integrated (t_hod t) (d_m h i) * f i) (tracer_mmin (t_hod t)) + -1 * mint I h (fun i => d_dndm h i * satellite_occupation (t_hod t) (d_m h i) * f i) (tracer_mmin (t_hod t))) by ring.
      rewrite <- mint_lin by auto. apply mint_ext. intros. ring. }
    unfold f_cen, f_all, f_sat. rewrite E. split.
    - apply Rmult_le_reg_r with (n * (n - sat)); [nra|]. replace ((F - G) / (n - sat) * (n * (n - sat))) with ((F - G) * n) by (field; lra). replace (F / n * (n * (n - sat))) with (F * (n - sat)) by (field; lra). nra.
    - apply Rmult_le_reg_r with (n * sat); [nra|]. replace (F / n * (n * sat)) with (F * sat) by (field; lra). replace (G / sat * (n * sat)) with (G * n) by (field; lra). exact K.
  Qed.
End One.
Print Assumptions c159_where_satellites_sit.

(** ** the built-in HODs under the central condition *)
Lemma odds_mono : forall a b, 0 <= a -> a <= b -> a / (1 + a) <= b / (1 + b).
Proof.
  intros a b A H. apply Rmult_le_reg_r with ((1 + a) * (1 + b)); [nra|].
  replace (a / (1 + a) * ((1 + a) * (1 + b))) with (a * (1 + b)) by (field; lra). replace (b / (1 + b) * ((1 + a) * (1 + b))) with (b * (1 + a)) by (field; lra). nra.
Qed.
Lemma zheng_so_mono : forall M1 alpha M0 m m', 0 <= alpha -> 0 < m -> m <= m' -> 0 <= zheng_so M1 alpha M0 m <= zheng_so M1 alpha M0 m'.
Proof.
  intros M1 alpha M0 m m' Ha Hm H. assert (Q1 : 0 < pow10 M1) by apply exp_pos. unfold zheng_so. destruct (Rltb (pow10 M0) m) eqn:E.
  - apply Rltb_spec in E. replace (Rltb (pow10 M0) m') with true by (symmetry; apply Rltb_spec; lra). split; [left; apply exp_pos|].
    apply Rle_Rpower_l; auto. split; [apply Rdiv_lt_0_compat; lra|]. unfold Rdiv; apply Rmult_le_compat_r; [left; now apply Rinv_0_lt_compat|lra].
  - split; [lra|]. destruct (Rltb (pow10 M0) m'); [left; apply exp_pos|lra].
Qed.
Lemma zheng_integrated : forall Mmin M1 alpha M0 sig m, integrated (Zheng05 true Mmin M1 alpha M0 sig) m = zheng_co Mmin sig m * (1 + zheng_so M1 alpha M0 m).
Proof. intros. unfold integrated. simpl tracer_mmin. cbv iota. unfold total_occupation, satellite_occupation, central_occupation, nc, h_central; simpl. unfold central_occupation, one; simpl. rewrite !Rcomplements.Rdiv_1. ring. Qed.
Lemma zheng_satellites : forall Mmin M1 alpha M0 sig m, satellite_occupation (Zheng05 true Mmin M1 alpha M0 sig) m = zheng_co Mmin sig m * zheng_so M1 alpha M0 m.
Proof. intros. unfold satellite_occupation, nc, h_central; simpl. unfold central_occupation, one; simpl. rewrite !Rcomplements.Rdiv_1. ring. Qed.
(** the share of Zheng05 is s/(1+s) with s = ((m - 10^M0)/10^M1)^alpha: it does not depend on M_min, and does not fall with mass *)
Theorem c159_zheng_share : forall h Mmin M1 alpha M0 sig, grid (d_nm h) (d_m h) -> 0 <= alpha ->
  let s m := if Rltb (Rpower 10 M0) m then Rpower ((m - Rpower 10 M0) / Rpower 10 M1) alpha else 0 in let g i := s (d_m h i) / (1 + s (d_m h i)) in
  satellite_share h (Zheng05 true Mmin M1 alpha M0 sig) g /\ (forall i j, (i < j < d_nm h)%nat -> g i <= g j) /\ forall i, (i < d_nm h)%nat -> 0 <= integrated (Zheng05 true Mmin M1 alpha M0 sig) (d_m h i).
Proof.
  intros h Mmin M1 alpha M0 sig G Ha s g. destruct G as [_ [P1 P2]].
  assert (S : forall i j, (i < d_nm h)%nat -> (j < d_nm h)%nat -> (i <= j)%nat -> 0 <= s (d_m h i) <= s (d_m h j)).
  { intros i j Hi Hj H. apply (zheng_so_mono M1 alpha M0); auto. destruct (Nat.eq_dec i j) as [->|]; [lra|]. left. apply P2. lia. }
  split; [|split].
  - intros i Hi. rewrite zheng_satellites, zheng_integrated. change (zheng_so M1 alpha M0 (d_m h i)) with (s (d_m h i)). unfold g. assert (Q := S i i Hi Hi (le_n _)). field. lra.
  - intros i j Hij. unfold g. assert (Q := S i j ltac:(lia) ltac:(lia) ltac:(lia)). apply odds_mono; lra.
  - intros i Hi. rewrite zheng_integrated. change (zheng_so M1 alpha M0 (d_m h i)) with (s (d_m h i)). assert (Q := S i i Hi Hi (le_n _)). destruct (zheng_range Mmin sig (d_m h i)). apply Rmult_le_pos; lra.
Qed.
Print Assumptions c159_zheng_share.
Section Zheng.
  Variables (I : quadrature) (h : dmhm) (u rho : nat -> nat -> R) (lam : option (nat -> nat -> R)).
  Hypothesis LI : q_linear I.
  Hypothesis PI_ : q_positive I.
  Hypothesis GM : grid (d_nm h) (d_m h).
  Hypothesis DN : forall i, (i < d_nm h)%nat -> 0 <= d_dndm h i.
  Variables (M1 alpha M0 sig : R).
  Hypothesis A0 : 0 <= alpha.
  Hypothesis SG : 0 < sig.
  Let tz Mmin M0' := mkTr (Zheng05 true Mmin M1 alpha M0' sig) u rho lam.
  (** raising M_min raises the satellite fraction *)
  Theorem c159_raise_Mmin : forall Mmin Mmin', Mmin <= Mmin' -> 0 < mean_tracer_den I h (tz Mmin M0) -> 0 < mean_tracer_den I h (tz Mmin' M0) ->
    satellite_fraction I h (tz Mmin M0) <= satellite_fraction I h (tz Mmin' M0) /\ central_fraction I h (tz Mmin' M0) <= central_fraction I h (tz Mmin M0).
  Proof.
    intros Mmin Mmin' H D1 D2. destruct (c159_zheng_share h Mmin M1 alpha M0 sig GM A0) as [A [B _]]. destruct (c159_zheng_share h Mmin' M1 alpha M0 sig GM A0) as [A' [_ C]].
    eapply (c159_heavier_sample I h (tz Mmin M0) (tz Mmin' M0) LI PI_ GM (eq_refl _) Logic.I DN D1 D2); [|exact A|exact A'|exact B|].
    - exact (proj1 (c155_raise_Mmin h Mmin Mmin' M1 alpha M0 sig 0 0 0 GM H SG)).
    - intros i Hi. split; [apply Rle_refl|now apply C].
  Qed.
  (** raising the cut-off mass M_0 lowers it *)
  Theorem c159_raise_M0 : forall Mmin M0', M0 <= M0' -> 0 < mean_tracer_den I h (tz Mmin M0) -> 0 < mean_tracer_den I h (tz Mmin M0') ->
    satellite_fraction I h (tz Mmin M0') <= satellite_fraction I h (tz Mmin M0) /\ central_fraction I h (tz Mmin M0) <= central_fraction I h (tz Mmin M0').
  Proof.
    intros Mmin M0' H D1 D2. assert (T : pow10 M0 <= pow10 M0') by (apply pow10_mono; lra). assert (Q1 : 0 < pow10 M1) by apply exp_pos.
    assert (Z : forall i, (i < d_nm h)%nat -> 0 <= zheng_so M1 alpha M0' (d_m h i) <= zheng_so M1 alpha M0 (d_m h i)).
    { intros i Hi. unfold zheng_so. destruct (Rltb (pow10 M0') (d_m h i)) eqn:E.
      - apply Rltb_spec in E. replace (Rltb (pow10 M0) (d_m h i)) with true by (symmetry; apply Rltb_spec; lra). split; [left; apply exp_pos|].
        apply Rle_Rpower_l; auto. split; [apply Rdiv_lt_0_compat; lra|]. unfold Rdiv; apply Rmult_le_compat_r; [left; now apply Rinv_0_lt_compat|lra].
      - split; [lra|]. destruct (Rltb (pow10 M0) (d_m h i)); [left; apply exp_pos|lra]. }
    apply (c159_more_satellites I h (tz Mmin M0') (tz Mmin M0) LI PI_ GM (eq_refl _) Logic.I DN D2 D1); intros i Hi; simpl t_hod; rewrite !zheng_satellites, !zheng_integrated;
      assert (Y := Z i Hi); destruct (zheng_range Mmin sig (d_m h i)) as [R1 R2]; set (c := zheng_co Mmin sig (d_m h i)) in *; clearbody c;
      set (s := zheng_so M1 alpha M0 (d_m h i)) in *; set (s' := zheng_so M1 alpha M0' (d_m h i)) in *; clearbody s s'.
    - assert (c * s' <= c * s) by (apply Rmult_le_compat_l; lra). split; lra.
    - assert (0 <= c * s') by (apply Rmult_le_pos; lra). repeat split; lra.
  Qed.
  (** the satellites are more biased than the sample, and the centrals less *)
  Theorem c159_zheng_bias : forall Mmin, (forall i j, (i < j < d_nm h)%nat -> d_bias h i <= d_bias h j) ->
    let t := tz Mmin M0 in let sat := tint I h t (fun i => d_dndm h i * satellite_occupation (t_hod t) (d_m h i)) in 0 < sat < mean_tracer_den I h t ->
    tint I h t (fun i => d_dndm h i * central_occupation (t_hod t) (d_m h i) * d_bias h i) / (mean_tracer_den I h t - sat) <= bias_effective_tracer I h t <=
    tint I h t (fun i => d_dndm h i * satellite_occupation (t_hod t) (d_m h i) * d_bias h i) / sat.
  Proof.
    intros Mmin MB t sat K. destruct (c159_zheng_share h Mmin M1 alpha M0 sig GM A0) as [A [B C]].
    assert (W := c159_where_satellites_sit I h t _ (d_bias h) LI PI_ GM Logic.I (fun i Hi => conj (DN i Hi) (C i Hi)) A B MB K). fold sat in W.
    assert (E : forall a b, (forall i, (i < d_nm h)%nat -> a i = b i) -> tint I h t a = tint I h t b) by (intros; unfold tint; now apply mint_ext).
    rewrite (E (fun i => d_dndm h i * (integrated (t_hod t) (d_m h i) - satellite_occupation (t_hod t) (d_m h i)) * d_bias h i) (fun i => d_dndm h i * central_occupation (t_hod t) (d_m h i) * d_bias h i)) in W
      by (intros i Hi; unfold t, tz; simpl t_hod; rewrite zheng_integrated, zheng_satellites; unfold central_occupation; simpl; ring).
    rewrite (E (fun i => d_dndm h i * integrated (t_hod t) (d_m h i) * d_bias h i) (fun i => d_dndm h i * tot_int (t_hod t) (d_m h i) * d_bias h i)) in W by (intros; now rewrite integrated_eq).
    exact W.
  Qed.
End Zheng.
Print Assumptions c159_raise_Mmin.
Print Assumptions c159_raise_M0.
Print Assumptions c159_zheng_bias.

(** the hypotheses are met on the three masses of the example, with satellites and centrals *)
Example c159_met : let t M := mkTr (Zheng05 true M 13 1 11 0.5) (fun _ _ => 1) (fun _ _ => 1) None in
  (forall M, 0 < mean_tracer_den step_quad h1_ex (t M)) /\ (forall i, (i < d_nm h1_ex)%nat -> 0 <= d_dndm h1_ex i) /\ forall M, 0 <= satellite_fraction step_quad h1_ex (t M).
Proof.
  intros t. assert (S : forall m, 0 <= zheng_so 13 1 11 m) by (intros m; unfold zheng_so; destruct (Rltb _ _); [left; apply exp_pos|lra]).
  assert (C : forall M m, 0 < zheng_co M 0.5 m) by (intros M m; unfold zheng_co; assert (Q := erf_range ((log10 m - M) / 0.5)); lra).
  assert (N : forall M, 0 < mean_tracer_den step_quad h1_ex (t M)).
  { intros M. apply mint3_pos. intros i Hi. change (d_dndm h1_ex i) with 1. rewrite Rmult_1_l, <- integrated_eq. unfold t. simpl t_hod. rewrite zheng_integrated. apply Rmult_lt_0_compat; [apply C|assert (Q := S (d_m h1_ex i)); lra]. }
  split; [exact N|]. split; [intros i Hi; simpl; lra|]. intros M. unfold satellite_fraction. apply Rmult_le_pos; [|left; apply Rinv_0_lt_compat, N].
  unfold tint. apply mint_pos; [exact step_quad_positive|exact h0_grid|exact Logic.I|]. intros i Hi. change (d_dndm h1_ex i) with 1. unfold t. simpl t_hod. rewrite zheng_satellites. assert (Q := S (d_m h1_ex i)). assert (Q' := C M (d_m h1_ex i)). rewrite Rmult_1_l. apply Rmult_le_pos; lra.
Qed.
