(** Halo occupation distributions: C01-C11, C74-C76.
    Code under study: /repo/src/halomod/hod.py, /repo/src/halomod/tools.py:399-411. *)
From Coq Require Import Reals Lra Lia Bool Psatz List.
From Coquelicot Require Import Coquelicot.
From Verif Require Import Model.RBool Model.SpecialFn Model.HOD Model.HODFloat Model.HODPopulate Model.HODLeauthaud
  Spec.ProbSpec Proofs.Erf Proofs.ProbProofs Proofs.HODProofs Proofs.HODProofs2.
Import ListNotations.
Local Open Scope R_scope.

(** The same object with the [central] argument changed. *)
Definition with_flag (h : hod) (b : bool) : hod :=
  mkHod (h_kind h) b (h_inherent h) (h_sharp h) (h_co h) (h_so h) (h_tpc h) (h_tps h) (h_sigc h) (h_sigs h) (h_mmin h).

(** * C01 non-negativity *)
Definition all_nonneg (h : hod) (m : R) : Prop :=
  0 <= central_occupation h m /\ 0 <= satellite_occupation h m /\ 0 <= total_occupation h m /\
  0 <= ss_pairs h m /\ 0 <= cs_pairs h m /\ 0 <= total_pair_function h m.

Theorem c01_nonneg : forall (central : bool) (Mmin M1 alpha M0 sig fca fcb fs delta x Mcut Mmax logA sigmaA m : R)
    (p : spinelli_params),
  0 < m ->
  all_nonneg (Zehavi05 central Mmin M1 alpha) m /\
  all_nonneg (Zheng05 central Mmin M1 alpha M0 sig) m /\
  (0 <= fca <= 1 -> 0 <= fcb -> 0 <= fs ->
     all_nonneg (Contreras13 central Mmin M1 alpha M0 sig fca fcb fs delta x) m /\
     all_nonneg (Geach12 central Mmin M1 alpha M0 sig fca fcb fs delta x) m) /\
  all_nonneg (Tinker05 central Mmin M1 Mcut) m /\
  all_nonneg (Zehavi05WithMax central Mmin M1 alpha Mmax) m /\
  all_nonneg (Zehavi05Marked central Mmin M1 logA alpha Mmax) m /\
  all_nonneg (ContinuousPowerLaw central Mmin M1 logA alpha Mmax sigmaA) m /\
  all_nonneg (ConstantHOD central logA Mmin sigmaA) m /\
  (0 <= sp_a1 p -> 0 <= sp_a2 p ->
     (central = true -> pow10 (sp_Mmin_counts p) <= m <= pow10 (sp_Mmax_counts p)) ->
     all_nonneg (Spinelli19 central p) m).
Proof.
  intros. split; [now apply zehavi_nonneg|]. split; [now apply zheng_nonneg|].
  split; [intros; split; now apply contreras_nonneg|]. split; [now apply tinker_nonneg|].
  split; [now apply withmax_nonneg|]. split; [now apply marked_nonneg|]. split; [now apply cpl_nonneg|].
  split; [now apply constant_nonneg|]. intros; now apply spinelli_nonneg.
Qed.
Theorem c01_leauthaud_nonneg : forall interp1d o q m,
  0 < m -> 0 < l_bsat (lo_params o) ->
  In q [QCentral m; QSat m; QTotal m; QNc m; QNs m; QSS m; QCS m] -> 0 < snd (leau_run interp1d o q).
Proof.
  intros. apply leau_pos. simpl in H1. repeat (destruct H1 as [<-|H1]; [reflexivity|]). contradiction.
Qed.
(* the values are not all zero *)
Example c01_ex : central_occupation (Zehavi05 true 11 12 1) (pow10 13) = 1 /\
  satellite_occupation (Zehavi05 true 11 12 1) (pow10 13) = 10.
Proof.
  assert (E : zehavi_co 11 (pow10 13) = 1).
  { unfold zehavi_co. destruct (Rltb _ _) eqn:B; auto. apply Rltb_spec in B. assert (Q := pow10_incr 11 13). lra. }
  split; [exact E|]. unfold satellite_occupation, Zehavi05, poisson_hod; simpl. unfold nc, central_occupation, one; simpl. rewrite E.
  unfold zehavi_so. rewrite pow10_div. rewrite Rpower_1 by apply pow10_pos. unfold pow10. replace (13 - 12) with 1 by lra. rewrite Rpower_1 by lra. lra.
Qed.

(** * C02 central occupation is a probability, increasing with mass *)
Theorem c02_zehavi : forall central Mmin M1 alpha m m',
  0 <= central_occupation (Zehavi05 central Mmin M1 alpha) m <= 1 /\
  (m <= m' -> central_occupation (Zehavi05 central Mmin M1 alpha) m
              <= central_occupation (Zehavi05 central Mmin M1 alpha) m').
Proof.
  intros. unfold central_occupation, Zehavi05, poisson_hod; simpl. split.
  - destruct (zehavi_co_01 Mmin m) as [->| ->]; lra.
  - intros. unfold zehavi_co. destruct (Rltb m _) eqn:A, (Rltb m' _) eqn:B; try lra.
    apply Rltb_spec in B. apply Rltb_false in A. lra.
Qed.
Theorem c02_zheng : forall central Mmin M1 alpha M0 sig,
  0 < sig ->
  let N m := central_occupation (Zheng05 central Mmin M1 alpha M0 sig) m in
  (forall m, 0 < m -> 0 < N m < 1) /\
  (forall m m', 0 < m < m' -> N m < N m') /\
  N (pow10 Mmin) = 1/2 /\
  (forall eps, 0 < eps -> exists lo, 0 < lo /\ forall m, 0 < m <= lo -> N m < eps) /\
  (forall eps, 0 < eps -> exists hi, forall m, 0 < m -> hi <= m -> 1 - eps < N m).
Proof.
  intros c Mmin M1 al M0 sig Hs N. unfold N, central_occupation, Zheng05, poisson_hod; simpl. repeat split.
  - apply zheng_range.
  - apply zheng_range.
  - intros. apply zheng_mono; lra.
  - apply zheng_half.
  - intros eps He. destruct (zheng_low Mmin sig eps Hs He) as [lo [A B]]. exists lo. split; auto. intros; apply B; lra.
  - intros eps He. destruct (zheng_high Mmin sig eps Hs He) as [hi A]. exists hi. intros; apply A; auto.
Qed.
Theorem c02_leauthaud : forall interp1d o m m',
  0 < l_sig_logmstar (lo_params o) ->
  0 < snd (leau_run interp1d o (QCentral m)) < 1 /\
  (mean_log_stellar_mass interp1d (lo_params o) m <= mean_log_stellar_mass interp1d (lo_params o) m' ->
   snd (leau_run interp1d o (QCentral m)) <= snd (leau_run interp1d o (QCentral m'))).
Proof. intros. split; [apply leau_co_range|]. intros; now apply leau_co_mono. Qed.

(** * C03 *)
Theorem c03_contreras_probability_iff : forall central Mmin M1 alpha M0 sig fca fs delta x,
  0 < x -> 0 < sig ->
  ((forall m, 0 < m -> 0 <= central_occupation (Contreras13 central Mmin M1 alpha M0 sig fca 0 fs delta x) m <= 1)
   <-> 0 <= fca <= 1/2).
Proof. intros. now apply contreras_iff. Qed.
Theorem c03_contreras_range : forall central Mmin M1 alpha M0 sig fca fs delta x,
  0 < x -> 0 < sig -> 0 < fca ->
  (forall m, 0 < m -> 0 < central_occupation (Contreras13 central Mmin M1 alpha M0 sig fca 0 fs delta x) m < 2 * fca) /\
  (forall eps, 0 < eps -> exists m, 0 < m /\
     2 * fca - eps < central_occupation (Contreras13 central Mmin M1 alpha M0 sig fca 0 fs delta x) m).
Proof. intros. split; intros; [now apply contreras_range|now apply contreras_sup]. Qed.
(* above 1/2: more than one central on average, and a negative argument to the square root in sigma_central *)
Theorem c03_contreras_not_probability : forall central Mmin M1 alpha M0 sig fca fs delta x,
  0 < x -> 0 < sig -> 1/2 < fca ->
  exists m, 0 < m /\ let co := central_occupation (Contreras13 central Mmin M1 alpha M0 sig fca 0 fs delta x) m in
    1 < co /\ co * (1 - co) < 0.
Proof.
  intros. destruct (contreras_bad Mmin sig fca x) as [m [A B]]; auto. exists m. split; auto. cbv zeta.
  unfold central_occupation, Contreras13, poisson_hod; simpl. split; [exact B|nra].
Qed.

(** * C04 central condition *)
Theorem c04_condition : forall h m, h_kind h = Poisson -> h_inherent h = false ->
  satellite_occupation (with_flag h true) m = nc h m * satellite_occupation (with_flag h false) m /\
  (nc h m = 0 -> satellite_occupation (with_flag h true) m = 0).
Proof.
  intros h m K I. assert (E : satellite_occupation (with_flag h true) m = nc h m * satellite_occupation (with_flag h false) m).
  { unfold satellite_occupation, h_central, with_flag; simpl. rewrite K, I. simpl. unfold nc, central_occupation; simpl. rewrite K. reflexivity. }
  split; auto. intros Z. rewrite E, Z. ring.
Qed.
Theorem c04_flag_irrelevant : forall h b m, h_kind h = Bulk \/ h_inherent h = true ->
  satellite_occupation (with_flag h b) m = satellite_occupation h m /\
  total_occupation (with_flag h b) m = total_occupation h m /\ ss_pairs (with_flag h b) m = ss_pairs h m.
Proof.
  intros h b m H. assert (E : satellite_occupation (with_flag h b) m = satellite_occupation h m).
  { unfold satellite_occupation, h_central, with_flag; simpl. destruct H as [-> | ->]; [reflexivity|]. rewrite !andb_false_r. reflexivity. }
  repeat split; auto.
  - unfold total_occupation. rewrite E. reflexivity.
  - unfold ss_pairs. now rewrite E.
Qed.
Theorem c04_central_unaffected : forall h b m,
  central_occupation (with_flag h b) m = central_occupation h m /\ nc (with_flag h b) m = nc h m.
Proof. intros. split; reflexivity. Qed.
Theorem c04_total : forall h m, total_occupation h m = central_occupation h m + satellite_occupation h m.
Proof. reflexivity. Qed.
Theorem c04_tinker_pairs : forall Mmin M1 Mcut m,
  cs_pairs (Tinker05 true Mmin M1 Mcut) m = cs_pairs (Tinker05 false Mmin M1 Mcut) m /\
  total_pair_function (Tinker05 true Mmin M1 Mcut) m = total_pair_function (Tinker05 false Mmin M1 Mcut) m /\
  (central_occupation (Tinker05 true Mmin M1 Mcut) m = 0 -> satellite_occupation (Tinker05 true Mmin M1 Mcut) m = 0).
Proof.
  intros. assert (E : cs_pairs (Tinker05 true Mmin M1 Mcut) m = cs_pairs (Tinker05 false Mmin M1 Mcut) m).
  { unfold cs_pairs, satellite_occupation, central_occupation, Tinker05, poisson_hod, h_central, one; simpl.
    unfold tinker_so; cbv zeta. destruct (zehavi_co_01 Mmin m) as [->| ->]; ring. }
  split; auto. split.
  - unfold total_pair_function. rewrite E. reflexivity.
  - unfold satellite_occupation, central_occupation, Tinker05, poisson_hod, h_central; simpl. unfold tinker_so; cbv zeta. intros ->. ring.
Qed.
(** a bulk tracer (no discrete objects) has no centrals, whatever the subclass defines: everything is in the satellite part, the
    central amount has no scatter, and pairs are the square of the total *)
Theorem c04_bulk : forall h m, h_kind h = Bulk ->
  central_occupation h m = 0 /\ sigma_central h m = 0 /\ nc h m = 0 /\ ns h m = 0 /\
  total_occupation h m = satellite_occupation h m /\ total_pair_function h m = total_occupation h m ^ 2.
Proof.
  intros h m K. assert (A : central_occupation h m = 0) by (unfold central_occupation; now rewrite K).
  assert (B : total_occupation h m = satellite_occupation h m) by (unfold total_occupation; rewrite A; ring).
  repeat split; auto; try (unfold sigma_central, nc, ns; now rewrite K).
  unfold total_pair_function, cs_pairs, ss_pairs. rewrite B, K. ring.
Qed.
Example c04_bulk_ex : forall m, pow10 10 < m -> h_kind (ConstantHOD false 3 10 0) = Bulk /\ total_pair_function (ConstantHOD false 3 10 0) m = pow10 3 ^ 2.
Proof.
  intros m M. split; [reflexivity|]. destruct (c04_bulk (ConstantHOD false 3 10 0) m eq_refl) as [_ [_ [_ [_ [E F]]]]]. rewrite F, E.
  unfold satellite_occupation, ConstantHOD, h_central; simpl. unfold constant_so. apply Rltb_spec in M. now rewrite M.
Qed.
Example c04_ex : forall Mmin M1 al M0 sig m, 0 < m ->
  with_flag (Zheng05 false Mmin M1 al M0 sig) true = Zheng05 true Mmin M1 al M0 sig /\
  0 < nc (Zheng05 false Mmin M1 al M0 sig) m < 1.
Proof.
  intros. split; [reflexivity|]. unfold nc, central_occupation, Zheng05, poisson_hod, one; simpl.
  assert (A := zheng_range Mmin sig m). lra.
Qed.

(** * C05 pair functions are expectations *)
Theorem c05_independent : forall h m,
  h_kind h = Poisson -> h_central h = false -> h_tpc h m <> 0 -> h_tps h m <> 0 ->
  mean_indep (nc h m) (ns h m) (ss_weight (h_tps h m)) (ss_pairs h m) /\
  mean_indep (nc h m) (ns h m) (cs_weight (h_tpc h m) (h_tps h m)) (cs_pairs h m).
Proof.
  intros h m K C T1 T2.
  assert (A : ns h m * h_tps h m = satellite_occupation h m) by (unfold ns; rewrite K; field; auto).
  assert (B : nc h m * h_tpc h m = central_occupation h m) by (unfold nc; rewrite K; field; auto).
  split.
  - replace (ss_pairs h m) with (h_tps h m ^ 2 * ns h m ^ 2) by (unfold ss_pairs; rewrite <- A; ring). apply indep_ss.
  - replace (cs_pairs h m) with (nc h m * h_tpc h m * (ns h m * h_tps h m)) by (unfold cs_pairs; rewrite K, C, A, B; reflexivity). apply indep_cs.
Qed.
(* with the condition: given a central, satellites are Poisson with the unconditioned mean *)
Theorem c05_conditional : forall h m,
  h_kind h = Poisson -> h_flag h = true -> h_inherent h = false -> h_tpc h m <> 0 -> h_tps h m <> 0 ->
  let mu := satellite_occupation (with_flag h false) m / h_tps h m in
  mean_cond (nc h m) mu (fun c n => h_tps h m * sat_number c n) (satellite_occupation h m) /\
  mean_cond (nc h m) mu (cs_weight (h_tpc h m) (h_tps h m)) (cs_pairs h m).
Proof.
  intros h m K F I T1 T2 mu.
  assert (S : satellite_occupation h m = nc h m * mu * h_tps h m).
  { unfold mu, satellite_occupation, h_central, with_flag; simpl. rewrite K, F, I. simpl. field; auto. }
  split.
  - destruct (cond_satnum (nc h m) mu) as [s [P Q]]. exists (h_tps h m * s). split.
    + eapply is_series_ext; [|apply is_series_mult_l, P]. intros; cbv beta. match goal with |- ?a = ?b => change (@eq R a b) end. ring.
    + rewrite S. unfold sat_number in *. simpl INR in *. replace (nc h m * (h_tps h m * s) + (1 - nc h m) * (h_tps h m * 0)) with (h_tps h m * (nc h m * s + (1 - nc h m) * 0)) by ring. rewrite <- Q. ring.
  - replace (cs_pairs h m) with (nc h m * h_tpc h m * mu * h_tps h m); [apply cond_cs|].
    unfold cs_pairs, h_central. rewrite K, F, S. ring.
Qed.
Example c05_ex : forall m, 0 < m -> h_tpc (Zheng05 true 11 12 1 11 0.2) m <> 0 /\ h_tps (Zheng05 true 11 12 1 11 0.2) m <> 0.
Proof. intros; simpl; unfold one; lra. Qed.

(** * C06 what populate realises under the central condition *)
(* The distribution sampled is: central with probability central_occupation(m), and if one was drawn
   Poisson(ns(m)) satellites.  Its mean satellite number and ordered pair number: *)
Theorem c06_populate_moments : forall h m,
  populate_conditional h = true ->
  mean_cond (populate_central_prob h m) (populate_satellite_mean h m) sat_number (central_occupation h m * ns h m) /\
  mean_cond (populate_central_prob h m) (populate_satellite_mean h m) sat_pairs_number (central_occupation h m * ns h m ^ 2).
Proof. intros. split; [apply cond_satnum|apply cond_satpairs]. Qed.
(* they are the analytic ones exactly when the central occupation is 1 or there are no satellites *)
Theorem c06_populate_agrees_iff : forall h m,
  h_kind h = Poisson -> populate_conditional h = true -> h_tpc h m = 1 -> h_tps h m = 1 ->
  (mean_cond (populate_central_prob h m) (populate_satellite_mean h m) sat_number (satellite_occupation h m)
     <-> (nc h m = 1 \/ ns h m = 0)) /\
  (mean_cond (populate_central_prob h m) (populate_satellite_mean h m) sat_pairs_number (ss_pairs h m)
     <-> (nc h m = 1 \/ ns h m = 0)).
Proof.
  intros h m K C T1 T2. destruct (c06_populate_moments h m C) as [A B].
  assert (E1 : nc h m = central_occupation h m) by (unfold nc; rewrite K, T1; field).
  assert (E2 : ns h m = satellite_occupation h m) by (unfold ns; rewrite K, T2; field).
  split; split.
  - intros H. apply (mean_cond_unique _ _ _ _ _ A) in H. rewrite <- E2, <- E1 in H.
    destruct (Req_dec (ns h m) 0); auto. left. apply Rmult_eq_reg_r with (ns h m); auto. lra.
  - intros H. replace (satellite_occupation h m) with (central_occupation h m * ns h m); auto. rewrite <- E1, <- E2.
    destruct H as [->| ->]; ring.
  - intros H. apply (mean_cond_unique _ _ _ _ _ B) in H. unfold ss_pairs in H. rewrite <- E2, <- E1 in H.
    destruct (Req_dec (ns h m) 0); auto. left. apply Rmult_eq_reg_r with (ns h m ^ 2); [lra|]. apply pow_nonzero; auto.
  - intros H. replace (ss_pairs h m) with (central_occupation h m * ns h m ^ 2); auto. unfold ss_pairs. rewrite <- E1, <- E2.
    destruct H as [->| ->]; ring.
Qed.
(* step-function models: agreement at every mass *)
Definition step_model (h : hod) : Prop :=
  (exists Mmin M1 alpha, h = Zehavi05 true Mmin M1 alpha) \/
  (exists Mmin M1 alpha Mmax, h = Zehavi05WithMax true Mmin M1 alpha Mmax) \/
  (exists Mmin M1 Mcut, h = Tinker05 true Mmin M1 Mcut).
Theorem c06_step_models_agree : forall h m, step_model h ->
  mean_cond (populate_central_prob h m) (populate_satellite_mean h m) sat_number (satellite_occupation h m) /\
  mean_cond (populate_central_prob h m) (populate_satellite_mean h m) sat_pairs_number (ss_pairs h m).
Proof.
  intros h m S.
  assert (Q : h_kind h = Poisson /\ populate_conditional h = true /\ h_tpc h m = 1 /\ h_tps h m = 1 /\ (nc h m = 1 \/ ns h m = 0)).
  { destruct S as [[a [b [c ->]]]|[[a [b [c [d ->]]]]|[a [b [c ->]]]]]; repeat split;
    unfold ns, satellite_occupation, nc, h_central, central_occupation, Zehavi05, Zehavi05WithMax, Tinker05, poisson_hod, one; simpl.
    - destruct (zehavi_co_01 a m) as [->| ->]; [right|left]; field.
    - destruct (withmax_co_01 a d m) as [->| ->]; [right|left]; field.
    - unfold tinker_so; cbv zeta. destruct (zehavi_co_01 a m) as [->| ->]; [right|left]; field. apply Rgt_not_eq, pow10_pos. }
  destruct Q as [K [C [T1 [T2 N]]]]. destruct (c06_populate_agrees_iff h m K C T1 T2) as [[_ A] [_ B]]. auto.
Qed.
(* Zheng05 never agrees where it has satellites *)
Theorem c06_zheng_deficit_refuted : forall Mmin M1 alpha M0 sig m, 0 < m ->
  ns (Zheng05 true Mmin M1 alpha M0 sig) m <> 0 ->
  let h := Zheng05 true Mmin M1 alpha M0 sig in
  ~ mean_cond (populate_central_prob h m) (populate_satellite_mean h m) sat_number (satellite_occupation h m).
Proof.
  intros Mmin M1 al M0 sig m Hm N h H.
  apply (proj1 (c06_populate_agrees_iff h m eq_refl eq_refl eq_refl eq_refl)) in H. destruct H as [H|H]; auto.
  unfold nc, h, central_occupation, Zheng05, poisson_hod, one in H; simpl in H. assert (A := zheng_range Mmin sig m). lra.
Qed.
Example c06_ex : exists m, 0 < m /\ ns (Zheng05 true 11 12 1 11 0.2) m <> 0.
Proof.
  exists (pow10 11 + pow10 12). assert (A := pow10_pos 11). assert (B := pow10_pos 12). split; [lra|].
  unfold ns, satellite_occupation, nc, h_central, central_occupation, Zheng05, poisson_hod, one; simpl. unfold zheng_so.
  rewrite (proj2 (Rltb_spec _ _)) by lra. assert (Z := zheng_range 11 0.2 (pow10 11 + pow10 12)).
  assert (E := rpow_pos ((pow10 11 + pow10 12 - pow10 11) / pow10 12) 1).
  apply Rgt_not_eq. unfold Rdiv. rewrite Rinv_1, !Rmult_1_r. apply Rmult_lt_0_compat; lra.
Qed.

(** * C07 standard deviations *)
Theorem c07_number_counts : forall h m,
  h_kind h = Poisson -> h_tpc h m = 1 -> h_tps h m = 1 -> h_sigc h = None -> h_sigs h = None ->
  0 <= central_occupation h m <= 1 -> 0 <= satellite_occupation h m ->
  mean_indep (nc h m) (ns h m) (sat_sqdev (ns h m)) (sigma_satellite h m ^ 2) /\
  mean_indep (nc h m) (ns h m) (cen_sqdev (nc h m)) (sigma_central h m ^ 2).
Proof.
  intros h m K T1 T2 S1 S2 C S.
  assert (E1 : nc h m = central_occupation h m) by (unfold nc; rewrite K, T1; field).
  assert (E2 : ns h m = satellite_occupation h m) by (unfold ns; rewrite K, T2; field).
  split.
  - unfold sigma_satellite. rewrite S2. simpl. rewrite Rmult_1_r, sqrt_def, <- E2 by lra. apply indep_satvar.
  - unfold sigma_central. rewrite K, S1. cbv zeta. simpl. rewrite Rmult_1_r, sqrt_def, <- E1 by nra. apply indep_cenvar.
Qed.
Theorem c07_marked_satellite_iff : forall central Mmin M1 logA alpha Mmax m, 0 < m ->
  let h := Zehavi05Marked central Mmin M1 logA alpha Mmax in
  let A := pow10 logA in
  (mean_indep (nc h m) (ns h m) (fun c n => (A * INR n - satellite_occupation h m) ^ 2) (sigma_satellite h m ^ 2)
   <-> logA = 0 \/ ns h m = 0).
Proof.
  intros c Mmin M1 lA al Mmax m Hm h A. assert (PA := pow10_pos lA). fold A in PA.
  assert (E : satellite_occupation h m = A * ns h m).
  { unfold ns, h; simpl. unfold marked_tpc. fold A. field. lra. }
  assert (S : 0 <= satellite_occupation h m) by apply (marked_nonneg c Mmin M1 lA al Mmax m Hm).
  assert (V : mean_indep (nc h m) (ns h m) (fun c n => (A * INR n - satellite_occupation h m) ^ 2) (A^2 * ns h m)).
  { rewrite E. unfold mean_indep. eapply is_series_ext; [|apply is_series_mult_l, (indep_satvar (nc h m))].
    intros; cbv beta. unfold sat_sqdev. match goal with |- ?a = ?b => change (@eq R a b) end. ring. }
  assert (R2 : sigma_satellite h m ^ 2 = A * ns h m).
  { unfold sigma_satellite, h; simpl. fold h. rewrite Rmult_1_r, sqrt_def by exact S. exact E. }
  rewrite R2. split.
  - intros H. apply (mean_indep_unique _ _ _ _ _ V) in H. destruct (Req_dec (ns h m) 0); auto. left.
    assert (A = 1). { apply Rmult_eq_reg_r with (A * ns h m); [lra|]. apply Rmult_integral_contrapositive. split; lra. }
    unfold A in H1. rewrite <- (log10_pow10 lA), H1. unfold log10. rewrite ln_1. field. assert (Q := ln10_pos). lra.
  - intros [Z|Z].
    + assert (A = 1) by (unfold A; rewrite Z; apply pow10_0). rewrite H in *. replace (1 * ns h m) with (1^2 * ns h m) by ring. exact V.
    + rewrite Z in *. replace (A * 0) with (A^2 * 0) by ring. exact V.
Qed.
(* for the step-function centrals of this model the (zero) central variance is right *)
Theorem c07_marked_central : forall central Mmin M1 logA alpha Mmax m,
  let h := Zehavi05Marked central Mmin M1 logA alpha Mmax in
  mean_indep (nc h m) (ns h m) (fun c n => (pow10 logA * c2R c - central_occupation h m) ^ 2) (sigma_central h m ^ 2).
Proof.
  intros c Mmin M1 lA al Mmax m h. assert (PA := pow10_pos lA).
  assert (Z : sigma_central h m ^ 2 = 0).
  { unfold sigma_central, h; simpl. destruct (withmax_co_01 Mmin Mmax m) as [-> | ->].
    - replace (marked_tpc lA m * 0 * (1 - 0)) with 0 by ring. rewrite sqrt_0. ring.
    - replace (marked_tpc lA m * 1 * (1 - 1)) with 0 by ring. rewrite sqrt_0. ring. }
  rewrite Z. unfold mean_indep.
  assert (N : nc h m = withmax_co Mmin Mmax m).
  { unfold nc, h, central_occupation; simpl. unfold marked_tpc. field. lra. }
  assert (O : central_occupation h m = withmax_co Mmin Mmax m * pow10 lA) by reflexivity.
  eapply is_series_ext; [|apply (series_const (ns h m) 0)]. intros; cbv beta. rewrite N, O. unfold c2R.
  match goal with |- ?a = ?b => change (@eq R a b) end. destruct (withmax_co_01 Mmin Mmax m) as [-> | ->]; ring.
Qed.
Example c07_ex : ns (Zehavi05Marked false 11 12 1 1 18) (pow10 13) <> 0.
Proof.
  unfold ns, satellite_occupation, h_central; simpl. unfold marked_tpc, zehavi_so. assert (A := pow10_pos 1).
  assert (B := rpow_pos (pow10 13 / pow10 12) 1). apply Rgt_not_eq. apply Rdiv_lt_0_compat; auto. apply Rmult_lt_0_compat; auto.
Qed.

(** * C08 marked HOD scaling *)
Theorem c08_marked_scaling : forall central Mmin M1 logA alpha Mmax m,
  let h := Zehavi05Marked central Mmin M1 logA alpha Mmax in
  let h0 := Zehavi05WithMax central Mmin M1 alpha Mmax in
  let A := pow10 logA in
  nc h m = nc h0 m /\ ns h m = ns h0 m /\
  central_occupation h m = A * central_occupation h0 m /\
  satellite_occupation h m = A * satellite_occupation h0 m /\
  total_occupation h m = A * total_occupation h0 m /\
  ss_pairs h m = A ^ 2 * ss_pairs h0 m /\ cs_pairs h m = A ^ 2 * cs_pairs h0 m /\
  total_pair_function h m = A ^ 2 * total_pair_function h0 m.
Proof.
  intros c Mmin M1 lA al Mmax m h h0 A. assert (PA := pow10_pos lA). fold A in PA.
  assert (N : nc h m = nc h0 m) by (unfold nc, h, h0, central_occupation, one; simpl; unfold marked_tpc, one; fold A; field; lra).
  assert (C : central_occupation h m = A * central_occupation h0 m) by (unfold central_occupation, h, h0; simpl; unfold marked_tpc; fold A; ring).
  assert (S : satellite_occupation h m = A * satellite_occupation h0 m).
  { unfold satellite_occupation. change (h_central h) with c. change (h_central h0) with c. change (h_inherent h) with false. change (h_inherent h0) with false.
    rewrite N. unfold h, h0; simpl. unfold marked_tpc. fold A. destruct c; simpl; ring. }
  assert (P : ss_pairs h m = A ^ 2 * ss_pairs h0 m) by (unfold ss_pairs; rewrite S; ring).
  assert (Q : cs_pairs h m = A ^ 2 * cs_pairs h0 m).
  { unfold cs_pairs. change (h_kind h) with Poisson. change (h_kind h0) with Poisson. change (h_central h) with c. change (h_central h0) with c.
    rewrite S, C. unfold h, h0; simpl. unfold marked_tpc, one. fold A. destruct c; ring. }
  repeat split; auto.
  - unfold ns. change (h_kind h) with Poisson. change (h_kind h0) with Poisson. rewrite S. unfold h, h0; simpl. unfold marked_tpc, one. fold A. field. lra.
  - unfold total_occupation. rewrite S, C. ring.
  - unfold total_pair_function. rewrite P, Q. ring.
Qed.

(** * C09 nested models *)
Theorem c09_contreras_zheng : forall central central' Mmin M1 alpha M0 sig fs delta M1' alpha' M0' m, 0 < m -> sig <> 0 ->
  central_occupation (Contreras13 central Mmin M1 alpha M0 sig (1/2) 0 fs delta 1) m
  = central_occupation (Zheng05 central' Mmin M1' alpha' M0' sig) m.
Proof.
  intros. unfold central_occupation, Contreras13, Zheng05, poisson_hod; simpl. unfold contreras_co, zheng_co.
  rewrite log10_div by auto. rewrite Rdiv_1. lra.
Qed.
Theorem c09_withmax_zehavi : forall central Mmin M1 alpha Mmax m, m <= pow10 Mmax ->
  let h := Zehavi05WithMax central Mmin M1 alpha Mmax in let h' := Zehavi05 central Mmin M1 alpha in
  central_occupation h m = central_occupation h' m /\ satellite_occupation h m = satellite_occupation h' m /\
  ss_pairs h m = ss_pairs h' m /\ cs_pairs h m = cs_pairs h' m.
Proof.
  intros c Mmin M1 al Mmax m H h h'.
  assert (E : withmax_co Mmin Mmax m = zehavi_co Mmin m).
  { unfold withmax_co, zehavi_co. rewrite (proj2 (Rleb_spec m (pow10 Mmax)) H), andb_true_r. destruct (Rleb _ _) eqn:A, (Rltb _ _) eqn:B; auto.
    - apply Rleb_spec in A. apply Rltb_spec in B. lra.
    - apply Rleb_false in A. apply Rltb_false in B. lra. }
  unfold ss_pairs, cs_pairs, satellite_occupation, nc, central_occupation, h_central, h, h', Zehavi05WithMax, Zehavi05, poisson_hod; simpl. rewrite E. auto.
Qed.
Theorem c09_marked_unit : forall central Mmin M1 alpha Mmax m,
  let h := Zehavi05Marked central Mmin M1 0 alpha Mmax in let h' := Zehavi05WithMax central Mmin M1 alpha Mmax in
  central_occupation h m = central_occupation h' m /\ satellite_occupation h m = satellite_occupation h' m /\
  ss_pairs h m = ss_pairs h' m /\ cs_pairs h m = cs_pairs h' m.
Proof.
  intros. destruct (c08_marked_scaling central Mmin M1 0 alpha Mmax m) as [_ [_ [A [B [_ [C [D _]]]]]]]. fold h h' in A, B, C, D.
  rewrite pow10_0 in *. rewrite A, B, C, D. repeat split; ring.
Qed.
Theorem c09_cpl_marked : forall flag Mmin M1 logA alpha Mmax sigmaA m,
  total_occupation (ContinuousPowerLaw flag Mmin M1 logA alpha Mmax sigmaA) m
  = total_occupation (Zehavi05Marked true Mmin M1 logA alpha Mmax) m.
Proof.
  intros. assert (P := pow10_pos logA). unfold total_occupation, satellite_occupation, nc, central_occupation, h_central, ContinuousPowerLaw, Zehavi05Marked; simpl.
  unfold cpl_so, marked_tpc, withmax_co, zehavi_so. destruct (_ && _); field; lra.
Qed.
(* with central=False the two differ exactly outside the mass range *)
Theorem c09_cpl_zehavi_iff : forall flag Mmin M1 alpha Mmax sigmaA m, 0 < m -> Mmin <= Mmax ->
  (total_occupation (ContinuousPowerLaw flag Mmin M1 0 alpha Mmax sigmaA) m = total_occupation (Zehavi05 false Mmin M1 alpha) m
   <-> pow10 Mmin <= m <= pow10 Mmax).
Proof.
  intros fl Mmin M1 al Mmax sA m Hm HM. unfold total_occupation, satellite_occupation, central_occupation, h_central, ContinuousPowerLaw, Zehavi05, poisson_hod; simpl.
  unfold cpl_so, zehavi_co, zehavi_so. rewrite pow10_0. assert (P := rpow_pos (m / pow10 M1) al). split.
  - destruct (Rleb (pow10 Mmin) m) eqn:A, (Rleb m (pow10 Mmax)) eqn:B; simpl; destruct (Rltb m _) eqn:C; intros; try lra;
    try apply Rleb_spec in A; try apply Rleb_spec in B; try lra.
  - intros [A B]. rewrite (proj2 (Rleb_spec _ _) A), (proj2 (Rleb_spec _ _) B). simpl. destruct (Rltb m _) eqn:C; [apply Rltb_spec in C; lra|]. lra.
Qed.

(** * C10 Leauthaud11: M_min is overwritten *)
(* a query other than reading mmin *)
Definition occupation_query (q : leau_op) : bool := match q with QMmin => false | _ => true end.
Theorem c10_history_independent : forall interp1d o history q, occupation_query q = true ->
  snd (leau_run interp1d (leau_history interp1d o history) q) = snd (leau_run interp1d o q).
Proof. intros. now apply history_indep. Qed.
Theorem c10_supplied_Mmin_irrelevant : forall interp1d p msat mcut central v q, occupation_query q = true ->
  snd (leau_run interp1d (mkObj (set_Mmin p v) msat mcut central) q) = snd (leau_run interp1d (mkObj p msat mcut central) q).
Proof. intros. now apply supplied_indep. Qed.
Theorem c10_mmin_value : forall interp1d o history,
  snd (leau_run interp1d (leau_history interp1d o history) QMmin)
  = if existsb occupation_query history then mean_log_halo_mass (lo_params o) (l_sm_thresh (lo_params o)) else l_Mmin (lo_params o).
Proof. intros. apply mmin_history. Qed.
Theorem c10_params_fixed_after_first : forall interp1d o history more, existsb occupation_query history = true ->
  lo_params (leau_history interp1d o (history ++ more)) = lo_params (leau_history interp1d o history).
Proof. intros. now apply params_fixed. Qed.
(* mmin is the same before and after any history iff the derived value was supplied *)
Theorem c10_mmin_history_dependent_iff : forall interp1d o,
  (forall history, snd (leau_run interp1d (leau_history interp1d o history) QMmin) = snd (leau_run interp1d o QMmin))
  <-> l_Mmin (lo_params o) = mean_log_halo_mass (lo_params o) (l_sm_thresh (lo_params o)).
Proof.
  intros. split.
  - intros H. specialize (H [QCentral 1]). rewrite c10_mmin_value in H. symmetry. exact H.
  - intros E h. rewrite c10_mmin_value. destruct existsb; simpl; auto.
Qed.

(** * C11 Leauthaud11: the stellar-to-halo mass relation *)
Definition relation_signs (p : leau_params) : Prop :=
  let a := 1 / (1 + l_redshift p) in
  0 < l_beta_0 p + l_beta_a p * (a - 1) /\ 0 <= l_delta_0 p + l_delta_a p * (a - 1) /\ 0 <= l_gamma_0 p + l_gamma_a p * (a - 1).
Theorem c11_strictly_increasing : forall p x y, relation_signs p -> x < y ->
  mean_log_halo_mass p x < mean_log_halo_mass p y.
Proof. intros. now apply mlhm_incr. Qed.
Theorem c11_inverse_exists : forall p y, relation_signs p -> exists! x, mean_log_halo_mass p x = y.
Proof. intros. now apply mlhm_bij. Qed.
(* the inverse relation used by the code is exact at its 1000 nodes, for any interpolant *)
Theorem c11_roundtrip_at_nodes : forall interp1d p i,
  (forall xs ys j, (forall a b, (a < b < length xs)%nat -> nth a xs 0 < nth b xs 0) ->
     length xs = length ys -> (j < length xs)%nat -> interp1d xs ys (nth j xs 0) = nth j ys 0) ->
  relation_signs p -> (i < 1000)%nat ->
  mean_log_stellar_mass interp1d p (pow10 (mean_log_halo_mass p (INR i * 14 / 999))) = INR i * 14 / 999.
Proof. intros. now apply roundtrip. Qed.
Definition leau_default : leau_params := mkLeau 0 9 10.72 0 12.35 0 0.43 0 0.56 0 1.54 0 0.206 1 0.859 10.62 (-0.13) 1.47 10.
Example c11_ex : relation_signs leau_default /\
  (forall xs ys j, (forall a b, (a < b < length xs)%nat -> nth a xs 0 < nth b xs 0) ->
     length xs = length ys -> (j < length xs)%nat -> lookup xs ys (nth j xs 0) = nth j ys 0).
Proof. split; [unfold relation_signs; simpl; lra|]. intros. now apply lookup_interpolates. Qed.

(** * C74 Tinker05 below M_min *)
Theorem c74_tinker_nan_iff : forall big Mmin M1 Mcut m, 0 < big -> 0 < m ->
  (tinker_so_float big Mmin M1 Mcut m = NaN <-> m < pow10 Mmin /\ big * (pow10 Mmin - m) < pow10 Mcut).
Proof.
  intros big Mmin M1 Mcut m Hb Hm. assert (P := pow10_pos Mcut). unfold tinker_so_float, np_div.
  destruct (Reqb (m - pow10 Mmin) 0) eqn:E.
  - apply Reqb_spec in E. destruct (Reqb (- pow10 Mcut) 0) eqn:E1; [apply Reqb_spec in E1; lra|].
    destruct (Rltb 0 (- pow10 Mcut)) eqn:E2; [apply Rltb_spec in E2; lra|]. simpl. split; [discriminate|lra].
  - apply Reqb_false in E. simpl np_exp. destruct (Rltb big (- pow10 Mcut / (m - pow10 Mmin))) eqn:B.
    + apply Rltb_spec in B. assert (L : m < pow10 Mmin).
      { destruct (Rtotal_order m (pow10 Mmin)) as [|[|G]]; auto; [lra|]. exfalso.
        assert (0 < pow10 Mcut / (m - pow10 Mmin)) by (apply Rdiv_lt_0_compat; lra). unfold Rdiv in *. lra. }
      unfold zehavi_co. rewrite (proj2 (Rltb_spec _ _) L). simpl. destruct (Reqb 0 0) eqn:Z; [|apply Reqb_false in Z; lra].
      split; auto. intros _. split; auto.
      apply Rmult_lt_compat_r with (r := pow10 Mmin - m) in B; [|lra].
      replace (- pow10 Mcut / (m - pow10 Mmin) * (pow10 Mmin - m)) with (pow10 Mcut) in B by (field; lra). exact B.
    + apply Rltb_false in B. simpl. split; [discriminate|]. intros [L C]. exfalso.
      apply Rmult_le_compat_r with (r := pow10 Mmin - m) in B; [|lra].
      replace (- pow10 Mcut / (m - pow10 Mmin) * (pow10 Mmin - m)) with (pow10 Mcut) in B by (field; lra). lra.
Qed.
(* everywhere else the value is the intended real number *)
Theorem c74_tinker_otherwise_exact : forall big Mmin M1 Mcut m, 0 < big -> 0 < m ->
  tinker_so_float big Mmin M1 Mcut m <> NaN ->
  tinker_so_float big Mmin M1 Mcut m = Fin (satellite_occupation (Tinker05 false Mmin M1 Mcut) m).
Proof.
  intros big Mmin M1 Mcut m Hb Hm N. assert (P := pow10_pos Mcut). change (satellite_occupation (Tinker05 false Mmin M1 Mcut) m) with (tinker_so Mmin M1 Mcut m).
  assert (Q := proj2 (c74_tinker_nan_iff big Mmin M1 Mcut m Hb Hm)). 
  unfold tinker_so_float, np_div, tinker_so in *. cbv zeta.
  destruct (Reqb (m - pow10 Mmin) 0) eqn:E.
  - apply Reqb_spec in E. destruct (Reqb (- pow10 Mcut) 0) eqn:E1; [apply Reqb_spec in E1; lra|].
    destruct (Rltb 0 (- pow10 Mcut)) eqn:E2; [apply Rltb_spec in E2; lra|].
    destruct (Reqb m (pow10 Mmin)) eqn:E3; [|apply Reqb_false in E3; lra]. simpl. f_equal; ring.
  - apply Reqb_false in E. destruct (Reqb m (pow10 Mmin)) eqn:E3; [apply Reqb_spec in E3; lra|].
    simpl np_exp in *. destruct (Rltb big (- pow10 Mcut / (m - pow10 Mmin))) eqn:B; [|reflexivity].
    exfalso. apply Rltb_spec in B. apply N, Q. assert (L : m < pow10 Mmin).
    { destruct (Rtotal_order m (pow10 Mmin)) as [|[|G]]; auto; [lra|]. exfalso.
        assert (0 < pow10 Mcut / (m - pow10 Mmin)) by (apply Rdiv_lt_0_compat; lra). unfold Rdiv in *. lra. }
    split; auto. apply Rmult_lt_compat_r with (r := pow10 Mmin - m) in B; [|lra].
      replace (- pow10 Mcut / (m - pow10 Mmin) * (pow10 Mmin - m)) with (pow10 Mcut) in B by (field; lra). exact B.
Qed.
(* so for any parameters there is an interval of halo masses just below 10**M_min with NaN satellites *)
Theorem c74_tinker_nan_interval : forall big Mmin M1 Mcut, 0 < big ->
  exists lo, lo < pow10 Mmin /\ forall m, 0 < m -> lo < m < pow10 Mmin -> tinker_so_float big Mmin M1 Mcut m = NaN.
Proof.
  intros. exists (pow10 Mmin - pow10 Mcut / big). assert (P := pow10_pos Mcut).
  assert (0 < pow10 Mcut / big) by now apply Rdiv_lt_0_compat. split; [lra|]. intros m Hm [A B]. apply c74_tinker_nan_iff; auto. split; auto.
  apply Rlt_le_trans with (big * (pow10 Mcut / big)); [apply Rmult_lt_compat_l; lra|]. right; field; lra.
Qed.

(** * C75 populate draws centrals with the tracer amount, not the galaxy number *)
Theorem c75_central_prob_iff : forall h m, h_kind h = Poisson -> h_tpc h m <> 0 ->
  (populate_central_prob h m = nc h m <-> h_tpc h m = 1 \/ central_occupation h m = 0).
Proof.
  intros h m K T. unfold populate_central_prob, nc. rewrite K. split.
  - intros E. destruct (Req_dec (central_occupation h m) 0); auto. left.
    apply Rmult_eq_reg_l with (central_occupation h m); auto. apply (f_equal (fun z => z * h_tpc h m)) in E.
    unfold Rdiv in E. rewrite Rmult_assoc, Rinv_l in E by auto. lra.
  - intros [->| ->]; field; auto.
Qed.
Theorem c75_marked_probability_above_one : forall central Mmin M1 logA alpha Mmax m, 0 < logA ->
  pow10 Mmin <= m <= pow10 Mmax ->
  let h := Zehavi05Marked central Mmin M1 logA alpha Mmax in
  nc h m = 1 /\ 1 < populate_central_prob h m.
Proof.
  intros c Mmin M1 lA al Mmax m HA [B C] h. assert (P := pow10_pos lA).
  assert (E : withmax_co Mmin Mmax m = 1) by (unfold withmax_co; rewrite (proj2 (Rleb_spec _ _) B), (proj2 (Rleb_spec _ _) C); reflexivity).
  unfold populate_central_prob, nc, central_occupation, h; simpl. unfold marked_tpc. rewrite E. split; [field; lra|].
  assert (Q := pow10_incr 0 lA HA). rewrite pow10_0 in Q. lra.
Qed.

(** * C76 Spinelli19 with the central condition outside the counts range *)
Theorem c76_spinelli_not_finite : forall p m, 0 < m -> 0 <= sp_a1 p -> 0 < sp_a2 p ->
  ~ (pow10 (sp_Mmin_counts p) <= m <= pow10 (sp_Mmax_counts p)) ->
  spinelli_nc_float p m = PInf /\
  (m < 10 ^ 11 -> spinelli_sat_float p m = NaN) /\ (10 ^ 11 <= m -> spinelli_sat_float p m = PInf).
Proof.
  intros p m Hm A1 A2 Out. assert (C := spinelli_co_pos p m Hm A1 A2).
  assert (T : spinelli_tpc p m = 0).
  { unfold spinelli_tpc, spinelli_in. destruct (Rleb _ m) eqn:X, (Rleb m _) eqn:Y; simpl; auto.
    apply Rleb_spec in X. apply Rleb_spec in Y. tauto. }
  assert (N : spinelli_nc_float p m = PInf).
  { unfold spinelli_nc_float, np_div. rewrite T. destruct (Reqb 0 0) eqn:Z; [|apply Reqb_false in Z; lra].
    destruct (Reqb (spinelli_co p m) 0) eqn:Z1; [apply Reqb_spec in Z1; lra|]. rewrite (proj2 (Rltb_spec _ _) C). reflexivity. }
  split; auto. unfold spinelli_sat_float. rewrite N. split; intros L.
  - assert (S : spinelli_so p m = 0). { unfold spinelli_so; cbv zeta. destruct (Rleb (10^11) m) eqn:Z; [apply Rleb_spec in Z; lra|]. simpl. ring. }
    rewrite S. simpl. destruct (Reqb 0 0) eqn:Z; auto. apply Reqb_false in Z; lra.
  - assert (S : 0 < spinelli_so p m).
    { unfold spinelli_so; cbv zeta. rewrite (proj2 (Rleb_spec _ _) L). simpl b2R. rewrite Rmult_1_r.
      repeat apply Rmult_lt_0_compat; try apply exp_pos; try apply pow10_pos; apply rpow_pos. }
    simpl. destruct (Reqb _ 0) eqn:Z; [apply Reqb_spec in Z; lra|]. rewrite (proj2 (Rltb_spec _ _) S). reflexivity.
Qed.
Theorem c76_spinelli_inside_finite : forall p m, 0 < m ->
  pow10 (sp_Mmin_counts p) <= m <= pow10 (sp_Mmax_counts p) ->
  spinelli_sat_float p m = Fin (satellite_occupation (Spinelli19 true p) m).
Proof.
  intros p m Hm [A B]. assert (T : spinelli_tpc p m = 1) by (unfold spinelli_tpc, spinelli_in; rewrite (proj2 (Rleb_spec _ _) A), (proj2 (Rleb_spec _ _) B); reflexivity).
  unfold spinelli_sat_float, spinelli_nc_float, np_div. rewrite T. destruct (Reqb 1 0) eqn:Z; [apply Reqb_spec in Z; lra|]. simpl.
  unfold satellite_occupation, nc, central_occupation; simpl. rewrite T. reflexivity.
Qed.

Print Assumptions c02_zheng.
Print Assumptions c05_independent.
Print Assumptions c06_populate_agrees_iff.
Print Assumptions c11_inverse_exists.
