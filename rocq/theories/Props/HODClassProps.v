(** C140: what each HOD class does to the integrals and pair counts built on it: where the mass integrals start, and the scatter of the bulk tracers. *)
From Coq Require Import Reals List Bool Lra Psatz.
From Verif Require Import Model.RBool Model.SpecialFn Model.HOD Model.Profiles Model.HaloModel Model.Cross Proofs.HODProofs.
Import ListNotations.
Local Open Scope R_scope.

(** the integrals over the tracer population start at 10**M_min - and take the central occupation to be one from there on - exactly for the Zehavi05 family
    with central=True and for Tinker05 with either setting.  ContinuousPowerLaw is cut sharply as well, but its integrals run over all tabulated masses. *)
Definition starts_at (h : hod) (M : R) : Prop := tracer_mmin h = Some (Rpower 10 M) /\ forall m, tot_int h m = 1 + satellite_occupation h m.
Definition full_range (h : hod) : Prop := tracer_mmin h = None /\ forall m, tot_int h m = total_occupation h m.
Theorem c140_integration_start : forall central Mmin M1 alpha M0 sig fca fcb fs delta x Mcut Mmax logA sigmaA p,
  (central = true -> starts_at (Zehavi05 central Mmin M1 alpha) Mmin /\ starts_at (Zehavi05WithMax central Mmin M1 alpha Mmax) Mmin /\ starts_at (Zehavi05Marked central Mmin M1 logA alpha Mmax) Mmin) /\
  (central = false -> full_range (Zehavi05 central Mmin M1 alpha) /\ full_range (Zehavi05WithMax central Mmin M1 alpha Mmax) /\ full_range (Zehavi05Marked central Mmin M1 logA alpha Mmax)) /\
  starts_at (Tinker05 central Mmin M1 Mcut) Mmin /\
  full_range (Zheng05 central Mmin M1 alpha M0 sig) /\ full_range (Contreras13 central Mmin M1 alpha M0 sig fca fcb fs delta x) /\ full_range (Geach12 central Mmin M1 alpha M0 sig fca fcb fs delta x) /\
  full_range (ContinuousPowerLaw central Mmin M1 logA alpha Mmax sigmaA) /\ full_range (ConstantHOD central logA Mmin sigmaA) /\ full_range (Spinelli19 central p).
Proof.
  intros. unfold starts_at, full_range, tracer_mmin, tot_int, cen_int, cut, total_occupation, h_central. 
  split; [intros ->; simpl; repeat split; auto|split; [intros ->; simpl; repeat split; auto|]].
  repeat split; intros; simpl; rewrite ?andb_true_r, ?orb_true_r; auto.
Qed.
Print Assumptions c140_integration_start.

(** C04 for the classes themselves: with central=True the satellites are those of central=False times the central count, for every discrete HOD but Tinker05 *)
Theorem c04_classes : forall Mmin M1 alpha M0 sig fca fcb fs delta x Mcut Mmax logA p m,
  let conditioned (h : bool -> hod) n := satellite_occupation (h true) m = n * satellite_occupation (h false) m in
  conditioned (fun b => Zehavi05 b Mmin M1 alpha) (central_occupation (Zehavi05 true Mmin M1 alpha) m) /\
  conditioned (fun b => Zehavi05WithMax b Mmin M1 alpha Mmax) (central_occupation (Zehavi05WithMax true Mmin M1 alpha Mmax) m) /\
  conditioned (fun b => Zehavi05Marked b Mmin M1 logA alpha Mmax) (central_occupation (Zehavi05Marked true Mmin M1 logA alpha Mmax) m / Rpower 10 logA) /\
  conditioned (fun b => Zheng05 b Mmin M1 alpha M0 sig) (central_occupation (Zheng05 true Mmin M1 alpha M0 sig) m) /\
  conditioned (fun b => Contreras13 b Mmin M1 alpha M0 sig fca fcb fs delta x) (central_occupation (Contreras13 true Mmin M1 alpha M0 sig fca fcb fs delta x) m) /\
  conditioned (fun b => Geach12 b Mmin M1 alpha M0 sig fca fcb fs delta x) (central_occupation (Geach12 true Mmin M1 alpha M0 sig fca fcb fs delta x) m) /\
  (Rpower 10 (sp_Mmin_counts p) <= m <= Rpower 10 (sp_Mmax_counts p) -> conditioned (fun b => Spinelli19 b p) (central_occupation (Spinelli19 true p) m)) /\
  conditioned (fun b => Tinker05 b Mmin M1 Mcut) 1.
Proof.
  intros. unfold conditioned, satellite_occupation, h_central, nc, central_occupation, one; simpl. unfold one.
  repeat split; try (field; fail); try (now rewrite Rdiv_1).
  - intros H. unfold spinelli_tpc, spinelli_in. replace (Rleb (pow10 (sp_Mmin_counts p)) m) with true by (symmetry; now apply Rleb_spec). replace (Rleb m (pow10 (sp_Mmax_counts p))) with true by (symmetry; now apply Rleb_spec). simpl. unfold one. field.
Qed.
Print Assumptions c04_classes.

(** the two bulk tracers: a constant standard deviation at every halo mass, above and below the cut *)
Definition bulk_tracer (sA : R) (h : hod) : Prop :=
  (exists central Mmin M1 logA alpha Mmax, h = ContinuousPowerLaw central Mmin M1 logA alpha Mmax sA) \/ (exists central logA Mmin, h = ConstantHOD central logA Mmin sA).
Lemma bulk_sigs : forall sA h m, bulk_tracer sA h -> sigs h m = Some sA /\ sigma_satellite h m = sA /\ sigc h m = Some 0 /\ central_occupation h m = 0.
Proof.
  intros sA h m [[c [Mm [M1 [l [a [Mx ->]]]]]]|[c [l [Mm ->]]]]; unfold sigs, sigma_satellite, sigc, central_occupation; simpl; rewrite Rmult_1_l; auto.
Qed.
Theorem c140_bulk_pairs : forall s1 s2 h1 h2 rss rcs rsc m, bulk_tracer s1 h1 -> bulk_tracer s2 h2 ->
  ss_cross_pairs (ConstantCorr h1 h2 rss rcs rsc) m = Some (total_occupation h1 m * total_occupation h2 m + s1 * s2 * rss) /\
  cs_cross_pairs (ConstantCorr h1 h2 rss rcs rsc) m = Some 0 /\ sc_cross_pairs (ConstantCorr h1 h2 rss rcs rsc) m = Some 0.
Proof.
  intros s1 s2 h1 h2 rss rcs rsc m B1 B2. destruct (bulk_sigs s1 h1 m B1) as [A1 [_ [C1 D1]]]. destruct (bulk_sigs s2 h2 m B2) as [A2 [_ [C2 D2]]].
  unfold ss_cross_pairs, cs_cross_pairs, sc_cross_pairs, with_corr, total_occupation. cbn [x_h1 x_h2 x_Rss x_Rcs x_Rsc x_self ConstantCorr]. rewrite A1, A2, C1, C2, D1, D2. repeat split; f_equal; ring.
Qed.
Print Assumptions c140_bulk_pairs.
(** finding: below both cuts neither tracer exists, yet the pairs there are s1 s2 R_ss *)
Theorem c140_pairs_without_tracers : forall s1 s2 f1 f2 M1 a1 b1 c1 x1 M2 l2 rss rcs rsc m, 0 < m -> m < pow10 M1 -> m < pow10 M2 ->
  let h1 := ContinuousPowerLaw f1 M1 a1 b1 c1 x1 s1 in let h2 := ConstantHOD f2 l2 M2 s2 in
  total_occupation h1 m = 0 /\ total_occupation h2 m = 0 /\ (ss_cross_pairs (ConstantCorr h1 h2 rss rcs rsc) m = Some 0 <-> s1 * s2 * rss = 0).
Proof.
  intros s1 s2 f1 f2 M1 a1 b1 c1 x1 M2 l2 rss rcs rsc m M0 A B h1 h2.
  assert (T1 : total_occupation h1 m = 0). { unfold total_occupation, central_occupation, satellite_occupation, h1; simpl. unfold cpl_so. replace (Rleb (pow10 M1) m) with false; [simpl; ring|]. symmetry. apply Rleb_false. lra. }
  assert (T2 : total_occupation h2 m = 0). { unfold total_occupation, central_occupation, satellite_occupation, h2; simpl. unfold constant_so. replace (Rltb (pow10 M2) m) with false; [ring|]. symmetry. apply Rltb_false. lra. }
  split; auto. split; auto. destruct (c140_bulk_pairs s1 s2 h1 h2 rss rcs rsc m) as [E _]; [left; repeat eexists|right; repeat eexists|]. rewrite E, T1, T2. split; intros H; [injection H as H; lra|f_equal; lra].
Qed.
Print Assumptions c140_pairs_without_tracers.
Example c140_met : bulk_tracer 2 (ContinuousPowerLaw false 12 13 0 1 18 2) /\ bulk_tracer 3 (ConstantHOD false 0 11 3) /\ 1 < pow10 12 /\ 2 * 3 * 1 <> 0.
Proof.
  repeat split; [left; repeat eexists|right; repeat eexists| |lra]. unfold pow10. rewrite <- (Rpower_O 10) at 1 by lra. apply Rpower_lt; lra.
Qed.
