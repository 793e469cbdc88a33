(** Probabilities stay probabilities under rounding (C133). *)
From Coq Require Import Reals ZArith Lra Lia.
From Flocq Require Import Core.
From Verif Require Import Model.RBool Model.Float64 Model.FloatHOD Proofs.Float64Proofs Props.FloatWrapProps.
Local Open Scope R_scope.

Lemma double_1 : double 1. Proof. apply (double_Z 1). lia. Qed.
Lemma double_2 : double 2. Proof. apply (double_Z 2). lia. Qed.

(** C133: whatever the accuracy of the library's log10 and erf, as long as erf returns doubles in [-1, 1], the central occupation of Zheng05 computed in double precision is a
    probability - populate's binomial sampler accepts it - and the argument of the square root in the standard deviation is not negative *)
Theorem c133_zheng_probability : forall lib_log10 lib_erf Mmin sig m, (forall x, -1 <= lib_erf x <= 1) ->
  let p := float_zheng_co lib_log10 lib_erf Mmin sig m in 0 <= p <= 1 /\ double p /\ 0 <= float_variance_central p.
Proof.
  intros lib_log10 lib_erf Mmin sig m E p. assert (P : 0 <= p <= 1).
  { unfold p, float_zheng_co. specialize (E (rnd (rnd (lib_log10 m - Mmin) / sig))). set (e := lib_erf _) in *.
    assert (0 <= rnd (1 + e) <= 2) by (split; [apply rnd_nonneg; lra|apply rnd_le; [apply double_2|lra]]).
    split; [apply rnd_nonneg; lra|apply rnd_le; [apply double_1|lra]]. }
  split; auto. split; [apply rnd_double|]. unfold float_variance_central. apply rnd_nonneg. apply Rmult_le_pos; [lra|]. apply rnd_nonneg. lra.
Qed.
Print Assumptions c133_zheng_probability.

(** the number under that square root is p (1 - p) to two roundings *)
Theorem c133_variance_accuracy : forall p, double p -> 0 <= p <= 1 -> Rabs (float_variance_central p - p * (1 - p)) <= 3 * hu * (p * (1 - p)) + tiny.
Proof.
  intros p D P. destruct (rnd_minus_rel 1 p double_1 D) as [e [E H]]. unfold float_variance_central. rewrite H. assert (X := rnd_err (p * ((1 - p) * (1 + e)))). assert (HU := hu_pos). assert (HU1 : hu <= 1) by (unfold hu; lra).
  apply abs_le in E. set (v := p * (1 - p)) in *. assert (V : 0 <= v) by (unfold v; apply Rmult_le_pos; lra). replace (p * ((1 - p) * (1 + e))) with (v * (1 + e)) in * by (unfold v; ring).
  assert (A : Rabs (v * (1 + e)) <= 2 * v). { rewrite Rabs_pos_eq; nra. }
  assert (B : Rabs (v * (1 + e) - v) <= hu * v). { replace (v * (1 + e) - v) with (v * e) by ring. rewrite Rabs_mult, (Rabs_pos_eq v) by auto. rewrite Rmult_comm. apply Rmult_le_compat_r; auto. apply Rabs_le. lra. }
  replace (rnd (v * (1 + e)) - v) with ((rnd (v * (1 + e)) - v * (1 + e)) + (v * (1 + e) - v)) by ring. eapply Rle_trans; [apply Rabs_triang|]. assert (hu * Rabs (v * (1 + e)) <= hu * (2 * v)) by (apply Rmult_le_compat_l; lra). lra.
Qed.
Print Assumptions c133_variance_accuracy.
(** it does not decrease with mass if the library's log10 and erf do not (sig_logm > 0) *)
Theorem c133_zheng_monotone : forall lib_log10 lib_erf Mmin sig m m', (forall x y, x <= y -> lib_erf x <= lib_erf y) -> (forall x y, 0 < x <= y -> lib_log10 x <= lib_log10 y) ->
  0 < sig -> 0 < m <= m' -> float_zheng_co lib_log10 lib_erf Mmin sig m <= float_zheng_co lib_log10 lib_erf Mmin sig m'.
Proof.
  intros lib_log10 lib_erf Mmin sig m m' E L S M. unfold float_zheng_co. apply rnd_mono. apply Rmult_le_compat_l; [lra|]. apply rnd_mono. apply Rplus_le_compat_l. apply E. apply rnd_mono.
  apply Rmult_le_compat_r; [left; apply Rinv_0_lt_compat; auto|]. apply rnd_mono. specialize (L m m' M). lra.
Qed.
Print Assumptions c133_zheng_monotone.

(** fractions: if the satellite density is between 0 and the mean density, both fractions computed are in [0, 1], and their sum differs from 1 by at most 2^-53;
    and adding the satellites to the centrals never gives less than either *)
Theorem c133_fractions : forall s mean c n, 0 <= s <= mean -> 0 < mean -> double c -> double n -> 0 <= c -> 0 <= n ->
  0 <= float_satellite_fraction s mean <= 1 /\ 0 <= float_central_fraction s mean <= 1 /\
  Rabs (float_satellite_fraction s mean + float_central_fraction s mean - 1) <= / 2 ^ 53 /\ c <= float_total c n /\ n <= float_total c n.
Proof.
  intros s mean c n S M Dc Dn C N.
  assert (Q : 0 <= s / mean <= 1).
  { split; [apply Rmult_le_pos; [lra|left; apply Rinv_0_lt_compat; auto]|]. apply (Rmult_le_reg_r mean); auto. unfold Rdiv. rewrite Rmult_assoc, Rinv_l by lra. lra. }
  assert (F : 0 <= float_satellite_fraction s mean <= 1) by (unfold float_satellite_fraction; split; [apply rnd_nonneg; lra|apply rnd_le; [apply double_1|lra]]).
  split; auto. split; [|split; [|split]].
  - unfold float_central_fraction. split; [apply rnd_nonneg; lra|apply rnd_le; [apply double_1|lra]].
  - unfold float_central_fraction. set (f := float_satellite_fraction s mean) in *. assert (Df : double f) by apply rnd_double.
    destruct (rnd_minus_rel 1 f double_1 Df) as (e & E & ->). replace (f + (1 - f) * (1 + e) - 1) with ((1 - f) * e) by ring. rewrite Rabs_mult, (Rabs_right (1 - f)) by lra.
    replace (/ 2 ^ 53) with hu by (unfold hu; simpl; lra). pose proof (Rabs_pos e). nra.
  - unfold float_total. apply rnd_ge; auto. lra.
  - unfold float_total. apply rnd_ge; auto. lra.
Qed.
Print Assumptions c133_fractions.

(** *** a concrete case: an erf that only knows its sign *)
Example coarse_erf : let erf := fun x => if Rltb x 0 then -1 else 1 in let p := float_zheng_co (fun _ => 12) erf 11 1 (10 ^ 12) in 0 <= p <= 1.
Proof. intros erf p. apply c133_zheng_probability. intros x. unfold erf. destruct (Rltb x 0); lra. Qed.

(** C133: and it is accurate: with e the double the library returns for the error function, the occupation is (1 + e)/2 up to two roundings *)
Theorem c133_zheng_accuracy : forall lib_log10 lib_erf Mmin sig m, let e := lib_erf (rnd (rnd (lib_log10 m - Mmin) / sig)) in double e -> -1 <= e <= 1 ->
  Rabs (float_zheng_co lib_log10 lib_erf Mmin sig m - (1 + e) / 2) <= 3 * hu * ((1 + e) / 2) + tiny.
Proof.
  intros lib_log10 lib_erf Mmin sig m e D E. unfold float_zheng_co. fold e. destruct (rnd_plus_rel 1 e double_1 D) as (d & A & ->). assert (X := rnd_err (/ 2 * ((1 + e) * (1 + d)))).
  assert (HU := hu_pos). assert (HU1 : hu <= 1) by (unfold hu; lra). apply abs_le in A. set (v := (1 + e) / 2). assert (V : 0 <= v) by (unfold v; lra).
  replace (/ 2 * ((1 + e) * (1 + d))) with (v * (1 + d)) in * by (unfold v; field).
  assert (B : Rabs (v * (1 + d)) <= 2 * v) by (rewrite Rabs_pos_eq; nra).
  assert (C : Rabs (v * (1 + d) - v) <= hu * v). { replace (v * (1 + d) - v) with (v * d) by ring. rewrite Rabs_mult, (Rabs_pos_eq v) by auto. rewrite Rmult_comm. apply Rmult_le_compat_r; auto. apply Rabs_le. lra. }
  replace (rnd (v * (1 + d)) - v) with ((rnd (v * (1 + d)) - v * (1 + d)) + (v * (1 + d) - v)) by ring. eapply Rle_trans; [apply Rabs_triang|].
  assert (hu * Rabs (v * (1 + d)) <= hu * (2 * v)) by (apply Rmult_le_compat_l; lra). lra.
Qed.
Print Assumptions c133_zheng_accuracy.
Example zheng_accuracy_met : exists e, double e /\ -1 <= e <= 1 /\ (1 + e) / 2 <> 0.
Proof. exists 1. split; [apply double_1|]. lra. Qed.
