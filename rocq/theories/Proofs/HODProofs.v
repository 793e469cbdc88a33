From Coq Require Import Reals Lra Lia Bool Psatz.
From Coquelicot Require Import Coquelicot.
From Verif Require Import Model.RBool Model.SpecialFn Model.HOD Spec.ProbSpec
  Proofs.Calc Proofs.Erf Proofs.ProbProofs.
Local Open Scope R_scope.

Lemma pow10_pos : forall x, 0 < pow10 x.
Proof. intros. apply exp_pos. Qed.
Lemma ln10_pos : 0 < ln 10.
Proof. rewrite <- ln_1. apply ln_increasing; lra. Qed.
Lemma log10_pow10 : forall x, log10 (pow10 x) = x.
Proof. intros. unfold log10, pow10, Rpower. rewrite ln_exp. field. assert (H := ln10_pos). lra. Qed.
Lemma pow10_log10 : forall m, 0 < m -> pow10 (log10 m) = m.
Proof.
  intros. unfold log10, pow10, Rpower. assert (Q := ln10_pos). replace (ln m / ln 10 * ln 10) with (ln m) by (field; lra). apply exp_ln; auto.
Qed.
Lemma log10_incr : forall a b, 0 < a -> a < b -> log10 a < log10 b.
Proof. intros. unfold log10. apply Rmult_lt_compat_r; [apply Rinv_0_lt_compat, ln10_pos|now apply ln_increasing]. Qed.
Lemma log10_mono : forall a b, 0 < a -> a <= b -> log10 a <= log10 b.
Proof. intros a b Ha [H| ->]; [left; now apply log10_incr|lra]. Qed.
Lemma pow10_incr : forall a b, a < b -> pow10 a < pow10 b.
Proof. intros. unfold pow10, Rpower. apply exp_increasing. apply Rmult_lt_compat_r; auto. apply ln10_pos. Qed.
Lemma pow10_mono : forall a b, a <= b -> pow10 a <= pow10 b.
Proof. intros a b [H| ->]; [left; now apply pow10_incr|lra]. Qed.
Lemma pow10_0 : pow10 0 = 1.
Proof. unfold pow10. apply Rpower_O. lra. Qed.
Lemma log10_div : forall m M, 0 < m -> log10 (m / pow10 M) = log10 m - M.
Proof.
  intros. unfold log10. replace (m / pow10 M) with (m * / pow10 M) by reflexivity.
  rewrite (ln_mult m (/ pow10 M) H (Rinv_0_lt_compat _ (pow10_pos M))).
  rewrite ln_Rinv by apply pow10_pos. assert (E := log10_pow10 M). unfold log10 in E.
  assert (Q := ln10_pos). assert (F : ln (pow10 M) = M * ln 10) by (apply (f_equal (fun z => z * ln 10)) in E; rewrite <- E; field; lra).
  rewrite F. field. lra.
Qed.
Lemma erf1_pos : forall x, 0 < 1 + erf x.
Proof. intros. assert (H := erf_range x). lra. Qed.
Lemma rpow_pos : forall a b, 0 < Rpower a b.
Proof. intros. apply exp_pos. Qed.

(** * generic *)
Definition nonneg_at (h : hod) (m : R) : Prop :=
  0 <= central_occupation h m /\ 0 <= satellite_occupation h m /\ 0 <= total_occupation h m /\
  0 <= ss_pairs h m /\ 0 <= cs_pairs h m /\ 0 <= total_pair_function h m.

Lemma nonneg_generic : forall h m, 0 <= h_co h m -> 0 <= h_so h m -> 0 <= h_tpc h m ->
  (h_central h = true -> 0 < h_tpc h m) -> nonneg_at h m.
Proof.
  intros h m Hc Hs Ht Hcc.
  assert (A : 0 <= central_occupation h m) by (unfold central_occupation; destruct (h_kind h); lra).
  assert (B : 0 <= satellite_occupation h m).
  { unfold satellite_occupation. destruct (h_central h) eqn:E; simpl; auto. destruct (h_inherent h); simpl; auto.
    apply Rmult_le_pos; auto. unfold nc. unfold h_central in E. destruct (h_kind h) eqn:K; [|lra].
    apply Rmult_le_pos; auto. left. apply Rinv_0_lt_compat. auto. }
  assert (S : 0 <= ss_pairs h m) by (unfold ss_pairs; apply pow2_ge_0).
  assert (C : 0 <= cs_pairs h m).
  { unfold cs_pairs. destruct (h_kind h); [|lra]. destruct (h_central h); apply Rmult_le_pos; auto. }
  unfold nonneg_at, total_occupation, total_pair_function. repeat split; auto; lra.
Qed.

Lemma zehavi_co_01 : forall M m, zehavi_co M m = 0 \/ zehavi_co M m = 1.
Proof. intros. unfold zehavi_co. destruct Rltb; auto. Qed.
Lemma withmax_co_01 : forall M N m, withmax_co M N m = 0 \/ withmax_co M N m = 1.
Proof. intros. unfold withmax_co. destruct (_ && _); auto. Qed.

Lemma tinker_so_nonneg : forall Mmin M1 Mcut m, 0 < m -> 0 <= tinker_so Mmin M1 Mcut m.
Proof.
  intros. unfold tinker_so. cbv zeta. apply Rmult_le_pos.
  - apply Rmult_le_pos; [destruct (zehavi_co_01 Mmin m) as [->| ->]; lra|]. destruct Reqb; [lra|left; apply exp_pos].
  - left. apply Rdiv_lt_0_compat; auto. apply pow10_pos.
Qed.

(** * Zheng05 *)
Lemma zheng_range : forall Mmin sig m, 0 < zheng_co Mmin sig m < 1.
Proof. intros. unfold zheng_co. assert (H := erf_range ((log10 m - Mmin) / sig)). lra. Qed.
Lemma zheng_mono : forall Mmin sig m m', 0 < sig -> 0 < m -> m < m' -> zheng_co Mmin sig m < zheng_co Mmin sig m'.
Proof.
  intros. unfold zheng_co. assert (erf ((log10 m - Mmin)/sig) < erf ((log10 m' - Mmin)/sig)); [|lra].
  apply erf_incr. apply Rmult_lt_compat_r; [now apply Rinv_0_lt_compat|]. assert (A := log10_incr m m'). lra.
Qed.
Lemma zheng_half : forall Mmin sig, zheng_co Mmin sig (pow10 Mmin) = 1/2.
Proof. intros. unfold zheng_co. rewrite log10_pow10. replace ((Mmin - Mmin)/sig) with 0 by (unfold Rdiv; ring). rewrite erf_0. lra. Qed.
Lemma zheng_high : forall Mmin sig eps, 0 < sig -> 0 < eps -> exists M0, forall m, M0 <= m -> 0 < m -> 1 - eps < zheng_co Mmin sig m.
Proof.
  intros Mmin sig eps Hs He. destruct (erf_lim eps He) as [x0 [Hx H]]. exists (pow10 (Mmin + x0 * sig)).
  intros m Hm Hp. unfold zheng_co. specialize (H ((log10 m - Mmin)/sig)).
  assert (x0 <= (log10 m - Mmin)/sig).
  { apply Rmult_le_reg_r with sig; auto. replace ((log10 m - Mmin)/sig*sig) with (log10 m - Mmin) by (field; lra).
    assert (A := log10_mono _ _ (pow10_pos _) Hm). rewrite log10_pow10 in A. lra. }
  specialize (H H0). lra.
Qed.
Lemma zheng_low : forall Mmin sig eps, 0 < sig -> 0 < eps -> exists M0, 0 < M0 /\ forall m, 0 < m -> m <= M0 -> zheng_co Mmin sig m < eps.
Proof.
  intros Mmin sig eps Hs He. destruct (erf_lim eps He) as [x0 [Hx H]]. exists (pow10 (Mmin - x0 * sig)). split; [apply pow10_pos|].
  intros m Hp Hm. unfold zheng_co. specialize (H (- ((log10 m - Mmin)/sig))). rewrite erf_odd in H.
  assert (x0 <= - ((log10 m - Mmin)/sig)).
  { apply Rmult_le_reg_r with sig; auto. replace (- ((log10 m - Mmin)/sig)*sig) with (- (log10 m - Mmin)) by (field; lra).
    assert (A := log10_mono _ _ Hp Hm). rewrite log10_pow10 in A. lra. }
  specialize (H H0). lra.
Qed.

(** * Contreras13 *)
Lemma contreras_fcb0 : forall Mmin sig fca x m, contreras_co Mmin sig fca 0 x m = fca * (1 + erf (log10 (m / pow10 Mmin) / x / sig)).
Proof. intros. unfold contreras_co. ring. Qed.
Lemma contreras_sup : forall Mmin sig fca x eps, 0 < x -> 0 < sig -> 0 < fca -> 0 < eps ->
  exists m, 0 < m /\ 2 * fca - eps < contreras_co Mmin sig fca 0 x m.
Proof.
  intros Mmin sig fca x eps Hx Hs Hf He. destruct (erf_lim (eps / fca)) as [x0 [Hx0 H]]; [apply Rdiv_lt_0_compat; auto|].
  exists (pow10 (Mmin + x0 * x * sig)). split; [apply pow10_pos|]. rewrite contreras_fcb0, log10_div, log10_pow10 by apply pow10_pos.
  replace ((Mmin + x0 * x * sig - Mmin) / x / sig) with x0 by (field; lra).
  specialize (H x0 (Rle_refl _)). 
  assert (fca * (1 - eps/fca) < fca * erf x0) by (apply Rmult_lt_compat_l; auto).
  replace (fca * (1 - eps/fca)) with (fca - eps) in H0 by (field; lra). lra.
Qed.
