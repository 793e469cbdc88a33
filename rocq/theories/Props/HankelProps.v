(** Theorems about hankel_transform, power_to_corr_ogata, corr_to_power_ogata
    and exclusion_window (C22-C25). *)
From Coq Require Import Reals String List Bool Lra Lia.
From Verif Require Import Model.RBool Model.Hankel Spec.HankelSpec Spec.WindowSpec
  Proofs.HankelProofs Proofs.HankelProofs2 Proofs.WindowProofs.
Import ListNotations.
Local Open Scope R_scope.

(** C22: the loop always ends (fuel nmax suffices), and the result is the Ogata
    sum of the first [js i * chunk] terms, [js i] being the first index at which
    the stopping rule holds; at most ceil((nmax-1)/chunk) chunks are used. *)
Theorem hankel_transform_partial_sums : forall f trns name h chunk atol rtol fuel,
  py_in name "kr" = true -> (1 <= chunk)%nat -> (og_nmax h <= fuel + 1)%nat ->
  exists js : nat -> nat,
    hankel_transform fuel f trns name h chunk atol rtol
    = HankelOk (map (fun i =>
        let rr := nth i trns 0 in
        let S := partial_sum (og_term h (f i) rr) (js i * chunk) in
        if String.eqb name "r" then S / (2 * PI ^ 2 * rr ^ 3) else S * 4 * PI / rr ^ 3)
        (seq 0 (List.length trns))) /\
    forall i, (i < List.length trns)%nat ->
      first_stop atol rtol (og_nmax h) chunk (og_term h (f i) (nth i trns 0)) (js i) /\
      (js i = 0%nat \/ ((js i - 1) * chunk + 1 < og_nmax h)%nat).
Proof. exact hankel_transform_spec. Qed.
Print Assumptions hankel_transform_partial_sums.

(** replacing every NaN sample of the integrands by 0 changes no output *)
Theorem hankel_nan_counts_as_zero : forall fuel f g trns name h chunk atol rtol,
  (forall i x, g i x = match f i x with Some y => Some y | None => Some 0 end) ->
  hankel_transform fuel f trns name h chunk atol rtol = hankel_transform fuel g trns name h chunk atol rtol.
Proof.
  intros fuel f g trns name h chunk atol rtol H. unfold hankel_transform.
  assert (T : forall i rr n, og_term h (f i) rr n = og_term h (g i) rr n) by (intros i rr n; unfold og_term; rewrite H; destruct (f i _); reflexivity).
  assert (L : forall i rr fu nn pr re, hankel_loop h atol rtol chunk (f i) rr fu nn pr re = hankel_loop h atol rtol chunk (g i) rr fu nn pr re).
  { intros i rr. induction fu as [|fu IH]; intros nn pr re; simpl; auto. destruct (_ && _); auto. rewrite IH. f_equal. f_equal. f_equal. apply map_ext. intros n. apply T. }
  replace (map _ _) with (map (fun irr : nat * R => hankel_loop h atol rtol chunk (g (fst irr)) (snd irr) fuel 1 100 0) (combine (seq 0 (List.length trns)) trns)); auto.
  apply map_ext. intros irr. symmetry. apply L.
Qed.

Theorem hankel_zero_chunk_terminates : forall h atol rtol c p rr,
  0 <= atol -> 0 <= rtol -> c = 0%nat -> forall fuel, (1 <= fuel)%nat ->
  hankel_loop h atol rtol c p rr fuel 1 100 0 = Some 0.
Proof. exact loop_zero_chunk. Qed.

Theorem hankel_direction_rejected_iff : forall f trns name h chunk atol rtol fuel,
  hankel_transform fuel f trns name h chunk atol rtol = HankelValueError
  <-> ~ (name = "" \/ name = "k" \/ name = "r" \/ name = "kr")%string.
Proof. exact hankel_bad_name. Qed.
Print Assumptions hankel_direction_rejected_iff.

Theorem hankel_directions_differ_by_8pi3 : forall f trns h chunk atol rtol fuel,
  (1 <= chunk)%nat -> (og_nmax h <= fuel + 1)%nat ->
  exists outr, hankel_transform fuel f trns "r" h chunk atol rtol = HankelOk outr /\
    forall name, (name = "" \/ name = "k" \/ name = "kr")%string ->
    hankel_transform fuel f trns name h chunk atol rtol
    = HankelOk (map (fun v => 8 * PI ^ 3 * v) outr).
Proof. exact hankel_k_vs_r. Qed.
Print Assumptions hankel_directions_differ_by_8pi3.

(** C23 *)
Theorem hankel_stops_on_small_first_chunk : forall h atol rtol c p rr fuel,
  (1 <= c)%nat -> (og_nmax h <= fuel + 1)%nat -> (2 <= og_nmax h)%nat -> atol < 100 ->
  Rabs (partial_sum (og_term h p rr) c) <= atol + rtol * Rabs (partial_sum (og_term h p rr) c) ->
  hankel_loop h atol rtol c p rr fuel 1 100 0 = Some (partial_sum (og_term h p rr) c).
Proof. exact hankel_early_stop. Qed.
Print Assumptions hankel_stops_on_small_first_chunk.

Theorem hankel_homogeneous_same_chunks : forall h atol rtol c p rr lam fuel j,
  (1 <= c)%nat -> (og_nmax h <= fuel + 1)%nat ->
  first_stop atol rtol (og_nmax h) c (og_term h p rr) j ->
  first_stop atol rtol (og_nmax h) c (og_term h (scale_fun lam p) rr) j ->
  exists v, hankel_loop h atol rtol c p rr fuel 1 100 0 = Some v /\
            hankel_loop h atol rtol c (scale_fun lam p) rr fuel 1 100 0 = Some (lam * v).
Proof. exact hankel_loop_homogeneous. Qed.
Print Assumptions hankel_homogeneous_same_chunks.

Theorem hankel_homogeneity_refuted : exists (p : R -> option R) (lam v w : R) (fuel : nat),
  hankel_loop 1 (1/10^8) (1/10^8) 1 p 1 fuel 1 100 0 = Some v /\
  hankel_loop 1 (1/10^8) (1/10^8) 1 (scale_fun lam p) 1 fuel 1 100 0 = Some w /\
  0 < lam /\ w <> lam * v.
Proof. exact hankel_not_homogeneous. Qed.
Print Assumptions hankel_homogeneity_refuted.

(** C24 *)
Theorem ogata_extrapolation_never_raises : forall spline3 power k r h pp rtol atol,
  (2 <= List.length power)%nat -> 0 < h <= 32 / 10 ->
  exists out, power_to_corr_ogata spline3 power k r h pp rtol atol = Some out /\
              List.length out = List.length r.
Proof. exact ogata_returns. Qed.
Print Assumptions ogata_extrapolation_never_raises.

Theorem ogata_lower_extrapolation : forall pp lnk p spl logk v, (2 <= List.length p)%nat ->
  fst (downgrade pp [p]) = true -> logk < lmin lnk ->
  pfunc (downgrade pp [p]) lnk p spl logk = PfOk v ->
  let slope := (ln (nth 1 p 0) - ln (nth 0 p 0)) / (nth 1 lnk 0 - nth 0 lnk 0) in
  0 < nth 0 p 0 /\ 0 < nth 1 p 0 /\ 0 < v /\
  v = nth 0 p 0 * exp (slope * (logk - nth 0 lnk 0)).
Proof. exact pfunc_lower_pos. Qed.
Print Assumptions ogata_lower_extrapolation.

Theorem ogata_upper_extrapolation : forall pp lnk p spl logk v, (2 <= List.length p)%nat ->
  let n := List.length p in
  snd (downgrade pp [p]) = true -> lmax lnk < logk ->
  pfunc (downgrade pp [p]) lnk p spl logk = PfOk v ->
  let slope := (ln (nth (n-1) p 0) - ln (nth (n-2) p 0)) / (nth (n-1) lnk 0 - nth (n-2) lnk 0) in
  0 < nth (n-1) p 0 /\ 0 < nth (n-2) p 0 /\ 0 < v /\
  v = nth (n-1) p 0 * exp (slope * (logk - nth (n-1) lnk 0)).
Proof. exact pfunc_upper_pos. Qed.
Print Assumptions ogata_upper_extrapolation.

(** in k: outside the table the (positive) power is the power law through the two end points *)
Theorem ogata_extrapolation_power_law : forall pp ks p spl k v, (2 <= List.length p)%nat -> List.length ks = List.length p ->
  List.Forall (fun x => 0 < x) ks -> 0 < k ->
  let n := List.length p in let lnk := map ln ks in
  pfunc (downgrade pp [p]) lnk p spl (ln k) = PfOk v ->
  (fst (downgrade pp [p]) = true -> ln k < lmin lnk ->
     v = nth 0 p 0 * Rpower (k / nth 0 ks 0) ((ln (nth 1 p 0) - ln (nth 0 p 0)) / (ln (nth 1 ks 0) - ln (nth 0 ks 0)))) /\
  (snd (downgrade pp [p]) = true -> lmax lnk < ln k ->
     v = nth (n-1) p 0 * Rpower (k / nth (n-1) ks 0) ((ln (nth (n-1) p 0) - ln (nth (n-2) p 0)) / (ln (nth (n-1) ks 0) - ln (nth (n-2) ks 0)))).
Proof.
  intros pp ks p spl k v L E F Hk n lnk H.
  assert (X : forall i, (i < n)%nat -> nth i lnk 0 = ln (nth i ks 0) /\ exp (nth i lnk 0) = nth i ks 0).
  { intros i Hi. assert (Q : nth i lnk 0 = ln (nth i ks 0)). { unfold lnk. rewrite (nth_indep _ 0 (ln 0)) by (rewrite map_length; unfold n in Hi; lia). apply map_nth. }
    split; auto. rewrite Q. apply exp_ln. rewrite List.Forall_forall in F. apply F. apply nth_In. unfold n in Hi. lia. }
  split; intros D C.
  - destruct (ogata_lower_extrapolation pp lnk p spl (ln k) v L D C H) as (_ & _ & _ & ->). rewrite exp_slope_power by auto. 
    destruct (X 0%nat ltac:(unfold n; lia)) as [A0 B0]. destruct (X 1%nat ltac:(unfold n; lia)) as [A1 _]. rewrite B0, A1, A0. reflexivity.
  - destruct (ogata_upper_extrapolation pp lnk p spl (ln k) v L D C H) as (_ & _ & _ & ->). rewrite exp_slope_power by auto. fold n.
    destruct (X (n-1)%nat ltac:(unfold n; lia)) as [A0 B0]. destruct (X (n-2)%nat ltac:(unfold n; lia)) as [A1 _]. rewrite B0, A1, A0. reflexivity.
Qed.
Print Assumptions ogata_extrapolation_power_law.

Theorem ogata_result_is_partial_sum : forall atol rtol kmax kk summand,
  List.length kk = List.length summand ->
  ogata_select atol rtol kmax kk summand = lsum summand \/
  exists i, (i < List.length summand)%nat /\
    ogata_select atol rtol kmax kk summand = lsum (firstn (S i) summand) /\
    kmax < nth i kk 0 /\ forall q, (q < i)%nat -> nth q kk 0 <= kmax.
Proof. exact ogata_select_partial. Qed.
Print Assumptions ogata_result_is_partial_sum.

Theorem corr_to_power_is_8pi3_power_to_corr : forall spline3 corr r k h pp atol rtol,
  corr_to_power_ogata spline3 corr r k h pp atol rtol
  = option_map (map (fun v => 8 * PI ^ 3 * v))
      (power_to_corr_ogata spline3 corr r k h pp rtol atol).
Proof. intros. unfold corr_to_power_ogata. destruct (power_to_corr_ogata _ _ _ _ _ _ _ _); reflexivity. Qed.

(** C25 *)
Theorem exclusion_window_is_tophat_transform : forall k r, k * r <> 0 ->
  exclusion_window k r = tophat_ft (k * r).
Proof. intros k r H. exact (window_is_ft (k * r) H). Qed.
Print Assumptions exclusion_window_is_tophat_transform.

Theorem exclusion_window_bounded : forall k r, k * r <> 0 -> Rabs (exclusion_window k r) <= 1.
Proof. intros k r H. exact (Rabs_le _ _ (proj1 (window_bounds (k * r) H))). Qed.
Print Assumptions exclusion_window_bounded.

Theorem exclusion_window_symmetric : forall k r, exclusion_window k r = exclusion_window r k.
Proof. intros k r. unfold exclusion_window. rewrite (Rmult_comm k r). reflexivity. Qed.

Theorem exclusion_window_tends_to_one : forall eps, 0 < eps -> exists delta, 0 < delta /\
  forall k r, 0 < Rabs (k * r) < delta -> Rabs (exclusion_window k r - 1) < eps.
Proof. exact window_limit. Qed.
Print Assumptions exclusion_window_tends_to_one.

(** ** the hypotheses are met *)
Example hankel_hyps : py_in "k" "kr" = true /\ (1 <= 100)%nat /\ (og_nmax 1 <= 2 + 1)%nat /\
  (2 <= og_nmax 1)%nat.
Proof. rewrite og_nmax_1. repeat split; lia. Qed.

(** both ends positive: the positive extrapolation is chosen; a non-positive
    last value switches the upper end to linear *)
Example downgrade_example :
  downgrade (true, true) [[1; 2; 3; 4]] = (true, true) /\
  downgrade (true, true) [[1; 2; 3; -4]] = (true, false).
Proof.
  unfold downgrade, first2_pos, last2_pos. simpl.
  unfold Rltb. repeat destruct (Rlt_dec _ _); try lra; simpl; auto.
Qed.
