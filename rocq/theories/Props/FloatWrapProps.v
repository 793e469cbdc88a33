(** Periodic wrapping in double precision (C132). *)
From Coq Require Import Reals ZArith Lra Lia.
From Flocq Require Import Core Plus_error.
From Verif Require Import Model.RBool Model.Float64 Model.FloatWrap Spec.FloatWrapSpec Proofs.Float64Proofs.
Local Open Scope R_scope.

Lemma rnd_0 : rnd 0 = 0. Proof. apply rnd_id, double_0. Qed.
Lemma rnd_nonneg : forall x, 0 <= x -> 0 <= rnd x. Proof. intros. apply rnd_ge; auto. apply double_0. Qed.
Lemma rnd_nonpos : forall x, x <= 0 -> rnd x <= 0. Proof. intros. apply rnd_le; auto. apply double_0. Qed.
(** a difference of two doubles has the sign of its rounding *)
Lemma sign_lt : forall x y, double x -> double y -> (rnd (x - y) < 0 <-> x < y).
Proof.
  intros x y Dx Dy. split; intros H.
  - destruct (Rlt_dec x y); auto. pose proof (rnd_nonneg (x - y) ltac:(lra)). lra.
  - destruct (Rle_lt_or_eq_dec (rnd (x - y)) 0 (rnd_nonpos (x - y) ltac:(lra))) as [|E]; auto. exfalso.
    assert (x + - y = 0); [|lra]. apply (round_plus_eq_0 radix2 double_exp ZnearestE); auto with typeclass_instances. apply double_opp; auto.
Qed.
Lemma sign_gt : forall x y, double x -> double y -> (0 < rnd (x - y) <-> y < x).
Proof.
  intros x y Dx Dy. split; intros H.
  - destruct (Rlt_dec y x); auto. pose proof (rnd_nonpos (x - y) ltac:(lra)). lra.
  - destruct (Rle_lt_or_eq_dec 0 (rnd (x - y)) (rnd_nonneg (x - y) ltac:(lra))) as [|E]; auto. exfalso.
    assert (x + - y = 0); [|lra]. apply (round_plus_eq_0 radix2 double_exp ZnearestE); auto with typeclass_instances. apply double_opp; auto.
Qed.
Lemma lt_of : forall x y, double x -> double y -> Rltb (rnd (x - y)) 0 = true -> x < y. Proof. intros. apply sign_lt; auto. apply Rltb_spec; auto. Qed.
Lemma gt_of : forall x y, double x -> double y -> Rltb 0 (rnd (x - y)) = true -> y < x. Proof. intros. apply sign_gt; auto. apply Rltb_spec; auto. Qed.
Lemma wrap_cases : forall lo hi x, double lo -> double hi -> double x -> lo < hi ->
  (lo <= x <= hi -> float_wrap lo hi x = x) /\
  (x < lo -> rnd (hi + rnd (x - lo)) <= hi /\ float_wrap lo hi x = rnd (hi + rnd (x - lo))) /\
  (hi < x -> float_wrap lo hi x = rnd (lo + rnd (x - hi))).
Proof.
  intros lo hi x Dl Dh Dx L. unfold float_wrap. repeat split; intros.
  - destruct (Rltb (rnd (x - lo)) 0) eqn:E; [apply lt_of in E; auto; lra|]. destruct (Rltb 0 (rnd (x - hi))) eqn:F; auto. apply gt_of in F; auto; lra.
  - apply rnd_le; auto. pose proof (rnd_nonpos (x - lo) ltac:(lra)). lra.
  - destruct (Rltb (rnd (x - lo)) 0) eqn:E; [|apply Rltb_false in E; apply (proj2 (sign_lt x lo Dx Dl)) in H; lra].
    destruct (Rltb 0 (rnd (rnd (hi + rnd (x - lo)) - hi))) eqn:F; auto. apply gt_of in F; auto using rnd_double.
    assert (rnd (hi + rnd (x - lo)) <= hi) by (apply rnd_le; auto; pose proof (rnd_nonpos (x - lo) ltac:(lra)); lra). lra.
  - destruct (Rltb (rnd (x - lo)) 0) eqn:E; [apply lt_of in E; auto; lra|].
    destruct (Rltb 0 (rnd (x - hi))) eqn:F; auto. apply Rltb_false in F. apply (proj2 (sign_gt x hi Dx Dh)) in H; lra.
Qed.

(** C132: in a box [0, L] - the form given by a scalar - every coordinate within one box length of the box ends in [0, L] in double precision
    too, coordinates in the box are untouched, and the others are moved by L up to one rounding *)
Theorem c132_box_from_zero : forall L x, double L -> 0 < L -> double x -> - L <= x <= 2 * L ->
  0 <= float_wrap 0 L x <= L /\ (0 <= x <= L -> float_wrap 0 L x = x) /\ image_within (hu * L) 0 L x (float_wrap 0 L x).
Proof.
  intros L x DL L0 Dx [A B]. destruct (wrap_cases 0 L x double_0 DL Dx L0) as (C1 & C2 & C3). pose proof hu_pos.
  split; [|split; auto].
  - destruct (Rlt_dec x 0) as [N|N]; [|destruct (Rle_dec x L) as [I|I]].
    + destruct (C2 N) as [U ->]. split; auto. rewrite Rminus_0_r, (rnd_id x Dx) in *. apply rnd_nonneg. lra.
    + rewrite C1; lra.
    + rewrite C3 by lra. rewrite Rplus_0_l, (rnd_id _ (rnd_double _)). split; [apply rnd_nonneg; lra|apply rnd_le; auto; lra].
  - unfold image_within. destruct (Rlt_dec x 0) as [N|N]; [|destruct (Rle_dec x L) as [I|I]].
    + right. left. destruct (C2 N) as [_ ->]. rewrite Rminus_0_r, Rminus_0_r, (rnd_id x Dx). destruct (rnd_plus_rel L x DL Dx) as (e & E & ->).
      replace ((L + x) * (1 + e) - (x + L)) with (e * (L + x)) by ring. rewrite Rabs_mult, (Rabs_right (L + x)) by lra. pose proof (Rabs_pos e). nra.
    + left. apply C1. lra.
    + right. right. rewrite C3 by lra. rewrite Rplus_0_l, (rnd_id _ (rnd_double _)). destruct (rnd_minus_rel x L Dx DL) as (e & E & ->).
      replace ((x - L) * (1 + e) - (x - (L - 0))) with (e * (x - L)) by ring. rewrite Rabs_mult, (Rabs_right (x - L)) by lra. pose proof (Rabs_pos e). nra.
Qed.
Print Assumptions c132_box_from_zero.

(** with any lower edge the same holds up to rounding: the result is the periodic image within 3 * 2^-53 * 2 * (|lo| + |hi|) and leaves the box by no more *)
Theorem c132_any_box : forall lo hi x, double lo -> double hi -> double x -> lo < hi -> lo - (hi - lo) <= x <= hi + (hi - lo) ->
  let err := 8 * hu * (Rabs lo + Rabs hi) in
  lo - err <= float_wrap lo hi x <= hi + err /\ (lo <= x <= hi -> float_wrap lo hi x = x) /\ image_within err lo hi x (float_wrap lo hi x).
Proof.
  intros lo hi x Dl Dh Dx L [A B] err. destruct (wrap_cases lo hi x Dl Dh Dx L) as (C1 & C2 & C3). pose proof hu_pos as H. assert (H1 : hu <= / 1000) by (unfold hu; lra).
  set (M := Rabs lo + Rabs hi) in *. assert (M1 : - M <= lo <= M /\ - M <= hi <= M /\ hi - lo <= M).
  { unfold M. unfold Rabs. destruct (Rcase_abs lo), (Rcase_abs hi); lra. }
  assert (E0 : 0 <= err) by (unfold err; nra).
  assert (K : (lo <= x <= hi /\ float_wrap lo hi x = x) \/ (x < lo /\ Rabs (float_wrap lo hi x - (x + (hi - lo))) <= err) \/ (hi < x /\ Rabs (float_wrap lo hi x - (x - (hi - lo))) <= err)).
  { destruct (Rlt_dec x lo) as [N|N]; [|destruct (Rle_dec x hi) as [I|I]].
    - right. left. split; auto. destruct (C2 N) as [_ ->]. destruct (rnd_minus_rel x lo Dx Dl) as (e1 & E1 & R1). destruct (rnd_plus_rel hi (rnd (x - lo)) Dh (rnd_double _)) as (e2 & E2 & R2). rewrite R2, R1.
      apply Rabs_le. apply abs_le in E1, E2.
      replace ((hi + (x - lo) * (1 + e1)) * (1 + e2) - (x + (hi - lo))) with ((x - lo) * e1 + (hi + (x - lo) * (1 + e1)) * e2) by ring.
      assert (P1 : - (hu * M) <= (x - lo) * e1 <= hu * M) by nra. assert (P2 : - (3 * M) <= hi + (x - lo) * (1 + e1) <= 3 * M) by nra.
      assert (P3 : - (3 * (hu * M)) <= (hi + (x - lo) * (1 + e1)) * e2 <= 3 * (hu * M)) by nra. unfold err. lra.
    - left. split; [lra|]. apply C1. lra.
    - right. right. split; [lra|]. rewrite C3 by lra. destruct (rnd_minus_rel x hi Dx Dh) as (e1 & E1 & R1). destruct (rnd_plus_rel lo (rnd (x - hi)) Dl (rnd_double _)) as (e2 & E2 & R2). rewrite R2, R1.
      apply Rabs_le. apply abs_le in E1, E2.
      replace ((lo + (x - hi) * (1 + e1)) * (1 + e2) - (x - (hi - lo))) with ((x - hi) * e1 + (lo + (x - hi) * (1 + e1)) * e2) by ring.
      assert (P1 : - (hu * M) <= (x - hi) * e1 <= hu * M) by nra. assert (P2 : - (3 * M) <= lo + (x - hi) * (1 + e1) <= 3 * M) by nra.
      assert (P3 : - (3 * (hu * M)) <= (lo + (x - hi) * (1 + e1)) * e2 <= 3 * (hu * M)) by nra. unfold err. lra. }
  split; [|split; auto].
  - destruct K as [[I ->]|[[I K]|[I K]]]; [lra| |]; apply abs_le in K; lra.
  - unfold image_within. destruct K as [[I K]|[[I K]|[I K]]]; auto.
Qed.
Print Assumptions c132_any_box.

(** refuted: in exact arithmetic a galaxy is never moved onto the upper face; in double precision every coordinate below 0 by less than
    L * 2^-54 is *)
Theorem c132_upper_face_refuted : forall L x, double L -> bpow radix2 (-1000) <= L -> double x -> x < 0 -> - x < L * / 2 ^ 54 ->
  float_wrap 0 L x = L.
Proof.
  intros L x DL L9 Dx X S. pose proof (bpow_gt_0 radix2 (-1000)). destruct (wrap_cases 0 L x double_0 DL Dx ltac:(lra)) as (_ & C2 & _). destruct (C2 X) as [U ->].
  rewrite Rminus_0_r, (rnd_id x Dx) in *. apply Rle_antisym; auto. clear C2.
  (* the spacing below L is at least 2^-53 L *)
  assert (LN : 0 < L) by lra.
  apply Rnot_lt_le. intros N. set (y := rnd (L + x)) in *. assert (Dy : double y) by apply rnd_double.
  assert (P : y <= pred radix2 double_exp L) by (apply pred_ge_gt; auto with typeclass_instances).
  assert (G : generic_format radix2 double_exp (pred radix2 double_exp L)) by (apply generic_format_pred; auto with typeclass_instances).
  assert (Hu : L - pred radix2 double_exp L >= L * / 2 ^ 53).
  { pose proof (pred_lt_id radix2 double_exp L ltac:(lra)) as PL. 
    assert (PP : 0 <= pred radix2 double_exp L) by (apply pred_ge_0; auto with typeclass_instances).
    (* pred L + ulp (pred L) = L *)
    assert (SU : pred radix2 double_exp L + ulp radix2 double_exp (pred radix2 double_exp L) = L) by (apply pred_plus_ulp; auto with typeclass_instances).
    set (p := pred radix2 double_exp L) in *.
    destruct (Req_dec p 0) as [Z|Z].
    { rewrite Z in SU |- *. unfold double_exp in SU. rewrite ulp_FLT_0 in SU by auto with typeclass_instances. rewrite Rplus_0_l in SU. rewrite <- SU in L9. exfalso. assert (bpow radix2 (-1074) < bpow radix2 (-1000)) by (apply bpow_lt; lia). lra. }
    assert (UP : p * bpow radix2 (-53) <= ulp radix2 double_exp p).
    { rewrite ulp_neq_0 by auto. unfold cexp, double_exp, FLT_exp. assert (Pb := bpow_mag_gt radix2 p). rewrite Rabs_right in Pb by lra.
      eapply Rle_trans with (bpow radix2 (mag radix2 p) * bpow radix2 (-53)); [apply Rmult_le_compat_r; [apply bpow_ge_0|lra]|]. rewrite <- bpow_plus. apply bpow_le. lia. }
    change (bpow radix2 (-53)) with (/ 9007199254740992) in UP. replace (/ 2 ^ 53) with (/ 9007199254740992) by (simpl; lra).
    (* L*2^-53 = (p + ulp) 2^-53 <= ulp needs p 2^-53 <= ulp (1 - 2^-53); p is a multiple of ulp below 2^53 ulp *)
    assert (UQ : p <= ulp radix2 double_exp p * 9007199254740991).
    { rewrite ulp_neq_0 by auto. assert (F : double p) by exact G. unfold double, generic_format in F. set (m := Ztrunc (scaled_mantissa radix2 double_exp p)) in *. rewrite F at 1. unfold F2R. simpl Fexp. simpl Fnum.
      rewrite Rmult_comm. apply Rmult_le_compat_l; [apply bpow_ge_0|]. apply IZR_le.
      assert (m < 9007199254740992)%Z; [|lia]. apply lt_IZR. unfold m. rewrite Ztrunc_floor.
      - eapply Rle_lt_trans; [apply Zfloor_lb|]. unfold scaled_mantissa. assert (Pb := bpow_mag_gt radix2 p). rewrite Rabs_right in Pb by lra.
        apply (Rmult_lt_reg_r (bpow radix2 (cexp radix2 double_exp p))); [apply bpow_gt_0|]. rewrite Rmult_assoc, <- bpow_plus. replace (- cexp radix2 double_exp p + cexp radix2 double_exp p)%Z with 0%Z by lia. rewrite Rmult_1_r.
        eapply Rlt_le_trans; [exact Pb|]. replace 9007199254740992 with (bpow radix2 53) by (simpl; lra). rewrite <- bpow_plus. apply bpow_le. unfold cexp, double_exp, FLT_exp. lia.
      - unfold scaled_mantissa. apply Rmult_le_pos; [lra|apply bpow_ge_0]. }
    lra. }
  (* L + x is nearer to L than to y *)
  assert (NR := round_N_pt radix2 double_exp (fun n => negb (Z.even n)) (L + x)). fold (rnd (L + x)) in NR. fold y in NR. destruct NR as [_ NR]. specialize (NR L DL).
  replace (L - (L + x)) with (- x) in NR by ring. rewrite (Rabs_right (- x)) in NR by lra.
  replace (/ 2 ^ 54) with (/ 2 ^ 53 * / 2) in S by (simpl; lra).
  rewrite Rabs_left1 in NR; lra.
Qed.
Print Assumptions c132_upper_face_refuted.

(** refuted: with another lower edge the result can fall outside the box.  In the box [0.05, 0.35] the coordinate exactly one box length below the lower
    edge comes back below that edge *)
Theorem c132_inside_any_box_refuted : exists lo hi x, lo = rnd (5 / 100) /\ hi = rnd (35 / 100) /\ double x /\ x = lo - (hi - lo) /\ float_wrap lo hi x < lo.
Proof.
  assert (R1 : rnd (5 / 100) = 7205759403792794 / 144115188075855872) by (rewrite (rnd_val _ 7205759403792794%Z (-57)%Z); [simpl; lra|lia|rewrite Rabs_right by lra; simpl; lra|apply Rabs_def1; simpl; lra]).
  assert (R2 : rnd (35 / 100) = 6305039478318694 / 18014398509481984) by (rewrite (rnd_val _ 6305039478318694%Z (-54)%Z); [simpl; lra|lia|rewrite Rabs_right by lra; simpl; lra|apply Rabs_def1; simpl; lra]).
  set (x := - (9007199254740991 / 36028797018963968)).
  assert (Dx : double x). { replace x with (rnd x); [apply rnd_double|]. unfold x. rewrite rnd_opp. f_equal. rewrite (rnd_val _ 9007199254740991%Z (-55)%Z); [simpl; lra|lia|rewrite Rabs_right by lra; simpl; lra|apply Rabs_def1; simpl; lra]. }
  exists (rnd (5 / 100)), (rnd (35 / 100)), x. repeat split; auto.
  - rewrite R1, R2. unfold x. lra.
  - destruct (wrap_cases (rnd (5 / 100)) (rnd (35 / 100)) x (rnd_double _) (rnd_double _) Dx ltac:(rewrite R1, R2; lra)) as (_ & C & _).
    destruct (C ltac:(rewrite R1; unfold x; lra)) as [_ ->]. rewrite R1, R2.
    assert (Y : rnd (x - 7205759403792794 / 144115188075855872) = - (5404319552844595 / 18014398509481984)).
    { replace (x - 7205759403792794 / 144115188075855872) with (- (- x + 7205759403792794 / 144115188075855872)) by ring. rewrite rnd_opp. f_equal. unfold x. rewrite (rnd_val _ 5404319552844595%Z (-54)%Z); [simpl; lra|lia|rewrite Rabs_right by lra; simpl; lra|apply Rabs_def1; simpl; lra]. }
    rewrite Y. rewrite (rnd_val _ 7205759403792792%Z (-57)%Z); [simpl; lra|lia|rewrite Rabs_right by lra; simpl; lra|apply Rabs_def1; simpl; lra].
Qed.
Print Assumptions c132_inside_any_box_refuted.

(** *** a concrete case: a box of 100, a galaxy one unit outside *)
Example box_100 : 0 <= float_wrap 0 100 (-1) <= 100 /\ float_wrap 0 100 (-1) = 99.
Proof.
  assert (D : forall n, (Z.abs n <= 2 ^ 53)%Z -> double (IZR n)) by apply double_Z. assert (D1 := D (-1)%Z ltac:(lia)). assert (D2 := D 100%Z ltac:(lia)). split.
  - apply c132_box_from_zero; auto; lra.
  - destruct (wrap_cases 0 100 (-1) double_0 D2 D1 ltac:(lra)) as (_ & C & _). destruct (C ltac:(lra)) as [_ ->]. rewrite Rminus_0_r, (rnd_id _ D1). replace (100 + -1) with 99 by lra. apply rnd_id, (D 99%Z). lia.
Qed.
