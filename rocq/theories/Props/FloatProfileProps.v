(** The enclosed mass of a halo under rounding (C148).  Code under study: /repo/src/halomod/profiles.py:423-441, 681-682, 764-765, 818-819. *)
From Coq Require Import Reals ZArith Lia Lra.
From Flocq Require Import Core.
From Coquelicot Require Import Coquelicot.
From Verif Require Import Model.Float64 Model.FloatProfile Proofs.Float64Proofs Proofs.Calc Props.FloatHODProps.
Local Open Scope R_scope.

(** the exact mass integral: the integral of x^2 / (x (1+x)^2) from 0 to c *)
Definition nfw_mass (c : R) : R := ln (1 + c) - c / (1 + c).
(** how accurate the library's logarithm is: relative error at most eps, and doubles are returned for doubles *)
Definition log_within (eps : R) (lib_log : R -> R) : Prop := forall x, double x -> 0 < x -> double (lib_log x) /\ Rabs (lib_log x - ln x) <= eps * Rabs (ln x).

Lemma ln_le_minus : forall x, 0 < x -> ln x <= x - 1.
Proof.
  intros x H. destruct (Req_dec x 1) as [->|N]; [rewrite ln_1; lra|]. assert (A := exp_ineq1 (ln x)). rewrite exp_ln in A by auto.
  assert (ln x <> 0) by (intros E; apply N; rewrite <- (exp_ln x H), E; apply exp_0). specialize (A ltac:(auto)). lra.
Qed.
Lemma ln_ge : forall x, 0 < x -> 1 - / x <= ln x.
Proof. intros x H. assert (A := ln_le_minus (/ x) (Rinv_0_lt_compat _ H)). rewrite ln_Rinv in A by auto. lra. Qed.

(** finding: for concentrations (or radii in units of the scale radius) below 2^-53 the NFW mass integral is computed as -c: negative *)
Theorem c148_nfw_negative : forall lib_log c, lib_log 1 = 0 -> double c -> 0 < c < / 2 ^ 53 -> float_nfw_h lib_log c = - c.
Proof.
  intros lib_log c L D H. unfold float_nfw_h.
  assert (E : rnd (1 + c) = 1).
  { rewrite (rnd_val (1 + c) (2 ^ 52) (-52)); [simpl; lra|lia| |].
    - rewrite Rabs_pos_eq by lra. simpl. simpl in H. lra.
    - simpl. simpl in H. apply Rabs_def1; lra. }
  rewrite E, L. replace (c / 1) with c by field. rewrite (rnd_id c D). replace (0 - c) with (- c) by ring. apply rnd_id. now apply double_opp.
Qed.
Print Assumptions c148_nfw_negative.

Section Acc.
  Variables (lib_log : R -> R) (eps c : R).
  Hypothesis LW : log_within eps lib_log.
  Hypothesis E0 : 0 <= eps <= / 1000.
  Hypothesis D : double c.
  Hypothesis C0 : 0 < c.

  (** its absolute error is a few roundings of 1 + ln(1 + c), whatever the concentration *)
  Theorem c148_nfw_accuracy : Rabs (float_nfw_h lib_log c - nfw_mass c) <= (2 * eps + 8 * hu) * (1 + ln (1 + c)).
  Proof.
    assert (HU := hu_pos). assert (HU1 : hu <= / 1000) by (unfold hu; lra). assert (TP := tiny_pos). assert (TH : tiny <= hu).
    { unfold tiny. apply Rle_trans with (/ 2 * bpow radix2 (-52)); [|simpl; unfold hu; lra]. apply Rmult_le_compat_l; [lra|]. apply bpow_le. lia. }
    unfold float_nfw_h, nfw_mass. destruct (rnd_plus_rel 1 c double_1 D) as (e & He & Ee). apply abs_le in He.
    set (x := rnd (1 + c)) in *. assert (X1 : 1 <= x) by (unfold x; apply rnd_ge; [apply double_1|lra]).
    assert (Dx : double x) by apply rnd_double. destruct (LW x Dx ltac:(lra)) as (DL & AL).
    assert (Lx : ln x = ln (1 + c) + ln (1 + e)) by (rewrite Ee; apply ln_mult; lra).
    assert (Le : Rabs (ln (1 + e)) <= 2 * hu).
    { assert (A := ln_le_minus (1 + e) ltac:(lra)). assert (B := ln_ge (1 + e) ltac:(lra)). assert (I : / (1 + e) <= 1 + 2 * hu).
      { apply Rmult_le_reg_l with (1 + e); [lra|]. rewrite Rinv_r by lra. nra. }
      apply Rabs_le. lra. }
    assert (L1 : 0 <= ln (1 + c)) by (rewrite <- ln_1; left; apply ln_increasing; lra). assert (Lp : 0 <= ln x) by (rewrite <- ln_1; destruct (Req_dec x 1) as [->|]; [lra|left; apply ln_increasing; lra]).
    rewrite (Rabs_pos_eq (ln x)) in AL by auto. apply abs_le in AL. apply abs_le in Le.
    (* the quotient *)
    assert (Q : Rabs (rnd (c / x) - c / (1 + c)) <= 4 * hu).
    { assert (W := rnd_err (c / x)). assert (Y0 : 0 < c / x) by (apply Rdiv_lt_0_compat; lra).
      assert (Y : c / x - c / (1 + c) = (c / (1 + c)) * (- e / (1 + e))) by (rewrite Ee; field; lra).
      assert (Z : 0 < c / (1 + c) < 1). { split; [apply Rdiv_lt_0_compat; lra|]. apply Rmult_lt_reg_r with (1 + c); [lra|]. unfold Rdiv. rewrite Rmult_assoc, Rinv_l by lra. lra. }
      assert (V : Rabs (- e / (1 + e)) <= 2 * hu).
      { unfold Rdiv. rewrite Rabs_mult, Rabs_Ropp, (Rabs_pos_eq (/ (1 + e))) by (left; apply Rinv_0_lt_compat; lra). apply Rmult_le_reg_r with (1 + e); [lra|]. rewrite Rmult_assoc, Rinv_l, Rmult_1_r by lra. apply Rabs_le. nra. }
      assert (V2 : Rabs (c / x - c / (1 + c)) <= 2 * hu). { rewrite Y, Rabs_mult, (Rabs_pos_eq (c / (1 + c))) by lra. assert (0 <= Rabs (- e / (1 + e))) by apply Rabs_pos. nra. }
      apply abs_le in V2. rewrite (Rabs_pos_eq (c / x)) in W by lra. replace (rnd (c / x) - c / (1 + c)) with ((rnd (c / x) - c / x) + (c / x - c / (1 + c))) by ring. eapply Rle_trans; [apply Rabs_triang|]. assert (Rabs (c / x - c / (1 + c)) <= 2 * hu) by (apply Rabs_le; lra).
      assert (CX : c / x <= 1). { assert (c <= x) by (unfold x; apply rnd_ge; [exact D|lra]). apply Rmult_le_reg_r with x; [lra|]. unfold Rdiv. rewrite Rmult_assoc, Rinv_l by lra. lra. }
      assert (hu * (c / x) <= hu * 1) by (apply Rmult_le_compat_l; lra). lra. }
    apply abs_le in Q. destruct (rnd_minus_rel (lib_log x) (rnd (c / x)) DL (rnd_double _)) as (d & Hd & Ed). rewrite Ed. apply abs_le in Hd.
    set (l := ln (1 + c)) in *. set (q := c / (1 + c)) in *. assert (Hq : 0 <= q <= 1).
    { unfold q. split; [apply Rlt_le, Rdiv_lt_0_compat; lra|]. apply Rmult_le_reg_r with (1 + c); [lra|]. unfold Rdiv. rewrite Rmult_assoc, Rinv_l by lra. lra. }
    set (a := lib_log x) in *. set (b := rnd (c / x)) in *. assert (HA : - (eps * (l + 2 * hu) + 2 * hu) <= a - l <= eps * (l + 2 * hu) + 2 * hu) by (rewrite Lx in AL; nra).
    assert (ab : Rabs (a - b) <= 2 * (1 + l)) by (apply Rabs_le; nra). apply abs_le in ab.
    replace ((a - b) * (1 + d) - (l - q)) with ((a - l) - (b - q) + (a - b) * d) by ring.
    assert (T : Rabs ((a - b) * d) <= 2 * hu * (1 + l)). { rewrite Rabs_mult. assert (0 <= Rabs d) by apply Rabs_pos. assert (Rabs d <= hu) by (apply Rabs_le; lra). assert (Rabs (a - b) <= 2 * (1 + l)) by (apply Rabs_le; lra). assert (0 <= Rabs (a - b)) by apply Rabs_pos. nra. }
    apply abs_le in T. apply Rabs_le. nra.
  Qed.

  Lemma nfw_mass_lower : c ^ 2 / (2 * (1 + c) ^ 2) <= nfw_mass c.
  Proof.
    set (g := fun t => nfw_mass t - t ^ 2 / (2 * (1 + t) ^ 2)). assert (g 0 <= g c).
    { apply (mono_of_derive g (fun t => t / (1 + t) ^ 2 - t / (1 + t) ^ 3) 0 c); [lra| |].
      - intros t Ht. unfold g, nfw_mass. auto_derive; [repeat split; try lra; apply Rmult_integral_contrapositive; split; [lra|]; apply Rmult_integral_contrapositive; split; lra|]. field. lra.
      - intros t Ht. assert (P : 0 < (1 + t) ^ 3) by (apply pow_lt; lra). replace (t / (1 + t) ^ 2 - t / (1 + t) ^ 3) with (t * t / (1 + t) ^ 3) by (field; lra). apply Rmult_le_pos; [nra|left; now apply Rinv_0_lt_compat]. }
    unfold g, nfw_mass in *. rewrite Rplus_0_r, ln_1 in H. replace (0 - 0 / 1 - 0 ^ 2 / (2 * 1 ^ 2)) with 0 in H by (simpl; field). lra.
  Qed.

  (** how many digits are left: relative to the mass itself the error is a few roundings for c >= 1, but grows like 1/c^2 towards small radii *)
  Theorem c148_nfw_relative : (1 <= c -> Rabs (float_nfw_h lib_log c - nfw_mass c) <= 24 * (2 * eps + 8 * hu) * nfw_mass c) /\
    (c <= 1 -> Rabs (float_nfw_h lib_log c - nfw_mass c) <= 16 * (2 * eps + 8 * hu) / c ^ 2 * nfw_mass c).
  Proof.
    assert (HU := hu_pos). assert (A := c148_nfw_accuracy). assert (B := nfw_mass_lower). set (k := 2 * eps + 8 * hu) in *. assert (K : 0 < k) by (unfold k; lra).
    assert (L1 : 0 <= ln (1 + c)) by (rewrite <- ln_1; left; apply ln_increasing; lra). assert (LC : ln (1 + c) <= c) by (assert (Q := ln_le_minus (1 + c) ltac:(lra)); lra).
    set (l := ln (1 + c)) in *. assert (M1 : l - 1 <= nfw_mass c). { unfold nfw_mass. fold l. assert (c / (1 + c) <= 1); [|lra]. apply Rmult_le_reg_r with (1 + c); [lra|]. unfold Rdiv. rewrite Rmult_assoc, Rinv_l by lra. lra. }
    split; intros H.
    - assert (M2 : / 8 <= nfw_mass c). { eapply Rle_trans; [|exact B]. assert (P : 0 < 2 * (1 + c) ^ 2) by nra. apply Rmult_le_reg_r with (2 * (1 + c) ^ 2); auto. unfold Rdiv. rewrite Rmult_assoc, Rinv_l by lra. nra. }
      assert (1 + l <= 24 * nfw_mass c) by lra. eapply Rle_trans; [exact A|]. replace (24 * k * nfw_mass c) with (k * (24 * nfw_mass c)) by ring. apply Rmult_le_compat_l; lra.
    - assert (C2 : 0 < c ^ 2) by (apply pow_lt; lra). assert (M2 : c ^ 2 / 8 <= nfw_mass c). { eapply Rle_trans; [|exact B]. unfold Rdiv. apply Rmult_le_compat_l; [lra|]. apply Rinv_le_contravar; [|]; nra. }
      eapply Rle_trans; [exact A|]. replace (16 * k / c ^ 2 * nfw_mass c) with (k * (16 / c ^ 2 * nfw_mass c)) by (field; lra). apply Rmult_le_compat_l; [lra|].
      apply Rle_trans with (16 / c ^ 2 * (c ^ 2 / 8)); [replace (16 / c ^ 2 * (c ^ 2 / 8)) with 2 by (field; lra); lra|]. apply Rmult_le_compat_l; auto. apply Rlt_le, Rdiv_lt_0_compat; lra.
  Qed.
  (** so it is positive from 2^-22 on (for a library accurate to two roundings) *)
  Theorem c148_nfw_positive : eps <= 2 * hu -> / 2 ^ 22 <= c -> 0 < float_nfw_h lib_log c.
  Proof.
    intros EH HC. assert (HU := hu_pos). destruct c148_nfw_relative as [R1 R2]. assert (B := nfw_mass_lower).
    assert (M : 0 < nfw_mass c). { eapply Rlt_le_trans; [|exact B]. apply Rdiv_lt_0_compat; [apply pow_lt; lra|]. assert (0 < (1 + c) ^ 2) by (apply pow_lt; lra). lra. }
    destruct (Rle_dec 1 c) as [H|H].
    - specialize (R1 H). apply abs_le in R1. assert (24 * (2 * eps + 8 * hu) <= / 2) by (unfold hu in *; lra). nra.
    - specialize (R2 ltac:(lra)). apply abs_le in R2. assert (C2 : / 2 ^ 44 <= c ^ 2).
      { replace (/ 2 ^ 44) with ((/ 2 ^ 22) ^ 2) by (simpl; lra). apply pow_incr. split; [simpl; lra|exact HC]. }
      assert (16 * (2 * eps + 8 * hu) / c ^ 2 <= / 2).
      { assert (P : 0 < c ^ 2) by (apply pow_lt; lra). apply Rmult_le_reg_r with (c ^ 2); auto. unfold Rdiv. rewrite Rmult_assoc, Rinv_l, Rmult_1_r by lra. simpl (2 ^ 44) in C2. unfold hu in *. lra. }
      nra.
  Qed.
End Acc.
Print Assumptions c148_nfw_accuracy.
Print Assumptions c148_nfw_relative.
Print Assumptions c148_nfw_positive.

(** the Hernquist mass integral has no such cancellation: it keeps all but three bits at every radius *)
Theorem c148_hernquist : forall c, double c -> / 2 ^ 500 <= c <= 2 ^ 500 -> Rabs (float_hernquist_h c - c ^ 2 / (2 * (1 + c) ^ 2)) <= 8 * hu * (c ^ 2 / (2 * (1 + c) ^ 2)).
Proof.
  intros c D [H1 H2]. assert (HU := hu_pos). assert (HU1 : hu <= / 1000) by (unfold hu; lra).
  assert (B500 : / 2 ^ 500 = bpow radix2 (-500)) by (change (bpow radix2 (-500)) with (bpow radix2 (Z.opp 500)); rewrite bpow_opp; f_equal; rewrite <- (IZR_Zpower radix2) by lia; rewrite (pow_IZR 2 500); reflexivity).
  rewrite B500 in H1. assert (P0 : 0 < c) by (pose proof (bpow_gt_0 radix2 (-500)); lra). clear H2.
  assert (N : forall x, bpow radix2 (-1010) <= x -> exists e, - hu <= e <= hu /\ rnd x = x * (1 + e)).
  { intros x Hx. destruct (rnd_rel x) as (e & A & B); [|exists e; split; [now apply abs_le|auto]]. assert (Q := bpow_gt_0 radix2 (-1010)). rewrite Rabs_pos_eq by lra. eapply Rle_trans; [|exact Hx]. apply bpow_le. lia. }
  assert (CC : bpow radix2 (-1000) <= c * c). { replace (-1000)%Z with (-500 + -500)%Z by reflexivity. rewrite bpow_plus. pose proof (bpow_ge_0 radix2 (-500)). apply Rmult_le_compat; lra. }
  assert (S3 : bpow radix2 (-1010) = / 1024 * bpow radix2 (-1000)) by (replace (-1010)%Z with (-10 + -1000)%Z by reflexivity; rewrite bpow_plus; simpl (bpow radix2 (-10)); lra).
  assert (T0 := bpow_gt_0 radix2 (-1000)). assert (S1 : bpow radix2 (-1010) <= 1) by (apply (bpow_le radix2 _ 0); lia).
  unfold float_hernquist_h.
  destruct (N (c * c) ltac:(lra)) as (e1 & I1 & ->). destruct (rnd_plus_rel 1 c double_1 D) as (e & I & E). apply abs_le in I.
  set (x := rnd (1 + c)) in *. assert (X1 : 1 <= x) by (unfold x; apply rnd_ge; [apply double_1|lra]).
  destruct (N (x * x) ltac:(nra)) as (e2 & I2 & ->). assert (XX : 1 / 2 <= x * x * (1 + e2)) by nra. destruct (N (2 * (x * x * (1 + e2))) ltac:(nra)) as (e3 & I3 & ->).
  set (V := c ^ 2 / (2 * (1 + c) ^ 2)).
  assert (Vpos : 0 < V) by (unfold V; apply Rdiv_lt_0_compat; [apply pow_lt; lra|]; assert (0 < (1 + c) ^ 2) by (apply pow_lt; lra); lra).
  assert (Q : c * c * (1 + e1) / (2 * (x * x * (1 + e2)) * (1 + e3)) = V * ((1 + e1) / ((1 + e) * (1 + e) * (1 + e2) * (1 + e3)))).
  { unfold V. rewrite E. field. repeat split; lra. }
  rewrite Q. set (dn := (1 + e) * (1 + e) * (1 + e2) * (1 + e3)). 
  assert (p1 : 1 - 2 * hu <= (1 + e) * (1 + e) <= 1 + 2 * hu + hu * hu) by nra. assert (p2 : 1 - 2 * hu <= (1 + e2) * (1 + e3) <= 1 + 2 * hu + hu * hu) by nra.
  assert (dnI : 1 - 4 * hu <= dn <= 1 + 5 * hu). { replace dn with (((1 + e) * (1 + e)) * ((1 + e2) * (1 + e3))) by (unfold dn; ring). set (p := (1 + e) * (1 + e)) in *. set (q := (1 + e2) * (1 + e3)) in *. assert ((1 - 2 * hu) * (1 - 2 * hu) <= p * q) by (apply Rmult_le_compat; lra). assert (p * q <= (1 + 2 * hu + hu * hu) * (1 + 2 * hu + hu * hu)) by (apply Rmult_le_compat; lra). clear - H H0 HU HU1. split; [nra|]. eapply Rle_trans; [exact H0|]. assert (hu * hu <= hu * / 1000) by (apply Rmult_le_compat_l; lra). set (w := hu * hu) in *. assert (0 <= w) by (unfold w; nra). nra. }
  assert (RB : / 2 <= (1 + e1) / dn). { apply Rmult_le_reg_r with dn; [lra|]. unfold Rdiv. rewrite Rmult_assoc, Rinv_l by lra. nra. }
  assert (VB : bpow radix2 (-1010) <= V * ((1 + e1) / dn)).
  { apply Rle_trans with (V * / 2); [|apply Rmult_le_compat_l; lra]. rewrite S3. unfold V. assert (P2 : 0 < 2 * (1 + c) ^ 2) by nra. 
    destruct (Rle_dec c 1) as [K|K].
    - apply Rmult_le_reg_r with (2 * (1 + c) ^ 2); auto. replace (c ^ 2 / (2 * (1 + c) ^ 2) * / 2 * (2 * (1 + c) ^ 2)) with (c * c / 2) by (field; lra). assert (2 * (1 + c) ^ 2 <= 8) by nra. set (b := bpow radix2 (-1000)) in *. apply Rle_trans with (/ 1024 * b * 8); [apply Rmult_le_compat_l; lra|lra].
    - apply Rle_trans with (/ 16); [assert (bpow radix2 (-1000) <= 1) by (apply (bpow_le radix2 _ 0); lia); lra|].
      apply Rmult_le_reg_r with (2 * (1 + c) ^ 2); auto. replace (c ^ 2 / (2 * (1 + c) ^ 2) * / 2 * (2 * (1 + c) ^ 2)) with (c * c / 2) by (field; lra). nra. }
  destruct (N _ VB) as (e4 & I4 & ->).
  replace (V * ((1 + e1) / dn) * (1 + e4) - V) with (V * ((1 + e1) / dn * (1 + e4) - 1)) by ring. rewrite Rabs_mult, (Rabs_pos_eq V) by lra. rewrite Rmult_comm. apply Rmult_le_compat_r; [lra|].
  replace ((1 + e1) / dn * (1 + e4) - 1) with (((1 + e1) * (1 + e4) - dn) / dn) by (field; lra). unfold Rdiv. rewrite Rabs_mult, (Rabs_pos_eq (/ dn)) by (left; apply Rinv_0_lt_compat; lra).
  apply Rmult_le_reg_r with dn; [lra|]. rewrite Rmult_assoc, Rinv_l, Rmult_1_r by lra. assert (p3 : 1 - 2 * hu <= (1 + e1) * (1 + e4) <= 1 + 2 * hu + hu * hu) by nra. apply Rabs_le. nra.
Qed.
Print Assumptions c148_hernquist.

(** and the Moore mass integral is never negative, whatever the library functions round to *)
Theorem c148_moore_nonneg : forall lib_log lib_pow c, (forall x, 1 <= x -> 0 <= lib_log x) -> 0 <= lib_pow c -> 0 <= float_moore_h lib_log lib_pow c.
Proof.
  intros lib_log lib_pow c L P. unfold float_moore_h. apply rnd_ge; [apply double_0|]. apply Rmult_le_pos; [|lra]. apply rnd_ge; [apply double_0|]. apply Rmult_le_pos; [lra|]. apply L. apply rnd_ge; [apply double_1|lra].
Qed.
Print Assumptions c148_moore_nonneg.

(** the cumulative profile inherits the sign: negative within 2^-53 scale radii of the centre *)
Theorem c148_cdf_negative : forall lib_log x c, lib_log 1 = 0 -> double x -> / 2 ^ 500 <= x < / 2 ^ 53 -> 0 < float_nfw_h lib_log c <= 2 ^ 10 -> float_cdf (float_nfw_h lib_log x) (float_nfw_h lib_log c) < 0.
Proof.
  intros lib_log x c L D [H1 H2] [H3 H4]. assert (P500 : 0 < / 2 ^ 500) by (apply Rinv_0_lt_compat, pow_lt; lra). rewrite (c148_nfw_negative lib_log x L D) by lra. unfold float_cdf. set (m := float_nfw_h lib_log c) in *.
  assert (B : double (- bpow radix2 (-600))). { apply double_opp. apply generic_format_bpow. unfold double_exp, FLT_exp. lia. }
  apply Rle_lt_trans with (- bpow radix2 (-600)); [|pose proof (bpow_gt_0 radix2 (-600)); lra]. apply rnd_le; auto.
  replace (- x / m) with (- (x / m)) by (unfold Rdiv; ring). apply Ropp_le_contravar. apply Rle_trans with (/ 2 ^ 500 / 2 ^ 10).
  - change (bpow radix2 (-600)) with (bpow radix2 (Z.opp 600)). rewrite bpow_opp. unfold Rdiv. rewrite <- Rinv_mult, <- pow_add. apply Rinv_le_contravar; [apply pow_lt; lra|].
    rewrite <- (IZR_Zpower radix2) by lia. change (IZR (Zpower radix2 600)) with (IZR (2 ^ Z.of_nat 600)). rewrite <- pow_IZR. apply Rle_pow; [lra|lia].
  - unfold Rdiv. apply Rmult_le_compat; [lra|left; apply Rinv_0_lt_compat, pow_lt; lra|lra|]. apply Rinv_le_contravar; lra.
Qed.
Print Assumptions c148_cdf_negative.

(** *** the hypotheses are met: a library whose log is the correctly rounded one, and c = 4 *)
Lemma log_rounded : log_within (2 * hu) (fun x => rnd (ln x)).
Proof.
  intros x D H. split; [apply rnd_double|]. destruct (Req_dec x 1) as [->|N]; [rewrite ln_1, rnd_id by apply double_0; rewrite Rminus_0_r, Rabs_R0; lra|].
  destruct (rnd_rel (ln x)) as (e & A & ->).
  - assert (B : bpow radix2 (-1022) <= bpow radix2 (-54)) by (apply bpow_le; lia). eapply Rle_trans; [exact B|].
    destruct (Rlt_le_dec 1 x) as [G|G].
    + assert (G2 : 1 + / 2 ^ 53 <= x). { destruct (Rle_lt_dec (1 + / 2 ^ 53) x) as [|K]; auto. exfalso. apply N. rewrite <- (rnd_id x D). rewrite (rnd_val x (2 ^ 52) (-52)); [simpl; lra|lia| |]; simpl in *; [rewrite Rabs_pos_eq by lra; lra|apply Rabs_def1; lra]. }
      assert (Q := ln_ge x H). rewrite Rabs_pos_eq by (assert (/ x < 1) by (rewrite <- Rinv_1; apply Rinv_lt_contravar; lra); lra).
      eapply Rle_trans; [|exact Q]. assert (/ x <= / (1 + / 2 ^ 53)) by (apply Rinv_le_contravar; [simpl; lra|exact G2]). apply Rle_trans with (1 - / (1 + / 2 ^ 53)); [simpl; lra|lra].
    + assert (G2 : x <= 1 - / 2 ^ 54). { destruct (Rle_lt_dec x (1 - / 2 ^ 54)) as [|K]; auto. exfalso. apply N. assert (x < 1) by lra. rewrite <- (rnd_id x D). rewrite (rnd_val x (2 ^ 53) (-53)); [simpl; lra|lia| |]; simpl in *; [rewrite Rabs_pos_eq by lra; lra|apply Rabs_def1; lra]. }
      assert (Q := ln_le_minus x H). simpl in *. rewrite Rabs_left1 by lra. lra.
  - replace (ln x * (1 + e) - ln x) with (ln x * e) by ring. rewrite Rabs_mult, Rmult_comm. apply Rmult_le_compat_r; [apply Rabs_pos|]. assert (HU := hu_pos). lra.
Qed.
Example c148_met : log_within (2 * hu) (fun x => rnd (ln x)) /\ 0 <= 2 * hu <= / 1000 /\ double 4 /\ rnd (ln 1) = 0 /\ double (/ 2 ^ 60) /\ / 2 ^ 500 <= / 2 ^ 60 < / 2 ^ 53.
Proof.
  split; [exact log_rounded|]. split; [unfold hu; lra|]. split; [apply (double_Z 4); lia|]. split; [rewrite ln_1; apply rnd_id, double_0|]. split; [|split; [apply Rinv_le_contravar; [apply pow_lt; lra|apply Rle_pow; [lra|lia]]|simpl; lra]].
  replace (/ 2 ^ 60) with (bpow radix2 (-60)) by (simpl; lra). apply generic_format_bpow. unfold double_exp, FLT_exp. lia.
Qed.
