(** C116: power_to_corr.  Code under study: /repo/src/halomod/tools.py:276-327. *)
From Coq Require Import Reals List Bool Arith ZArith Lia Lra.
From Coquelicot Require Import Coquelicot.
From Verif Require Import Model.RBool Model.Quad Model.Grids Model.PowerToCorr Spec.CorrSpec Proofs.Calc Proofs.ExclusionProofs Proofs.SimpsonExact Proofs.SimpsonError Proofs.GridProofs.
Import ListNotations.
Local Open Scope R_scope.

(** ** the upper limit *)
Lemma min_k_sin : forall r, 0 < r -> sin (ptc_min_k r * r) = 1.
Proof.
  intros r R0. unfold ptc_min_k. set (z := rceil _). replace ((2 * IZR z + 5 / 10) * PI / r * r) with (PI / 2 + 2 * IZR z * PI) by (field; lra). rewrite sin_plus.
  replace (2 * IZR z * PI) with (IZR (2 * z) * PI) by (rewrite mult_IZR; ring).
  rewrite sin_PI2, cos_PI2. replace (cos (IZR (2 * z) * PI)) with 1; [ring|].
  assert (K : forall n : nat, cos (INR (2 * n) * PI) = 1). { intros n. induction n as [|n IH]; [simpl; rewrite Rmult_0_l; apply cos_0|]. replace (2 * S n)%nat with (2 * n + 2)%nat by lia. rewrite plus_INR. replace ((INR (2 * n) + INR 2) * PI) with (INR (2 * n) * PI + 2 * PI) by (simpl; ring). rewrite cos_plus, IH, cos_2PI, sin_2PI. ring. }
  symmetry. destruct (Z_le_dec 0 z).
  - rewrite <- (K (Z.to_nat z)). f_equal. f_equal. rewrite INR_IZR_INZ. f_equal. lia.
  - rewrite <- (K (Z.to_nat (- z))), <- cos_neg. f_equal. rewrite INR_IZR_INZ. replace (Z.of_nat (2 * Z.to_nat (- z))) with (- (2 * z))%Z by lia. rewrite opp_IZR. ring.
Qed.
Lemma cos_even : forall n : nat, cos (INR (2 * n) * PI) = 1.
Proof. intros n. induction n as [|n IH]; [simpl; rewrite Rmult_0_l; apply cos_0|]. replace (2 * S n)%nat with (2 * n + 2)%nat by lia. rewrite plus_INR. replace ((INR (2 * n) + INR 2) * PI) with (INR (2 * n) * PI + 2 * PI) by (simpl; ring). rewrite cos_plus, IH, cos_2PI, sin_2PI. ring. Qed.
Lemma sin_even : forall n : nat, sin (INR (2 * n) * PI) = 0.
Proof. intros n. induction n as [|n IH]; [simpl; rewrite Rmult_0_l; apply sin_0|]. replace (2 * S n)%nat with (2 * n + 2)%nat by lia. rewrite plus_INR. replace ((INR (2 * n) + INR 2) * PI) with (INR (2 * n) * PI + 2 * PI) by (simpl; ring). rewrite sin_plus, IH, cos_2PI, sin_2PI. ring. Qed.
(** finding: the comment says the limit is put at a zero of the Bessel function; at every separation it is at an extremum of sin(kr) *)
Theorem c116_cut_at_a_zero_refuted : forall r, 0 < r -> sin (ptc_maxk r * r) = 1 \/ sin (ptc_maxk r * r) = -1.
Proof.
  intros r R0. unfold ptc_maxk, Rmax. destruct (Rle_dec _ _); [left; now apply min_k_sin|right].
  replace (5015 / 10 * PI / r * r) with (3 * (PI / 2) + INR (2 * 250) * PI). 2: { rewrite INR_IZR_INZ. change (Z.of_nat (2 * 250)) with 500%Z. field. lra. }
  rewrite sin_plus, cos_even, sin_even, sin_3PI2. ring.
Qed.
(** the two guarantees the code does give: at least 501.5 half-cycles, and a limit no smaller than 1 - pi/(2r); above 1 for r < 501.5 pi *)
Theorem c116_upper_limit : forall r, 0 < r -> 5015 / 10 * PI / r <= ptc_maxk r /\ 1 - PI / (2 * r) <= ptc_maxk r /\ ptc_maxk r <= Rmax (5015 / 10 * PI / r) (1 + 3 * PI / (2 * r)) /\ (r < 5015 / 10 * PI -> 1 < ptc_maxk r).
Proof.
  intros r R0. unfold ptc_maxk. assert (P := PI_RGT_0). destruct (rceil_bounds ((ptc_temp_min_k * r / PI - 1) / 2)) as [A B]. set (z := IZR (rceil ((ptc_temp_min_k * r / PI - 1) / 2))) in *. unfold ptc_temp_min_k in *.
  assert (PR : 0 < PI / r) by (apply Rdiv_lt_0_compat; auto). assert (E : r / PI * (PI / r) = 1) by (field; lra).
  assert (M : ptc_min_k r = (2 * z + 5 / 10) * (PI / r)) by (unfold ptc_min_k, z, ptc_temp_min_k, Rdiv; ring).
  assert (L : 1 - PI / (2 * r) <= ptc_min_k r). { rewrite M. replace (1 - PI / (2 * r)) with ((r / PI - 5 / 10) * (PI / r)) by (field; lra). apply Rmult_le_compat_r; lra. }
  assert (U : ptc_min_k r <= 1 + 3 * PI / (2 * r)). { rewrite M. replace (1 + 3 * PI / (2 * r)) with ((r / PI + 15 / 10) * (PI / r)) by (field; lra). apply Rmult_le_compat_r; lra. }
  split; [apply Rmax_l|]. split; [eapply Rle_trans; [exact L|apply Rmax_r]|]. split.
  - apply Rle_max_compat_l. exact U.
  - intros H. eapply Rlt_le_trans; [|apply Rmax_l]. apply (Rmult_lt_reg_r r); auto. replace (5015 / 10 * PI / r * r) with (5015 / 10 * PI) by (field; lra). lra.
Qed.
Lemma inr_above : forall x, exists n, x < INR n.
Proof. intros x. exists (Z.to_nat (up (Rabs x))). destruct (archimed (Rabs x)) as [A _]. assert (B := Rabs_pos x). assert (C := Rle_abs x). assert (D : (0 <= up (Rabs x))%Z) by (apply le_IZR; lra). rewrite INR_IZR_INZ, Z2Nat.id by auto. lra. Qed.
(** finding: the comment requires the limit to exceed 1; at arbitrarily large separations it does not *)
Theorem c116_above_one_refuted : forall R0, exists r, R0 < r /\ 0 < r /\ ptc_maxk r < 1.
Proof.
  intros R0. assert (P := PI_RGT_0). destruct (inr_above (Rabs R0 + 251)) as [n N]. set (r := (2 * INR n + 1) * PI). assert (AB := Rabs_pos R0). assert (LE := Rle_abs R0).
  assert (P2 : 1 < PI) by (assert (X := PI2_1); lra). assert (RR : 2 * INR n + 1 < r) by (unfold r; nra).
  exists r. split; [lra|]. split; [lra|]. unfold ptc_maxk. apply Rmax_lub_lt.
  - unfold r. replace (5015 / 10 * PI / ((2 * INR n + 1) * PI)) with (5015 / 10 / (2 * INR n + 1)) by (field; lra). apply (Rmult_lt_reg_r (2 * INR n + 1)); [lra|]. unfold Rdiv at 1. rewrite Rmult_assoc, Rinv_l by lra. lra.
  - unfold ptc_min_k, ptc_temp_min_k. replace ((1 * r / PI - 1) / 2) with (INR n) by (unfold r; field; lra).
    assert (C : rceil (INR n) = Z.of_nat n). { destruct (rceil_bounds (INR n)) as [A B]. rewrite INR_IZR_INZ in A, B. apply le_IZR in A. assert (B' : IZR (rceil (INR n)) < IZR (Z.of_nat n + 1)) by (rewrite plus_IZR; rewrite <- INR_IZR_INZ in *; exact B). apply lt_IZR in B'. rewrite <- INR_IZR_INZ in A. lia. }
    rewrite C, <- INR_IZR_INZ. unfold r. replace ((2 * INR n + 5 / 10) * PI / ((2 * INR n + 1) * PI)) with ((2 * INR n + 5 / 10) / (2 * INR n + 1)) by (field; lra). apply (Rmult_lt_reg_r (2 * INR n + 1)); [lra|]. unfold Rdiv at 1. rewrite Rmult_assoc, Rinv_l by lra. lra.
Qed.

(** ** the number of points *)
Section Step.
  Variable r : R.
  Hypothesis R0 : 0 < r.
  Let M := ptc_maxk r. Let d := PI / (8 * r). Let L := ln (M / ptc_mink). Let w := ln (M / (M - d)). Let n := Z.to_nat (ptc_nk r).
  Lemma d_pos : 0 < d. Proof. apply Rdiv_lt_0_compat; [apply PI_RGT_0|lra]. Qed.
  Lemma M_big : 4012 * d <= M.
  Proof. destruct (c116_upper_limit r R0) as [A _]. replace (4012 * d) with (5015 / 10 * PI / r) by (unfold d; field; lra). exact A. Qed.
  Lemma M_half : 1 / 2 <= M.
  Proof.
    destruct (c116_upper_limit r R0) as [A [B _]]. fold M in A, B. assert (P := PI_RGT_0). destruct (Rle_dec PI r).
    - eapply Rle_trans; [|exact B]. assert (PI / (2 * r) <= 1 / 2); [|lra]. apply (Rmult_le_reg_r (2 * r)); [lra|]. unfold Rdiv at 1. rewrite Rmult_assoc, Rinv_l by lra. lra.
    - eapply Rle_trans; [|exact A]. apply (Rmult_le_reg_r r); auto. replace (5015 / 10 * PI / r * r) with (5015 / 10 * PI) by (field; lra). nra.
  Qed.
  Lemma w_bounds : d / M < w <= d / (M - d) /\ w <= / 4011.
  Proof.
    assert (D := d_pos). assert (B := M_big). assert (N : 0 < M - d) by lra. unfold w. split; [split|].
    - replace (M / (M - d)) with (/ (1 - d / M)) by (field; lra). assert (X : d / M < 1) by (apply (Rmult_lt_reg_r M); [lra|]; unfold Rdiv; rewrite Rmult_assoc, Rinv_l; lra). assert (X0 : 0 < d / M) by (apply Rdiv_lt_0_compat; lra).
      rewrite ln_Rinv by lra. assert (K : ln (1 - d / M) < - (d / M)); [|lra]. rewrite <- (ln_exp (- (d / M))). apply ln_increasing; [lra|]. assert (Z := exp_ineq1 (- (d / M))). specialize (Z ltac:(lra)). lra.
    - replace (M / (M - d)) with (1 + d / (M - d)) by (field; lra). assert (X0 : 0 < d / (M - d)) by (apply Rdiv_lt_0_compat; lra). rewrite <- (ln_exp (d / (M - d))) at 2. apply Rcomplements.ln_le; [lra|]. assert (Z := exp_ineq1 (d / (M - d))). specialize (Z ltac:(lra)). lra.
    - replace (M / (M - d)) with (1 + d / (M - d)) by (field; lra). assert (X0 : 0 < d / (M - d)) by (apply Rdiv_lt_0_compat; lra). apply Rle_trans with (d / (M - d)).
      + rewrite <- (ln_exp (d / (M - d))) at 2. apply Rcomplements.ln_le; [lra|]. assert (Z := exp_ineq1 (d / (M - d))). specialize (Z ltac:(lra)). lra.
      + apply (Rmult_le_reg_r (M - d)); auto. unfold Rdiv. rewrite Rmult_assoc, Rinv_l by lra. lra.
  Qed.
  Lemma L_ge : 1 <= L.
  Proof.
    unfold L. assert (H := M_half). rewrite <- (ln_exp 1). apply Rcomplements.ln_le; [apply exp_pos|]. assert (E := exp_le_3). unfold ptc_mink. replace (M / / 1000000) with (M * 1000000) by (field). lra.
  Qed.
  Lemma w_pos : 0 < w. Proof. destruct w_bounds as [[A _] _]. assert (0 < d / M) by (apply Rdiv_lt_0_compat; [apply d_pos|assert (X := M_half); lra]). lra. Qed.
  Lemma nk_eq : ptc_nk r = rceil (L / w).
  Proof. reflexivity. Qed.
  Lemma nk_bounds : L / w <= INR n < L / w + 1 /\ (4011 <= n)%nat.
  Proof.
    assert (W := w_pos). assert (LG := L_ge). destruct (rceil_bounds (L / w)) as [A B]. rewrite <- nk_eq in A, B.
    assert (Q : 4011 <= L / w). { apply (Rmult_le_reg_r w); auto. unfold Rdiv. rewrite Rmult_assoc, Rinv_l by lra. destruct w_bounds as [_ X]. lra. }
    assert (Z : (0 <= ptc_nk r)%Z) by (apply le_IZR; lra). assert (E : INR n = IZR (ptc_nk r)) by (unfold n; rewrite INR_IZR_INZ, Z2Nat.id; auto).
    split; [rewrite E; lra|]. apply INR_le. rewrite (INR_IZR_INZ 4011). change (Z.of_nat 4011) with 4011%Z. rewrite E. lra.
  Qed.
  Lemma dlnk_eq : ptc_dlnk r = L / INR (n - 1).
  Proof.
    assert (H := M_half). assert (Q : 0 < ptc_mink) by (unfold ptc_mink; lra). unfold ptc_dlnk. fold n. f_equal. unfold L. fold M. unfold Rdiv. rewrite ln_mult; [|lra|now apply Rinv_0_lt_compat]. rewrite ln_Rinv by auto. ring.
  Qed.
  Lemma dlnk_bounds : w < ptc_dlnk r <= w * (1 + / 4010).
  Proof.
    assert (W := w_pos). assert (LG := L_ge). destruct nk_bounds as [[A B] C]. rewrite dlnk_eq. assert (E : INR (n - 1) = INR n - 1) by (rewrite minus_INR by lia; reflexivity). rewrite E.
    assert (N : 4010 <= INR n - 1). { rewrite <- E. rewrite INR_IZR_INZ. apply IZR_le. lia. }
    split; apply (Rmult_lt_reg_r (INR n - 1)) || apply (Rmult_le_reg_r (INR n - 1)); try lra; unfold Rdiv at 1; rewrite Rmult_assoc, Rinv_l, Rmult_1_r by lra.
    - apply (Rmult_lt_reg_r (/ w)); [now apply Rinv_0_lt_compat|]. replace (w * (INR n - 1) * / w) with (INR n - 1) by (field; lra). fold (L / w). lra.
    - apply (Rmult_le_reg_r (/ w)); [now apply Rinv_0_lt_compat|]. replace (w * (1 + / 4010) * (INR n - 1) * / w) with ((1 + / 4010) * (INR n - 1)) by (field; lra). fold (L / w). lra.
  Qed.
  (** the last abscissa is the upper limit *)
  Lemma last_k : exp (ptc_lnk r (n - 1)) = M.
  Proof.
    unfold ptc_lnk, ptc_dlnk. fold n. destruct nk_bounds as [_ C]. assert (H := M_half). assert (E : INR (n - 1) <> 0) by (apply not_0_INR; lia).
    replace (ln ptc_mink + INR (n - 1) * ((ln (ptc_maxk r) - ln ptc_mink) / INR (n - 1))) with (ln (ptc_maxk r)) by (field; auto). apply exp_ln. fold M. lra.
  Qed.
  Lemma gap_eq : exp (ptc_lnk r (n - 1)) - exp (ptc_lnk r (n - 2)) = M * (1 - exp (- ptc_dlnk r)).
  Proof.
    destruct nk_bounds as [_ C]. assert (E : ptc_lnk r (n - 2) = ptc_lnk r (n - 1) + - ptc_dlnk r). { unfold ptc_lnk. rewrite !minus_INR by lia. simpl INR. ring. }
    rewrite E, exp_plus, last_k. ring.
  Qed.
End Step.
(** the grid runs from 1e-6 to the upper limit.  Finding: its spacing at the upper limit is always larger than one eighth of the
    half-period pi/r (the requested number of steps is one too few points), though by less than 0.1 per cent *)
Theorem c116_steps_per_half_period : forall r, 0 < r -> let n := Z.to_nat (ptc_nk r) in let k i := exp (ptc_lnk r i) in
  k 0%nat = / 1000000 /\ k (n - 1)%nat = ptc_maxk r /\ PI / r / 8 < k (n - 1)%nat - k (n - 2)%nat < 1001 / 1000 * (PI / r / 8).
Proof.
  intros r R0 n k. split; [|split].
  - unfold k, ptc_lnk. simpl. rewrite Rmult_0_l, Rplus_0_r. apply exp_ln. unfold ptc_mink. lra.
  - now apply last_k.
  - unfold k. rewrite gap_eq by auto. set (M := ptc_maxk r). assert (D := d_pos r R0). assert (B := M_big r R0). fold M in B. replace (PI / r / 8) with (PI / (8 * r)) by (field; lra). set (d := PI / (8 * r)) in *.
    destruct (dlnk_bounds r R0) as [E1 E2]. destruct (w_bounds r R0) as [[_ W2] _]. fold M d in E1, E2, W2. set (w := ln (M / (M - d))) in *. set (x := ptc_dlnk r) in *. split.
    + assert (Q : M * (1 - exp (- w)) = d). { unfold w. rewrite exp_Ropp, exp_ln by (apply Rdiv_lt_0_compat; lra). field. lra. } rewrite <- Q. apply Rmult_lt_compat_l; [lra|]. assert (exp (- x) < exp (- w)) by (apply exp_increasing; lra). lra.
    + assert (W0 := w_pos r R0). fold M d w in W0. assert (X := exp_ineq1 (- x) ltac:(lra)). apply Rlt_le_trans with (M * x); [apply Rmult_lt_compat_l; lra|].
      apply Rle_trans with (M * (d / (M - d) * (1 + / 4010))). { apply Rmult_le_compat_l; [lra|]. eapply Rle_trans; [exact E2|]. apply Rmult_le_compat_r; lra. }
      replace (M * (d / (M - d) * (1 + / 4010))) with (d * (M / (M - d) * (1 + / 4010))) by (field; lra). rewrite (Rmult_comm _ d). apply Rmult_le_compat_l; [lra|].
      assert (M / (M - d) <= 4012 / 4011). { apply (Rmult_le_reg_r (M - d)); [lra|]. unfold Rdiv at 1. rewrite Rmult_assoc, Rinv_l by lra. lra. } lra.
Qed.
Print Assumptions c116_steps_per_half_period.

(** ** values *)
(** one value per separation, linear in the spectrum *)
Theorem c116_linear : forall P Q a r, length (power_to_corr P false r) = length r /\
  power_to_corr (fun l => P l + a * Q l) false r = map (fun p => fst p + a * snd p) (combine (power_to_corr P false r) (power_to_corr Q false r)).
Proof.
  intros P Q a r. split; [apply map_length|]. unfold power_to_corr, store. induction r as [|x r IH]; auto. simpl. f_equal; [|exact IH]. unfold ptc_one.
  set (S := scipy_simpson (Z.to_nat (ptc_nk x)) (ptc_dlnk x)). assert (E : forall f g, S (fun i => f i + a * g i) = S f + a * S g).
  { intros f g. unfold S. rewrite !simpson_big. rewrite (QuadProofs.bigsum_ext _ _ (fun i => scipy_simpson_weight (Z.to_nat (ptc_nk x)) i * f i + a * (scipy_simpson_weight (Z.to_nat (ptc_nk x)) i * g i))) by (intros; ring). rewrite QuadProofs.bigsum_plus, QuadProofs.bigsum_scal. ring. }
  replace (S (fun i => (P (ptc_lnk x i) + a * Q (ptc_lnk x i)) * exp (ptc_lnk x i) ^ 2 * sin (exp (ptc_lnk x i) * x) / x)) with (S (fun i => (P (ptc_lnk x i) * exp (ptc_lnk x i) ^ 2 * sin (exp (ptc_lnk x i) * x) / x) + a * (Q (ptc_lnk x i) * exp (ptc_lnk x i) ^ 2 * sin (exp (ptc_lnk x i) * x) / x))).
  - rewrite E. ring.
  - apply simpson_ext. intros i _. unfold Rdiv. ring.
Qed.
(** every value is the Fourier integral between 1e-6 and the upper limit, up to the Lipschitz constant of the integrand in ln k
    times the logarithmic range over 2673: the number of points grows with the range, the step never exceeds 1/4010 *)
Theorem c116_error : forall P K r, 0 < r -> 0 <= K ->
  (forall l l', ln (/ 1000000) <= l <= ln (ptc_maxk r) -> ln (/ 1000000) <= l' <= ln (ptc_maxk r) -> Rabs (xi_integrand P r l - xi_integrand P r l') <= K * Rabs (l - l')) ->
  Rabs (ptc_one P r - xi_between P r (ln (/ 1000000)) (ln (ptc_maxk r))) <= / (2 * PI ^ 2) * (K * (ln (ptc_maxk r) - ln (/ 1000000)) / 2673).
Proof.
  intros P K r R0 K0 H. destruct (nk_bounds r R0) as [_ N]. assert (PP := PI_RGT_0). assert (MH := M_half r R0). set (M := ptc_maxk r) in *. set (n := Z.to_nat (ptc_nk r)) in *.
  assert (LE : ln (/ 1000000) < ln M) by (apply ln_increasing; lra).
  assert (IN : INR (n - 1) <> 0) by (apply not_0_INR; lia). assert (DP : 0 < ptc_dlnk r <= / 4010). { destruct (dlnk_bounds r R0) as [E1 E2]. assert (W := w_pos r R0). destruct (w_bounds r R0) as [_ W2]. lra. }
  assert (TOP : ln (/ 1000000) + INR (n - 1) * ptc_dlnk r = ln M) by (unfold ptc_dlnk; fold n M; unfold ptc_mink; field; auto).
  unfold ptc_one. fold n. unfold xi_between. replace (5 / 10 / PI ^ 2) with (/ (2 * PI ^ 2)) by (field; lra). rewrite <- Rmult_minus_distr_l, Rabs_mult.
  assert (PI0 : 0 < / (2 * PI ^ 2)) by (apply Rinv_0_lt_compat; nra). rewrite (Rabs_right (/ (2 * PI ^ 2))) by lra. apply Rmult_le_compat_l; [lra|].
  rewrite (simpson_ext n _ _ (fun i => xi_integrand P r (ln (/ 1000000) + INR i * ptc_dlnk r))).
  - assert (N3 : (3 <= n)%nat) by (apply Nat.le_trans with 4011%nat; [apply Nat.leb_le; reflexivity|exact N]).
    assert (E := simpson_lipschitz (xi_integrand P r) K (ln (/ 1000000)) (ptc_dlnk r) n N3 K0 ltac:(lra)). rewrite TOP in E. specialize (E H). eapply Rle_trans; [exact E|].
    replace (INR (n - 1) * ptc_dlnk r) with (ln M - ln (/ 1000000)) by lra. set (T := ln M - ln (/ 1000000)) in *. replace (3 / 2 * K * ptc_dlnk r * T) with (K * T * (3 / 2 * ptc_dlnk r)) by ring. unfold Rdiv at 2. apply Rmult_le_compat_l; [apply Rmult_le_pos; unfold T; lra|lra].
  - intros i Hi. change (ln (/ 1000000) + INR i * ptc_dlnk r) with (ptc_lnk r i). unfold xi_integrand. assert (X := exp_pos (ptc_lnk r i)). field. lra.
Qed.
Print Assumptions c116_error.
(** finding: integer separations - a Python int, a list of ints or an integer array - give the correlation truncated to an integer:
    zero wherever its size is below one *)
Theorem c116_integer_separations_refuted : forall P r i, (i < length r)%nat -> let xi := nth i (power_to_corr P false r) 0 in
  exists z, nth i (power_to_corr P true r) 0 = IZR z /\ Rabs (xi - IZR z) < 1 /\ (Rabs xi < 1 -> z = 0%Z) /\ Rabs (IZR z) <= Rabs xi.
Proof.
  intros P r i Hi xi. unfold xi, power_to_corr, store. rewrite (nth_indep _ 0 (IZR (py_int (ptc_one P 0)))) by (rewrite map_length; auto). rewrite (map_nth (fun rr => IZR (py_int (ptc_one P rr))) r 0 i).
  rewrite (nth_indep (map (fun rr => ptc_one P rr) r) 0 (ptc_one P 0)) by (rewrite map_length; auto). rewrite (map_nth (fun rr => ptc_one P rr) r 0 i). set (v := ptc_one P (nth i r 0)). exists (py_int v). split; auto. clearbody v.
  unfold py_int. destruct (Rltb v 0) eqn:E.
  - apply Rltb_spec in E. destruct (rceil_bounds v) as [A B]. assert (Z : (rceil v <= 0)%Z). { apply Z.lt_succ_r. apply lt_IZR. unfold Z.succ. rewrite plus_IZR. lra. } assert (Z' := IZR_le _ _ Z).
    rewrite (Rabs_left v) by auto. rewrite (Rabs_left1 (IZR (rceil v))) by lra. rewrite Rabs_left1 by lra. repeat split; try lra. intros Q. assert (X : (-1 < rceil v)%Z) by (apply lt_IZR; lra). lia.
  - apply Rltb_false in E. destruct (archimed v) as [A B]. rewrite minus_IZR. assert (Z : (1 <= up v)%Z). { apply Zlt_le_succ with (n := 0%Z). apply lt_IZR. lra. } assert (Z' := IZR_le _ _ Z).
    rewrite (Rabs_right v) by lra. rewrite (Rabs_right (IZR (up v) - 1)) by lra. rewrite Rabs_right by lra. repeat split; try lra. intros Q. assert (X : (up v < 2)%Z) by (apply lt_IZR; lra). lia.
Qed.
(** finding: the docstring asks for a callable returning the natural log of power, but the value is used as the power itself: the
    documented input for a unit spectrum gives zero at every separation, and multiplying the spectrum by a adds ln a times the
    transform of a unit spectrum *)
Theorem c116_documented_input_refuted : forall lnP a r, ptc_one (fun _ => ln 1) r = 0 /\ ptc_one (fun l => ln a + lnP l) r = ptc_one lnP r + ln a * ptc_one (fun _ => 1) r.
Proof.
  intros lnP a r. split.
  - unfold ptc_one. rewrite (simpson_ext _ _ _ (fun _ => 0)); [rewrite simpson_zero; ring|]. intros. rewrite ln_1. unfold Rdiv. ring.
  - destruct (c116_linear lnP (fun _ => 1) (ln a) [r]) as [_ H]. unfold power_to_corr, store in H. simpl in H. injection H as H. rewrite <- H. unfold ptc_one. f_equal. apply simpson_ext. intros. unfold Rdiv. ring.
Qed.
(** non-vacuity of the error bound: the spectrum P(k) = 1/k^2 has an integrand with Lipschitz constant the upper limit *)
Example c116_nonvacuous : forall r, 0 < r -> forall l l', ln (/ 1000000) <= l <= ln (ptc_maxk r) -> ln (/ 1000000) <= l' <= ln (ptc_maxk r) ->
  Rabs (xi_integrand (fun l => / exp l ^ 2) r l - xi_integrand (fun l => / exp l ^ 2) r l') <= ptc_maxk r * Rabs (l - l').
Proof.
  intros r R0. assert (MH := M_half r R0). set (M := ptc_maxk r) in *.
  assert (F : forall l, xi_integrand (fun l => / exp l ^ 2) r l = sin (exp l * r) / r). { intros l. unfold xi_integrand. assert (X := exp_pos l). field. lra. }
  assert (O : forall a b, a < b -> b <= ln M -> Rabs (sin (exp b * r) / r - sin (exp a * r) / r) <= M * (b - a)).
  { intros a b AB BM. destruct (mvt (fun l => sin (exp l * r) / r) (fun l => exp l * cos (exp l * r)) a b AB) as [c [C1 C2]]; [intros t _; auto_derive; [lra|]; field; lra|].
    rewrite C2, Rabs_mult, (Rabs_right (b - a)) by lra. apply Rmult_le_compat_r; [lra|]. rewrite Rabs_mult, (Rabs_right (exp c)) by (assert (X := exp_pos c); lra).
    assert (X : exp c <= M). { rewrite <- (exp_ln M) by lra. destruct (Rle_lt_or_eq_dec c (ln M)); [lra|left; now apply exp_increasing|right; now f_equal]. }
    assert (Y : Rabs (cos (exp c * r)) <= 1) by (apply Rabs_le; apply COS_bound). assert (X0 := exp_pos c). assert (Y0 := Rabs_pos (cos (exp c * r))). nra. }
  intros l l' H H'. rewrite !F. destruct (total_order_T l l') as [[D|D]|D].
  - rewrite (Rabs_minus_sym (sin _ / r)), (Rabs_minus_sym l). rewrite (Rabs_right (l' - l)) by lra. apply O; lra.
  - subst. rewrite !Rminus_eq_0, Rabs_R0. lra.
  - rewrite (Rabs_right (l - l')) by lra. apply O; lra.
Qed.
