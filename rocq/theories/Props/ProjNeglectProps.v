(** The part of the line of sight the projected correlation leaves out (C135). *)
From Coq Require Import Reals Lra Lia List.
From Coquelicot Require Import Coquelicot.
From Verif Require Import Model.RBool Model.IntegrateCorr Spec.IntegrateSpec Proofs.Calc Props.IntegrateProps3.
Local Open Scope R_scope.

Section Neglect.
  Variables (xi : R -> R) (rp : R).
  Hypotheses (RP : 0 < rp) (C : forall r, 0 < r -> continuous xi r).
  Let g := fun p => xi (sqrt (rp ^ 2 + p ^ 2)).
  Lemma arg_ge : forall p, rp <= sqrt (rp ^ 2 + p ^ 2).
  Proof. intros p. rewrite <- (sqrt_pow2 rp) at 1 by lra. apply sqrt_le_1_alt. assert (0 <= p ^ 2) by apply pow2_ge_0. lra. Qed.
  Lemma g_cont : forall p, continuous g p.
  Proof.
    intros p. apply (continuous_comp (fun p => sqrt (rp ^ 2 + p ^ 2)) xi).
    - apply (ex_derive_continuous (fun p => sqrt (rp ^ 2 + p ^ 2))). auto_derive. assert (0 <= p ^ 2) by apply pow2_ge_0. assert (0 < rp ^ 2) by (apply pow_lt; auto). simpl in *. lra.
    - apply C. assert (A := arg_ge p). lra.
  Qed.
  Lemma g_int : forall a b, ex_RInt g a b.
  Proof. intros a b. apply (ex_RInt_continuous (V:=R_CompleteNormedModule)). intros z _. apply g_cont. Qed.
  Lemma split_los : forall p0 P, line_of_sight xi rp 0 P = line_of_sight xi rp 0 p0 + line_of_sight xi rp p0 P.
  Proof.
    intros p0 P. unfold line_of_sight. fold g. assert (E := RInt_Chasles g 0 p0 P (g_int _ _) (g_int _ _)). change (RInt g 0 p0 + RInt g p0 P = RInt g 0 P) in E. rewrite <- E. ring.
  Qed.
  Lemma inner_bound : (forall r, rp <= r -> 0 <= xi r <= xi rp) -> forall p0, 0 <= p0 -> 0 <= line_of_sight xi rp 0 p0 <= 2 * (p0 * xi rp).
  Proof.
    intros B p0 P0. unfold line_of_sight. fold g. split.
    - apply Rmult_le_pos; [lra|]. apply RInt_ge_0; auto using g_int. intros p _. apply B. apply arg_ge.
    - apply Rmult_le_compat_l; [lra|]. apply Rle_trans with (RInt (fun _ => xi rp) 0 p0).
      + apply RInt_le; auto using g_int; [apply ex_RInt_const|]. intros p _. apply B. apply arg_ge.
      + rewrite RInt_const. unfold scal. simpl. unfold mult. simpl. lra.
  Qed.
  Lemma outer_bound : (forall r, rp <= r -> 0 <= xi r) -> forall a, 0 <= a -> (forall r, rp <= r -> xi rp * Rpower (rp / r) a <= xi r) ->
    forall P, rp <= P -> 2 * (rp * (xi rp * Rpower 2 (- a / 2))) <= line_of_sight xi rp 0 P.
  Proof.
    intros B a A S P HP. apply Rle_trans with (line_of_sight xi rp 0 rp).
    2: { rewrite (split_los rp P). rewrite <- (Rplus_0_r (line_of_sight xi rp 0 rp)) at 1. apply Rplus_le_compat_l. unfold line_of_sight. fold g. apply Rmult_le_pos; [lra|]. apply RInt_ge_0; auto using g_int. intros p _. apply B, arg_ge. }
    unfold line_of_sight. fold g. apply Rmult_le_compat_l; [lra|]. apply Rle_trans with (RInt (fun _ => xi rp * Rpower 2 (- a / 2)) 0 rp).
    - rewrite RInt_const. unfold scal. simpl. unfold mult. simpl. lra.
    - apply RInt_le; auto using g_int; [lra|apply ex_RInt_const|]. intros p Hp. assert (Q := arg_ge p). assert (Z := S _ Q). apply Rle_trans with (2 := Z). apply Rmult_le_compat_l; [apply B; lra|].
      set (r := sqrt (rp ^ 2 + p ^ 2)) in *. assert (U : r <= sqrt 2 * rp).
      { unfold r. rewrite <- (sqrt_pow2 rp) at 2 by lra. rewrite <- sqrt_mult_alt by lra. apply sqrt_le_1_alt. assert (p ^ 2 <= rp ^ 2) by (apply pow_incr; lra). lra. }
      replace (Rpower 2 (- a / 2)) with (Rpower (/ sqrt 2) a).
      + apply Rle_Rpower_l; auto. assert (0 < sqrt 2) by (apply sqrt_lt_R0; lra). split; [now apply Rinv_0_lt_compat|].
        apply (Rmult_le_reg_r (sqrt 2 * r)); [apply Rmult_lt_0_compat; lra|]. replace (/ sqrt 2 * (sqrt 2 * r)) with r by (field; lra). replace (rp / r * (sqrt 2 * r)) with (sqrt 2 * rp) by (field; lra). auto.
      + unfold Rpower. f_equal. assert (0 < sqrt 2) by (apply sqrt_lt_R0; lra). rewrite ln_Rinv by auto. assert (E : ln 2 = 2 * ln (sqrt 2)). { rewrite <- (sqrt_sqrt 2) at 1 by lra. rewrite ln_mult by auto. ring. } rewrite E. field.
  Qed.
End Neglect.

(** C135: for a correlation function that is non-negative and does not rise beyond rp, what projected_corr_gal leaves out near the plane of the sky
    is between 0 and 0.0402 rp xi(rp); if xi falls no faster than r^-a there, and the limit is at least sqrt 2 rp (it is by default), it is at most the fraction 0.0201 2^(a/2) of the whole *)
Theorem c135_neglected_part : forall xi rp th rl, 0 < rp < rl -> 0 < th <= 2 -> (forall r, 0 < r -> continuous xi r) -> (forall r, rp <= r -> 0 <= xi r <= xi rp) ->
  let kept := 2 * RInt (proj_integrand xi rp) (min_y th rp) (rl - rp) in let whole := line_of_sight xi rp 0 (sqrt (rl ^ 2 - rp ^ 2)) in
  min_y th rp < rl - rp ->
  0 <= whole - kept <= 402 / 10000 * (rp * xi rp) /\
  (forall a, 0 <= a -> (forall r, rp <= r -> xi rp * Rpower (rp / r) a <= xi r) -> sqrt 2 * rp <= rl -> whole - kept <= 201 / 10000 * Rpower 2 (a / 2) * whole).
Proof.
  intros xi rp th rl [RP L] T C B kept whole Y. destruct (c72_limits_along_the_line_of_sight th rl rp T (conj RP L)) as [[A0 A1] A2]. cbv zeta in *.
  assert (MY : 0 < min_y th rp) by (unfold min_y; apply Rmult_lt_0_compat; lra).
  assert (E := c72_line_of_sight xi rp (min_y th rp) (rl - rp) RP MY Y ltac:(intros; apply C; lra)). fold kept in E. rewrite A2 in E.
  set (p0 := sqrt ((min_y th rp + 2 * rp) * min_y th rp)) in *.
  assert (D : whole - kept = line_of_sight xi rp 0 p0) by (unfold whole; rewrite (split_los xi rp RP C p0), E; ring).
  destruct (inner_bound xi rp RP C B p0 ltac:(lra)) as [I0 I1]. assert (X := B rp ltac:(lra)).
  assert (I2 : 2 * (p0 * xi rp) <= 402 / 10000 * (rp * xi rp)). { assert (p0 * xi rp <= 201 / 10000 * rp * xi rp) by (apply Rmult_le_compat_r; lra). lra. }
  rewrite D. split; [lra|]. intros a A S SL. assert (HP : rp <= sqrt (rl ^ 2 - rp ^ 2)).
  { rewrite <- (sqrt_pow2 rp) at 1 by lra. apply sqrt_le_1_alt. assert (Q : (sqrt 2 * rp) ^ 2 <= rl ^ 2) by (apply pow_incr; split; [apply Rmult_le_pos; [apply sqrt_pos|lra]|auto]).
    rewrite Rpow_mult_distr, <- (Rsqr_pow2 (sqrt 2)), Rsqr_sqrt in Q by lra. lra. }
  assert (O := outer_bound xi rp RP C ltac:(intros; now apply B) a A S _ HP). fold whole in O. apply Rle_trans with (1 := I1). apply Rle_trans with (1 := I2).
  replace (402 / 10000 * (rp * xi rp)) with (201 / 10000 * Rpower 2 (a / 2) * (2 * (rp * (xi rp * Rpower 2 (- a / 2))))).
  - apply Rmult_le_compat_l; auto. apply Rmult_le_pos; [lra|]. left. apply exp_pos.
  - assert (M : Rpower 2 (a / 2) * Rpower 2 (- a / 2) = 1) by (rewrite <- Rpower_plus; replace (a / 2 + - a / 2) with 0 by field; apply Rpower_O; lra).
    replace (201 / 10000 * Rpower 2 (a / 2) * (2 * (rp * (xi rp * Rpower 2 (- a / 2))))) with (402 / 10000 * (rp * xi rp) * (Rpower 2 (a / 2) * Rpower 2 (- a / 2))) by field. rewrite M. ring.
Qed.
Print Assumptions c135_neglected_part.

(** in particular at a slope no steeper than -2 less than 4.1% is left out, whatever the other scales *)
Theorem c135_default : forall xi rps rp th, In rp rps -> 0 < rp -> 0 < th <= 2 -> (forall r, 0 < r -> continuous xi r) -> (forall r, rp <= r -> 0 <= xi r <= xi rp) ->
  (forall r, rp <= r -> xi rp * (rp / r) ^ 2 <= xi r) -> let rl := rlim None rps in
  let kept := 2 * RInt (proj_integrand xi rp) (min_y th rp) (rl - rp) in let whole := line_of_sight xi rp 0 (sqrt (rl ^ 2 - rp ^ 2)) in
  (1 - 402 / 10000) * whole <= kept <= whole.
Proof.
  intros xi rps rp th Hin RP T C B S rl kept whole. destruct (c72_default_limit None rps rp Hin (or_introl eq_refl)) as [_ L]. fold rl in L.
  assert (M : min_y th rp < rl - rp). { unfold min_y. assert (th * (1 / 100) ^ 2 * rp <= 2 * (1 / 100) ^ 2 * rp) by (apply Rmult_le_compat_r; [lra|]; apply Rmult_le_compat_r; lra). simpl in *. lra. }
  destruct (c135_neglected_part xi rp th rl ltac:(lra) T C B M) as [[N0 _] N]. cbv zeta in *. fold kept whole in N0, N.
  specialize (N 2 ltac:(lra)). assert (sqrt 2 <= 2). { rewrite <- (sqrt_pow2 2) at 2 by lra. apply sqrt_le_1_alt. lra. }
  assert (Z : sqrt 2 * rp <= rl) by (apply Rle_trans with (2 * rp); [apply Rmult_le_compat_r; lra|lra]).
  assert (P2 : forall r, rp <= r -> xi rp * Rpower (rp / r) 2 <= xi r).
  { intros r Hr. replace 2 with (INR 2) by reflexivity. rewrite Rpower_pow by (apply Rdiv_lt_0_compat; lra). now apply S. }
  specialize (N P2 Z). replace (2 / 2) with 1 in N by field. rewrite Rpower_1 in N by lra. lra.
Qed.
Print Assumptions c135_default.
Example c135_met : forall r, 1 <= r -> 0 <= / r ^ 2 <= / 1 ^ 2 /\ / 1 ^ 2 * (1 / r) ^ 2 <= / r ^ 2.
Proof.
  intros r Hr. assert (0 < r ^ 2) by (apply pow_lt; lra). assert (1 ^ 2 <= r ^ 2) by (apply pow_incr; lra). repeat split.
  - left. now apply Rinv_0_lt_compat.
  - apply Rinv_le_contravar; lra.
  - right. field. lra.
Qed.
