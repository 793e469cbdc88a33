From Coq Require Import Reals Lra Lia.
From Coquelicot Require Import Coquelicot.
From Verif Require Import Model.Hankel Spec.WindowSpec Proofs.Calc.
Local Open Scope R_scope.

Definition wcore (x : R) : R := sin x - x * cos x.

Lemma wcore_derive : forall x, is_derive wcore x (x * sin x).
Proof. intros x. unfold wcore. auto_derive; auto. ring. Qed.

Lemma wcore_upper : forall x, 0 <= x -> wcore x <= x ^ 3 / 3.
Proof.
  intros x Hx.
  assert (H : 0 ^ 3 / 3 - wcore 0 <= x ^ 3 / 3 - wcore x).
  { apply (mono_of_derive (fun x => x ^ 3 / 3 - wcore x) (fun x => x * (x - sin x))); [exact Hx| |].
    - intros y _. unfold wcore. auto_derive; auto. field.
    - intros y Hy. pose proof (sin_le_id y). nra. }
  unfold wcore in H at 1. rewrite sin_0 in H. lra.
Qed.

Lemma wcore_lower1 : forall x, 0 <= x -> - (x ^ 3 / 3) <= wcore x.
Proof.
  intros x Hx.
  assert (H : 0 ^ 3 / 3 + wcore 0 <= x ^ 3 / 3 + wcore x).
  { apply (mono_of_derive (fun x => x ^ 3 / 3 + wcore x) (fun x => x * (x + sin x))); [exact Hx| |].
    - intros y _. unfold wcore. auto_derive; auto. field.
    - intros y Hy. pose proof (sin_abs_le y) as K. rewrite (Rabs_pos_eq y) in K by lra.
      apply Rabs_le_between in K. nra. }
  unfold wcore in H at 1. rewrite sin_0 in H. lra.
Qed.

Lemma wcore_lower2 : forall x, 0 <= x -> x ^ 3 / 3 - x ^ 5 / 30 <= wcore x.
Proof.
  intros x Hx.
  assert (H : wcore 0 - 0 ^ 3 / 3 + 0 ^ 5 / 30 <= wcore x - x ^ 3 / 3 + x ^ 5 / 30).
  { apply (mono_of_derive (fun x => wcore x - x ^ 3 / 3 + x ^ 5 / 30)
             (fun x => x * (sin x - x + x ^ 3 / 6))); [exact Hx| |].
    - intros y _. unfold wcore. auto_derive; auto. field.
    - intros y Hy. pose proof (sin_ge_cubic y). nra. }
  unfold wcore in H at 1. rewrite sin_0 in H. lra.
Qed.

Lemma wcore_odd : forall x, wcore (- x) = - wcore x.
Proof. intros x. unfold wcore. rewrite sin_neg, cos_neg. ring. Qed.

Lemma window_core : forall k r, exclusion_window k r = 3 * wcore (k * r) / (k * r) ^ 3.
Proof. reflexivity. Qed.

Lemma window_even : forall x, x <> 0 -> 3 * wcore (- x) / (- x) ^ 3 = 3 * wcore x / x ^ 3.
Proof. intros x Hx. rewrite wcore_odd. field. lra. Qed.

Lemma window_bounds : forall x, x <> 0 ->
  -1 <= 3 * wcore x / x ^ 3 <= 1 /\ 1 - x ^ 2 / 10 <= 3 * wcore x / x ^ 3.
Proof.
  assert (P : forall x, 0 < x -> -1 <= 3 * wcore x / x ^ 3 <= 1 /\ 1 - x ^ 2 / 10 <= 3 * wcore x / x ^ 3).
  { intros x Hx. assert (H3 : 0 < x ^ 3) by (apply pow_lt; lra).
    pose proof (wcore_upper x ltac:(lra)). pose proof (wcore_lower1 x ltac:(lra)).
    pose proof (wcore_lower2 x ltac:(lra)).
    repeat split; (apply Rmult_le_reg_r with (x ^ 3); [exact H3|]);
      unfold Rdiv; rewrite ?Rmult_assoc, ?Rinv_l, ?Rmult_1_r by lra; lra. }
  intros x Hx. destruct (Rlt_dec 0 x) as [H|H]; [apply P; exact H|].
  specialize (P (- x) ltac:(lra)). rewrite window_even in P by exact Hx.
  replace ((- x) ^ 2) with (x ^ 2) in P by ring. exact P.
Qed.

Lemma window_is_ft : forall x, x <> 0 -> 3 * wcore x / x ^ 3 = tophat_ft x.
Proof.
  intros x Hx. unfold tophat_ft.
  assert (E : forall s, 3 * s ^ 2 * sinc (x * s) = 3 * s * sin (x * s) / x).
  { intros s. unfold sinc. destruct (Req_EM_T (x * s) 0) as [Z|Z].
    - assert (s = 0) as -> by (apply Rmult_integral in Z; tauto). unfold Rdiv; ring.
    - assert (s <> 0) by (intros ->; apply Z; ring). field. split; assumption. }
  rewrite (RInt_ext _ (fun s => 3 * s * sin (x * s) / x)) by (intros; apply E).
  symmetry. apply is_RInt_unique.
  replace (3 * wcore x / x ^ 3) with
    ((fun s => 3 * wcore (x * s) / x ^ 3) 1 - (fun s => 3 * wcore (x * s) / x ^ 3) 0).
  2:{ cbv beta. rewrite Rmult_1_r, Rmult_0_r. unfold wcore at 2. rewrite sin_0. field. exact Hx. }
  apply (ftc (fun s => 3 * wcore (x * s) / x ^ 3) (fun s => 3 * s * sin (x * s) / x)); [lra| |].
  - intros s _. unfold wcore. auto_derive; auto. field. exact Hx.
  - intros s _. apply (ex_derive_continuous (V := R_NormedModule)). auto_derive. auto.
Qed.

Lemma window_limit : forall eps, 0 < eps -> exists delta, 0 < delta /\
  forall k r, 0 < Rabs (k * r) < delta -> Rabs (exclusion_window k r - 1) < eps.
Proof.
  intros eps He. exists (Rmin 1 eps). split; [apply Rmin_pos; lra|].
  intros k r [H1 H2]. rewrite window_core. set (x := k * r) in *.
  assert (Hx : x <> 0) by (intros E; rewrite E, Rabs_R0 in H1; lra).
  destruct (window_bounds x Hx) as [[A B] C].
  pose proof (Rmin_l 1 eps). pose proof (Rmin_r 1 eps).
  assert (x ^ 2 <= Rabs x).
  { replace (x ^ 2) with (Rabs x * Rabs x).
    - nra. - rewrite <- Rabs_mult. rewrite Rabs_pos_eq by nra. ring. }
  apply Rabs_lt_between. split; lra.
Qed.
