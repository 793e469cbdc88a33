From Coq Require Import Reals List Bool Arith Lia Lra.
From Coquelicot Require Import Coquelicot.
From Verif Require Import Model.RBool Model.SimpsonX Model.IntegrateCorr Proofs.SimpsonXProofs Proofs.ExtSplineProofs.
Import ListNotations.
Local Open Scope R_scope.

(** ** grids *)
Lemma incr_seq : forall (f : nat -> R) n k, (forall i, (k <= i)%nat -> (S i < k + n)%nat -> f i < f (S i)) -> incr (map f (seq k n)).
Proof.
  intros f n. induction n as [|n IH]; intros k H; [constructor|]. destruct n as [|n]; [constructor|]. cbn [seq map]. constructor; [apply H; lia|]. apply (IH (S k)). intros. apply H; lia.
Qed.
Lemma qu_seq : forall (f : nat -> R) n k, (forall i, (k <= i)%nat -> (S (S i) < k + n)%nat -> f (S i) - f i <= 2 * (f (S (S i)) - f (S i)) /\ f (S (S i)) - f (S i) <= 2 * (f (S i) - f i)) -> quasi_uniform (map f (seq k n)).
Proof.
  intros f n. induction n as [|n IH]; intros k H; [constructor|]. destruct n as [|n]; [constructor|]. destruct n as [|n]; [constructor|]. cbn [seq map].
  destruct (H k) as [A B]; [lia|lia|]. constructor; auto. apply (IH (S k)). intros. apply H; lia.
Qed.
Lemma last_seq : forall (f : nat -> R) n k, (0 < n)%nat -> last (map f (seq k n)) 0 = f (k + n - 1)%nat.
Proof.
  intros f n. induction n as [|n IH]; intros k H; [lia|]. destruct n as [|n]; [simpl; f_equal; lia|]. cbn [seq map]. rewrite last_cons2. specialize (IH (S k) ltac:(lia)). cbn [seq map] in IH. rewrite IH. f_equal. lia.
Qed.
Lemma linspace_len : forall a b n, length (linspace a b n) = n.
Proof. intros. unfold linspace. now rewrite map_length, seq_length. Qed.
Lemma linspace_incr : forall a b n, a < b -> incr (linspace a b n).
Proof.
  intros a b n H. unfold linspace. apply incr_seq. intros i _ Hi. assert (0 < INR (n - 1)) by (apply lt_0_INR; lia). rewrite S_INR. assert (0 < (b - a) / INR (n - 1)) by (apply Rdiv_lt_0_compat; lra). lra.
Qed.
Lemma linspace_hd : forall a b n, (0 < n)%nat -> hd 0 (linspace a b n) = a.
Proof. intros a b [|n] H; [lia|]. unfold linspace. simpl. ring. Qed.
Lemma linspace_last : forall a b n, (2 <= n)%nat -> last (linspace a b n) 0 = b.
Proof. intros a b n H. unfold linspace. rewrite last_seq by lia. cbv beta. replace (0 + n - 1)%nat with (n - 1)%nat by lia. assert (0 < INR (n - 1)) by (apply lt_0_INR; lia). field. lra. Qed.
Lemma linspace_in : forall a b n t, a <= b -> In t (linspace a b n) -> a <= t <= b.
Proof.
  intros a b n t H K. unfold linspace in K. apply in_map_iff in K. destruct K as [i [<- Hi]]. apply in_seq in Hi.
  destruct n as [|[|n]]; [lia| |]. { replace i with 0%nat by lia. simpl. lra. }
  assert (N : 0 < INR (S (S n) - 1)) by (apply lt_0_INR; lia). assert (I : INR i <= INR (S (S n) - 1)) by (apply le_INR; lia). assert (0 <= INR i) by apply pos_INR.
  replace (INR i * ((b - a) / INR (S (S n) - 1))) with ((b - a) * (INR i / INR (S (S n) - 1))) by (field; lra).
  assert (0 <= INR i / INR (S (S n) - 1) <= 1). { split; [apply div_pos; lra|]. apply Rmult_le_reg_r with (INR (S (S n) - 1)); auto. unfold Rdiv. rewrite Rmult_assoc, Rinv_l by lra. lra. }
  split; [|rewrite <- (Rplus_minus a b) at 2; apply Rplus_le_compat_l; rewrite <- (Rmult_1_r (b - a)) at 2; apply Rmult_le_compat_l; lra]. assert (0 <= (b - a) * (INR i / INR (S (S n) - 1))) by (apply Rmult_le_pos; lra). lra.
Qed.
Lemma linspace_qu : forall a b n, a < b -> quasi_uniform (linspace a b n).
Proof.
  intros a b n H. unfold linspace. apply qu_seq. intros i _ Hi. assert (0 < INR (n - 1)) by (apply lt_0_INR; lia). rewrite !S_INR. assert (0 < (b - a) / INR (n - 1)) by (apply Rdiv_lt_0_compat; lra). lra.
Qed.
Lemma incr_map : forall (g : R -> R) l, (forall a b, a < b -> g a < g b) -> incr l -> incr (map g l).
Proof. intros g l G H. induction H; cbn [map]; constructor; auto. Qed.
Lemma incr_map_in : forall (g : R -> R) l, (forall a b, In a l -> In b l -> a < b -> g a < g b) -> incr l -> incr (map g l).
Proof. intros g l G H. induction H; cbn [map]; constructor; auto; [apply G; simpl; auto|]. apply IHincr. intros; apply G; simpl in *; tauto. Qed.
Lemma logspace_len : forall a b n, length (logspace a b n) = n.
Proof. intros. unfold logspace. now rewrite map_length, linspace_len. Qed.
Lemma logspace_incr : forall a b n, 0 < a -> a < b -> incr (logspace a b n).
Proof. intros a b n A H. unfold logspace. apply incr_map; [intros; now apply exp_increasing|]. apply linspace_incr. now apply ln_increasing. Qed.
Lemma logspace_hd : forall a b n, 0 < a -> (0 < n)%nat -> hd 0 (logspace a b n) = a.
Proof. intros a b [|n] A H; [lia|]. unfold logspace, linspace. simpl. rewrite Rmult_0_l, Rplus_0_r. now apply exp_ln. Qed.
Lemma logspace_last : forall a b n, 0 < b -> (2 <= n)%nat -> last (logspace a b n) 0 = b.
Proof.
  intros a b n B H. unfold logspace, linspace. rewrite map_map, last_seq by lia. cbv beta. replace (0 + n - 1)%nat with (n - 1)%nat by lia. assert (0 < INR (n - 1)) by (apply lt_0_INR; lia).
  replace (ln a + INR (n - 1) * ((ln b - ln a) / INR (n - 1))) with (ln b) by (field; lra). now apply exp_ln.
Qed.
Lemma exp_le_ : forall x y, x <= y -> exp x <= exp y.
Proof. intros x y [H| ->]; [left; now apply exp_increasing|lra]. Qed.
Lemma ln_le_ : forall x y, 0 < x -> x <= y -> ln x <= ln y.
Proof. intros x y P [H| ->]; [left; now apply ln_increasing|lra]. Qed.
Lemma logspace_in : forall a b n t, 0 < a -> a <= b -> In t (logspace a b n) -> a <= t <= b.
Proof.
  intros a b n t A H K. unfold logspace in K. apply in_map_iff in K. destruct K as [x [<- Hx]]. apply linspace_in in Hx; [|now apply ln_le_].
  rewrite <- (exp_ln a) by auto. rewrite <- (exp_ln b) by lra. split; apply exp_le_; lra.
Qed.
(** a logarithmic grid is quasi-uniform as soon as its ratio is at most 2 *)
Lemma logspace_qu : forall a b n, 0 < a -> a < b -> b <= 2 ^ (n - 1) * a -> quasi_uniform (logspace a b n).
Proof.
  intros a b n A H Q. unfold logspace, linspace. rewrite map_map. apply qu_seq. intros i _ Hi. assert (N : 0 < INR (n - 1)) by (apply lt_0_INR; lia).
  set (d := (ln b - ln a) / INR (n - 1)). assert (D : 0 < d). { apply Rdiv_lt_0_compat; auto. assert (K := ln_increasing _ _ A H). lra. }
  assert (E2 : exp d <= 2). { assert (P : 0 < 2 ^ (n - 1)) by (apply pow_lt; lra). assert (L : ln b - ln a <= INR (n - 1) * ln 2). { assert (ln b <= ln (2 ^ (n - 1) * a)) by (apply ln_le_; lra). rewrite ln_mult in H0 by auto. rewrite ln_pow in H0 by lra. lra. }
    rewrite <- (exp_ln 2) by lra. apply exp_le_. unfold d. apply Rmult_le_reg_r with (INR (n - 1)); auto. unfold Rdiv. rewrite Rmult_assoc, Rinv_l by lra. lra. }
  assert (E1 : 1 < exp d) by (rewrite <- exp_0; now apply exp_increasing). rewrite !S_INR. set (x := ln a + INR i * d).
  replace (ln a + (INR i + 1) * d) with (x + d) by (unfold x; ring). replace (ln a + (INR i + 1 + 1) * d) with (x + d + d) by (unfold x; ring). rewrite !exp_plus. assert (P := exp_pos x). set (e := exp d) in *. set (w := exp x) in *.
  assert (0 < w * (e - 1)) by (apply Rmult_lt_0_compat; lra). assert (0 <= w * (e - 1) * (2 - e)) by (apply Rmult_le_pos; lra). assert (0 <= w * (e - 1) * (e - 1)) by (apply Rmult_le_pos; lra). split; lra.
Qed.

(** ** the regularisation constant *)
Lemma theta_form : forall a, 1 < a -> let u := a - 1 in let s := sqrt (4 * u ^ 2 + 1) in
  get_theta a = 8 * ((u ^ 2 - u + 1) * (s + 1 - 2 * u) + 2 * u) * Rpower (2 * u / (1 + s)) (2 * u) / ((1 + s) ^ 2 * (1 + 2 * u + s)).
Proof.
  intros a Ha u s. assert (U : 0 < u) by (unfold u; lra). unfold get_theta. replace (5 - 8 * a + 4 * a ^ 2) with (4 * u ^ 2 + 1) by (unfold u; ring). fold s.
  assert (S : 0 <= s) by apply sqrt_pos. fold u.
  replace (7 - 2 * a ^ 3 + 3 * s + a ^ 2 * (9 + s) - a * (13 + 3 * s)) with ((u ^ 2 - u + 1) * (s + 1 - 2 * u) + 2 * u) by (unfold u; ring).
  replace (-1 + 2 * a + s) with (1 + 2 * u + s) by (unfold u; ring).
  assert (R1 : Rpower 2 (1 + 2 * a) * Rpower ((1 + s) / u) (- 2 * a) = 8 * u ^ 2 / (1 + s) ^ 2 * Rpower (2 * u / (1 + s)) (2 * u)).
  { assert (P1 : 0 < (1 + s) / u) by (apply Rdiv_lt_0_compat; lra). assert (P2 : 0 < 2 * u / (1 + s)) by (apply Rdiv_lt_0_compat; lra).
    replace (8 * u ^ 2 / (1 + s) ^ 2) with (2 * (2 * u / (1 + s)) ^ 2) by (field; lra). rewrite <- (Rpower_pow 2 (2 * u / (1 + s))) by auto. rewrite Rmult_assoc, <- Rpower_plus.
    replace (INR 2 + 2 * u) with (2 * a) by (unfold u; simpl; ring). rewrite Rpower_plus, Rpower_1 by lra. rewrite Rmult_assoc. f_equal.
    unfold Rpower. rewrite <- exp_plus. f_equal. replace (2 * u / (1 + s)) with (2 * / ((1 + s) / u)) by (field; lra). rewrite ln_mult, ln_Rinv; auto; [ring|lra|]. now apply Rinv_0_lt_compat. }
  replace (Rpower 2 (1 + 2 * a) * ((u ^ 2 - u + 1) * (s + 1 - 2 * u) + 2 * u) * Rpower ((1 + s) / u) (- 2 * a)) with (Rpower 2 (1 + 2 * a) * Rpower ((1 + s) / u) (- 2 * a) * ((u ^ 2 - u + 1) * (s + 1 - 2 * u) + 2 * u)) by ring.
  rewrite R1. field. repeat split; lra.
Qed.
Lemma theta_bounds : forall a, 1 < a -> 0 < get_theta a <= 2.
Proof.
  intros a Ha. rewrite theta_form by auto. cbv zeta. set (u := a - 1). assert (U : 0 < u) by (unfold u; lra). set (s := sqrt (4 * u ^ 2 + 1)).
  assert (U2 : 0 <= u ^ 2) by apply pow2_ge_0. assert (S2 : s ^ 2 = 4 * u ^ 2 + 1). { unfold s. rewrite <- Rsqr_pow2. apply Rsqr_sqrt. lra. } assert (S0 : 0 <= s) by apply sqrt_pos.
  assert (S1 : 1 <= s). { rewrite <- sqrt_1. apply sqrt_le_1; lra. }
  assert (SL : 2 * u <= s). { apply Rsqr_incr_0; [unfold Rsqr; nra|lra|lra]. }
  assert (SU : s <= 2 * u + 1). { apply Rsqr_incr_0; [unfold Rsqr; nra|lra|lra]. }
  set (t := 2 * u / (1 + s)). assert (T : 0 < t < 1). { unfold t. split; [apply Rdiv_lt_0_compat; lra|]. apply Rmult_lt_reg_r with (1 + s); [lra|]. unfold Rdiv. rewrite Rmult_assoc, Rinv_l by lra. lra. }
  assert (Q : 0 < Rpower t (2 * u) <= 1). { split; [apply exp_pos|]. unfold Rpower. rewrite <- exp_0. apply exp_le_. assert (ln t < 0) by (rewrite <- ln_1; apply ln_increasing; lra). assert (0 <= 2 * u * (- ln t)) by (apply Rmult_le_pos; lra). lra. }
  set (B := (u ^ 2 - u + 1) * (s + 1 - 2 * u) + 2 * u). assert (Q0 : 0 < u ^ 2 - u + 1) by nra.
  assert (BP : 0 < B). { unfold B. assert (0 < (u ^ 2 - u + 1) * (s + 1 - 2 * u)) by (apply Rmult_lt_0_compat; lra). lra. }
  assert (BU : B <= 2 * u ^ 2 + 2). { unfold B. assert ((u ^ 2 - u + 1) * (s + 1 - 2 * u) <= (u ^ 2 - u + 1) * 2) by (apply Rmult_le_compat_l; lra). lra. }
  assert (D1 : 4 * u ^ 2 + 4 <= (1 + s) ^ 2) by nra. assert (DP : 0 < (1 + s) ^ 2 * (1 + 2 * u + s)) by (apply Rmult_lt_0_compat; [nra|lra]).
  split.
  - apply Rdiv_lt_0_compat; auto. apply Rmult_lt_0_compat; lra.
  - apply Rmult_le_reg_r with ((1 + s) ^ 2 * (1 + 2 * u + s)); auto. unfold Rdiv. rewrite Rmult_assoc, Rinv_l, Rmult_1_r by lra.
    assert (A1 : 8 * B * Rpower t (2 * u) <= 8 * B * 1) by (apply Rmult_le_compat_l; lra). assert (A2 : (4 * u ^ 2 + 4) * 2 <= (1 + s) ^ 2 * (1 + 2 * u + s)) by (apply Rmult_le_compat; lra). lra.
Qed.
