From Coq Require Import Reals List Bool Arith ZArith Lia Lra.
From Verif Require Import Model.RBool Model.Profiles Model.IntegrateCorr Model.Grids Proofs.SimpsonXProofs Proofs.IntegrateProofs Proofs.ExtSplineProofs.
Import ListNotations.
Local Open Scope R_scope.

Lemma rceil_bounds : forall x, x <= IZR (rceil x) < x + 1.
Proof. intros x. unfold rceil. rewrite minus_IZR. destruct (archimed (- x)). lra. Qed.
Lemma lt_rceil : forall x i, (i < Z.to_nat (rceil x))%nat <-> INR i < x.
Proof.
  intros x i. destruct (rceil_bounds x) as [A B]. rewrite INR_IZR_INZ. split; intros H.
  - assert (K : (Z.of_nat i + 1 <= rceil x)%Z) by lia. apply IZR_le in K. rewrite plus_IZR in K. lra.
  - assert (K : IZR (Z.of_nat i) < IZR (rceil x)) by lra. apply lt_IZR in K. lia.
Qed.
Lemma rceil_pos : forall x, (0 < Z.to_nat (rceil x))%nat <-> 0 < x.
Proof. intros x. rewrite lt_rceil. simpl. tauto. Qed.
Lemma pow10_lt : forall x y, Rpower 10 x < Rpower 10 y <-> x < y.
Proof.
  assert (L : forall x y, x < y -> Rpower 10 x < Rpower 10 y). { intros. apply Rpower_lt; lra. }
  intros x y. split; [|apply L]. intros H. destruct (Rlt_le_dec x y) as [|[K|K]]; auto; [apply L in K; lra|subst; lra].
Qed.
Lemma arange_pos : forall a b d, 0 < d -> arange a b d = Ok (map (fun i => a + INR i * d) (seq 0 (Z.to_nat (rceil ((b - a) / d))))).
Proof. intros a b d D. unfold arange. replace (Reqb d 0) with false; auto. symmetry. apply not_true_iff_false. rewrite Reqb_spec. lra. Qed.
Lemma div_lt_iff : forall x y d, 0 < d -> (x < y / d <-> x * d < y).
Proof. intros x y d D. split; intros H. - apply (Rmult_lt_compat_r d) in H; auto. replace (y / d * d) with y in H by (field; lra). auto. - apply (Rmult_lt_reg_r d); auto. replace (y / d * d) with y by (field; lra). auto. Qed.
Lemma npl_pos : forall a b n, (0 <= n)%Z -> 0 < a -> 0 < b -> np_logspace a b n = Ok (map Some (logspace a b (Z.to_nat n))).
Proof.
  intros a b n N A B. unfold np_logspace. replace (n <? 0)%Z with false by (symmetry; apply Z.ltb_ge; lia).
  replace (Rltb 0 a) with true by (symmetry; now apply Rltb_spec). replace (Rltb 0 b) with true by (symmetry; now apply Rltb_spec). reflexivity.
Qed.
Lemma logspace_range : forall a b n t, 0 < a -> a <= b -> In t (logspace a b n) -> a <= t <= b.
Proof.
  intros a b n t A H K. unfold logspace in K. apply in_map_iff in K. destruct K as [u [<- Hu]].
  assert (ln a <= ln b) by (destruct H as [H| ->]; [left; apply ln_increasing; auto|lra]).
  apply linspace_in in Hu; auto. split; [rewrite <- (exp_ln a) by lra|rewrite <- (exp_ln b) by lra]; apply exp_le_; lra.
Qed.
Lemma logspace_nth : forall a b n i, (i < n)%nat -> nth i (logspace a b n) 0 = exp (ln a + INR i * ((ln b - ln a) / INR (n - 1))).
Proof. intros a b n i H. unfold logspace, linspace. rewrite map_map. rewrite (nth_indep _ 0 (exp (ln a + INR 0 * ((ln b - ln a) / INR (n - 1))))) by now rewrite map_length, seq_length. rewrite (map_nth (fun i => exp (ln a + INR i * ((ln b - ln a) / INR (n - 1)))) (seq 0 n) 0%nat i). rewrite seq_nth by auto. reflexivity. Qed.
Lemma nonempty_len : forall A (l : list A), nonempty l = true <-> (0 < length l)%nat.
Proof. intros A [|x l]; simpl; split; intros; try lia; try discriminate; auto. Qed.
Lemma npl_len : forall a b n l, np_logspace a b n = Ok l -> (0 <= n)%Z /\ length l = Z.to_nat n.
Proof.
  intros a b n l H. unfold np_logspace in H. destruct (n <? 0)%Z eqn:E; [discriminate|]. apply Z.ltb_ge in E. split; auto.
  destruct (Rltb 0 a && Rltb 0 b)%bool; injection H as <-; rewrite map_length; [apply logspace_len|apply seq_length].
Qed.
