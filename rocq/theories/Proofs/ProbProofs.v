From Coq Require Import Reals Lra Lia Psatz.
From Coquelicot Require Import Coquelicot.
From Verif Require Import Spec.ProbSpec Proofs.Calc.
Local Open Scope R_scope.

Lemma exp_series : forall x, is_series (fun n => x ^ n / INR (fact n)) (exp x).
Proof.
  intros. assert (H := is_exp_Reals x). apply is_pseries_R in H.
  eapply is_series_ext; [|exact H]. intros n; simpl. unfold Rdiv. ring.
Qed.
Lemma is_series_mult_l : forall c a l, is_series a l -> is_series (fun n => c * a n) (c * l).
Proof. intros. exact (is_series_scal_l (V:=R_NormedModule) c a l H). Qed.
Lemma is_series_add : forall a b la lb, is_series a la -> is_series b lb -> is_series (fun n => a n + b n) (la + lb).
Proof. intros. exact (is_series_plus (V:=R_NormedModule) a b la lb H H0). Qed.

Lemma pois_total : forall lam, is_series (pois lam) 1.
Proof.
  intros. replace 1 with (exp (- lam) * exp lam) by (rewrite <- exp_plus; replace (- lam + lam) with 0 by ring; apply exp_0).
  apply is_series_mult_l, exp_series.
Qed.

(** shift lemma: sum of n-weighted terms *)
Lemma fact_S : forall n, INR (fact (S n)) = INR (S n) * INR (fact n).
Proof. intros. rewrite <- mult_INR. f_equal. Qed.

Lemma pois_S : forall lam n, INR (S n) * pois lam (S n) = lam * pois lam n.
Proof.
  intros. unfold pois. rewrite fact_S. assert (A := INR_fact_neq_0 n). assert (B : INR (S n) <> 0) by (apply not_0_INR; lia).
  simpl pow. field. split; auto.
Qed.
Lemma series_shift : forall (a : nat -> R) (l : R), a 0%nat = 0 -> is_series (fun n => a (S n)) l -> is_series a l.
Proof.
  intros a l H0 H. apply is_series_decr_1. rewrite H0.
  match goal with |- is_series _ ?x => replace x with l by (unfold plus, opp; simpl; ring) end. exact H.
Qed.

Lemma pois_mean : forall lam, is_series (fun n => pois lam n * INR n) lam.
Proof.
  intros. apply series_shift; [simpl; ring|].
  assert (E := is_series_mult_l lam _ _ (pois_total lam)). rewrite Rmult_1_r in E.
  eapply is_series_ext; [|exact E]. intros. cbv beta. rewrite <- pois_S. req; ring.
Qed.
Lemma pois_pairs : forall lam, is_series (fun n => pois lam n * (INR n * (INR n - 1))) (lam ^ 2).
Proof.
  intros. apply series_shift; [simpl; ring|].
  assert (E := is_series_mult_l lam _ _ (pois_mean lam)). replace (lam * lam) with (lam^2) in E by ring.
  eapply is_series_ext; [|exact E].
  intros. cbv beta. rewrite <- Rmult_assoc, <- pois_S, S_INR. req; ring.
Qed.

Lemma pois_var : forall lam, is_series (fun n => pois lam n * (INR n - lam) ^ 2) lam.
Proof.
  intros.
  assert (E := is_series_add _ _ _ _ (pois_pairs lam) (is_series_add _ _ _ _
     (is_series_mult_l (1 - 2*lam) _ _ (pois_mean lam)) (is_series_mult_l (lam^2) _ _ (pois_total lam)))).
  match type of E with is_series _ ?v => replace v with lam in E by ring end.
  eapply is_series_ext; [|exact E]. intros. cbv beta. req; ring.
Qed.

Lemma series_const : forall lam c, is_series (fun n => pois lam n * c) c.
Proof.
  intros. assert (E := is_series_mult_l c _ _ (pois_total lam)). rewrite Rmult_1_r in E.
  eapply is_series_ext; [|exact E]. intros; cbv beta. req; ring.
Qed.

(** expectations *)
Lemma indep_ss : forall p lam ts, mean_indep p lam (ss_weight ts) (ts^2 * lam^2).
Proof.
  intros. unfold mean_indep, ss_weight. eapply is_series_ext; [|apply is_series_mult_l, (pois_pairs lam)].
  intros. cbv beta. req; ring.
Qed.
Lemma indep_cs : forall p lam tc ts, mean_indep p lam (cs_weight tc ts) (p * tc * (lam * ts)).
Proof.
  intros. unfold mean_indep, cs_weight, c2R. replace (p * tc * (lam * ts)) with (p * tc * ts * lam) by ring.
  eapply is_series_ext; [|apply is_series_mult_l, (pois_mean lam)]. intros. cbv beta. req; ring.
Qed.
Lemma indep_satvar : forall p lam, mean_indep p lam (sat_sqdev lam) lam.
Proof.
  intros. unfold mean_indep, sat_sqdev. eapply is_series_ext; [|apply (pois_var lam)]. intros. cbv beta. req; ring.
Qed.
Lemma indep_cenvar : forall p lam, mean_indep p lam (cen_sqdev p) (p * (1 - p)).
Proof.
  intros. unfold mean_indep, cen_sqdev, c2R. eapply is_series_ext; [|apply (series_const lam)]. intros. cbv beta. req; ring.
Qed.
Lemma cond_cs : forall p mu tc ts, mean_cond p mu (cs_weight tc ts) (p * tc * mu * ts).
Proof.
  intros. unfold mean_cond, cs_weight, c2R. exists (tc * ts * mu). split.
  - eapply is_series_ext; [|apply is_series_mult_l, (pois_mean mu)]. intros; cbv beta; req; ring.
  - simpl. ring.
Qed.
Lemma cond_satnum : forall p mu, mean_cond p mu sat_number (p * mu).
Proof. intros. exists mu. split; [apply pois_mean|]. unfold sat_number. simpl. ring. Qed.
Lemma cond_satpairs : forall p mu, mean_cond p mu sat_pairs_number (p * mu^2).
Proof. intros. exists (mu^2). split; [apply pois_pairs|]. unfold sat_pairs_number. simpl. ring. Qed.
Lemma cond_ss : forall p mu ts, mean_cond p mu (ss_weight ts) (p * (ts * mu)^2).
Proof.
  intros. exists (ts^2 * mu^2). split.
  - eapply is_series_ext; [|apply is_series_mult_l, (pois_pairs mu)]. intros; cbv beta; unfold ss_weight; req; ring.
  - unfold ss_weight; simpl. ring.
Qed.
Lemma mean_indep_unique : forall p lam f v v', mean_indep p lam f v -> mean_indep p lam f v' -> v = v'.
Proof. intros. unfold mean_indep in *. rewrite <- (is_series_unique _ _ H). apply is_series_unique; auto. Qed.
Lemma mean_cond_unique : forall p lam f v v', mean_cond p lam f v -> mean_cond p lam f v' -> v = v'.
Proof.
  intros p lam f v v' [s [H1 ->]] [s' [H2 ->]]. f_equal. f_equal. rewrite <- (is_series_unique _ _ H1). apply is_series_unique; auto.
Qed.
