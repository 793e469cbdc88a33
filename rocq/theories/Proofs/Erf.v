(** The error function: Gaussian integral, range, monotonicity, limits. *)
From Coq Require Import Reals Lra Psatz.
From Coquelicot Require Import Coquelicot.
From Verif Require Import Model.SpecialFn Proofs.Calc.
Local Open Scope R_scope.

Definition gss (t : R) : R := exp (- t ^ 2).
Lemma gss_cont : forall t, continuous gss t.
Proof. intros. apply (ex_derive_continuous gss). unfold gss. auto_derive. auto. Qed.
Lemma gss_pos : forall t, 0 < gss t.
Proof. intros. apply exp_pos. Qed.
Lemma gss_int : forall a b, ex_RInt gss a b.
Proof. intros. apply (ex_RInt_continuous (V:=R_CompleteNormedModule)). intros; apply gss_cont. Qed.

Definition G (x : R) : R := RInt gss 0 x.
Lemma G_derive : forall x, is_derive G x (gss x).
Proof.
  intros. unfold G. apply (is_derive_RInt gss (fun x => RInt gss 0 x) 0 x).
  - exists (mkposreal 1 Rlt_0_1). intros. apply (RInt_correct gss). apply gss_int.
  - apply gss_cont.
Qed.

Definition hh (x t : R) : R := exp (- (x^2 * (1 + t^2))) / (1 + t^2).
Lemma opt : forall t, 0 < 1 + t^2.
Proof. intros. nra. Qed.
Lemma hh_derive : forall x t, is_derive (fun u => hh u t) x (- 2 * x * exp (- (x^2 * (1 + t^2)))).
Proof. intros. assert (H := opt t). unfold hh. auto_derive; [lra|]. simpl pow in *. field. lra. Qed.
Lemma hh_cont_t : forall x t, continuous (hh x) t.
Proof. intros. assert (H := opt t). apply (ex_derive_continuous (hh x)). unfold hh. auto_derive. lra. Qed.
Lemma hh_int : forall x a b, ex_RInt (hh x) a b.
Proof. intros. apply (ex_RInt_continuous (V:=R_CompleteNormedModule)). intros; apply hh_cont_t. Qed.

Lemma exp_cont2 : forall x t, continuity_2d_pt (fun u v => - 2 * u * exp (- (u^2 * (1 + v^2)))) x t.
Proof.
  intros.
  apply continuity_2d_pt_mult.
  - apply continuity_2d_pt_mult; [apply continuity_2d_pt_const|apply continuity_2d_pt_id1].
  - apply (continuity_1d_2d_pt_comp exp (fun u v => - (u^2 * (1 + v^2)))).
    + apply derivable_continuous_pt, derivable_pt_exp.
    + apply continuity_2d_pt_opp. apply continuity_2d_pt_mult.
      * apply (continuity_1d_2d_pt_comp (fun u => u^2) (fun u v => u)); [|apply continuity_2d_pt_id1].
        apply derivable_continuous_pt, derivable_pt_pow.
      * apply continuity_2d_pt_plus; [apply continuity_2d_pt_const|].
        apply (continuity_1d_2d_pt_comp (fun u => u^2) (fun u v => v)); [|apply continuity_2d_pt_id2].
        apply derivable_continuous_pt, derivable_pt_pow.
Qed.

Definition B (x : R) : R := RInt (hh x) 0 1.
Lemma B_derive : forall x, is_derive B x (- 2 * gss x * G x).
Proof.
  intros x.
  assert (E : RInt (fun t => Derive (fun u => hh u t) x) 0 1 = - 2 * gss x * G x).
  { assert (C : RInt (fun t => x * gss (x * t + 0)) 0 1 = G x).
    { assert (H := RInt_comp_lin gss x 0 0 1 (gss_int _ _)).
      rewrite Rmult_0_r, Rmult_1_r, !Rplus_0_r in H. exact H. }
    rewrite <- C.
    assert (I : ex_RInt (fun t => x * gss (x * t + 0)) 0 1).
    { apply (ex_RInt_continuous (V:=R_CompleteNormedModule)). intros t _.
      apply (ex_derive_continuous (fun t => x * gss (x*t+0))). unfold gss. auto_derive. auto. }
    assert (H := RInt_scal (V:=R_CompleteNormedModule) (fun t => x * gss (x * t + 0)) 0 1 (- 2 * gss x) I).
    change (scal (- 2 * gss x) (RInt (fun t => x * gss (x * t + 0)) 0 1)) with (- 2 * gss x * RInt (fun t => x * gss (x * t + 0)) 0 1) in H.
    rewrite <- H. apply RInt_ext.
    intros t _. transitivity (- 2 * x * exp (- (x ^ 2 * (1 + t ^ 2)))); [apply is_derive_unique, hh_derive|].
    change (- 2 * x * exp (- (x ^ 2 * (1 + t ^ 2))) = (- 2 * gss x) * (x * gss (x * t + 0))). unfold gss.
    replace (- (x ^ 2 * (1 + t ^ 2))) with ((- (x ^ 2)) + (- ((x * t + 0) ^ 2))) by ring.
    rewrite exp_plus. ring. }
  rewrite <- E. unfold B. apply (is_derive_RInt_param hh 0 1 x).
  - exists (mkposreal 1 Rlt_0_1). intros y _ t _. eexists. apply hh_derive.
  - intros t _. eapply continuity_2d_pt_ext; [|apply exp_cont2]. intros u v. symmetry. apply is_derive_unique, hh_derive.
  - exists (mkposreal 1 Rlt_0_1). intros. apply hh_int.
Qed.

Lemma B0 : B 0 = PI / 4.
Proof.
  unfold B. rewrite (RInt_ext _ (fun t => / (1 + t^2))).
  - rewrite <- atan_1. replace (atan 1) with (atan 1 - atan 0) by (rewrite atan_0; lra).
    apply is_RInt_unique. apply (is_RInt_derive atan (fun t => / (1 + t^2))).
    + intros. apply is_derive_Reals. apply derivable_pt_lim_atan.
    + intros. apply (ex_derive_continuous (fun t => / (1 + t^2))). assert (H1 := opt x). auto_derive. lra.
  - intros. unfold hh. replace (- (0^2 * (1 + x^2))) with 0 by ring. rewrite exp_0. req. unfold Rdiv. ring.
Qed.

Lemma GB : forall x, G x ^ 2 + B x = PI / 4.
Proof.
  intros x. rewrite <- B0.
  assert (H : forall t, is_derive (fun t => G t ^ 2 + B t) t 0).
  { intros t. assert (D1 := G_derive t). assert (D2 := B_derive t).
    replace 0 with (plus (2 * G t * gss t) (- 2 * gss t * G t)) by (unfold plus; simpl; ring).
    apply (is_derive_plus (fun t => G t ^ 2) B); auto.
    apply (is_derive_ext (fun t => G t * G t)); [intros; req; ring|].
    replace (2 * G t * gss t) with (plus (mult (gss t) (G t)) (mult (G t) (gss t))) by (unfold plus, mult; simpl; ring).
    apply (is_derive_mult G G); auto. intros; apply Rmult_comm. }
  assert (E : G x ^ 2 + B x = G 0 ^ 2 + B 0).
  { destruct (Req_dec x 0) as [->|Hx]; auto.
    destruct (MVT_gen (fun t => G t ^ 2 + B t) 0 x (fun _ => 0)) as [c [_ Hc]].
    - intros; apply H.
    - intros. apply continuity_pt_filterlim. apply (ex_derive_continuous (fun t => G t ^ 2 + B t)). eexists; apply H.
    - lra. }
  rewrite E. unfold G. rewrite RInt_point. unfold zero; simpl. ring.
Qed.

Lemma B_pos : forall x, 0 < B x.
Proof.
  intros. unfold B. apply RInt_gt_0; [lra| |intros; apply hh_cont_t].
  intros t _. unfold hh. apply Rdiv_lt_0_compat; [apply exp_pos|apply opt].
Qed.
Lemma B_le : forall x, B x <= gss x * (PI / 4).
Proof.
  intros. rewrite <- B0. unfold B. rewrite <- RInt_mult_l by apply hh_int.
  apply RInt_le; [lra|apply hh_int| |].
  - apply ex_RInt_mult_l, hh_int.
  - intros t _. unfold hh, gss. assert (P := opt t).
    replace (- (0^2 * (1 + t^2))) with 0 by ring. rewrite exp_0.
    unfold Rdiv. rewrite Rmult_1_l. apply Rmult_le_compat_r; [left; apply Rinv_0_lt_compat; auto|].
    destruct (Req_dec x 0) as [->|]. { right. f_equal. ring. }
    destruct (Req_dec t 0) as [->|]. { right. f_equal. ring. }
    left. apply exp_increasing. assert (0 < t^2) by nra. assert (0 < x^2) by nra. nra.
Qed.

Lemma G_0 : G 0 = 0.
Proof. unfold G. rewrite RInt_point. reflexivity. Qed.
Lemma G_incr : forall x y, x < y -> G x < G y.
Proof.
  intros x y H. destruct (MVT_gen G x y gss) as [c [_ Hc]].
  - intros; apply G_derive.
  - intros. apply continuity_pt_filterlim. apply (ex_derive_continuous G). eexists; apply G_derive.
  - assert (P := gss_pos c). assert (0 < gss c * (y - x)) by (apply Rmult_lt_0_compat; lra). lra.
Qed.
Lemma G_odd : forall x, G (- x) = - G x.
Proof.
  intros. unfold G. assert (H := RInt_comp_lin gss (-1) 0 0 x (gss_int _ _)).
  rewrite Rmult_0_r, !Rplus_0_r in H. replace (-x) with (-1 * x) by ring. rewrite <- H.
  rewrite (RInt_ext _ (fun t => (-1) * (gss t))).
  - rewrite RInt_mult_l by apply gss_int. ring.
  - intros t _. change ((-1) * gss (-1 * t + 0) = -1 * gss t). unfold gss. f_equal. f_equal. ring.
Qed.

Lemma sqrtPI_pos : 0 < sqrt PI.
Proof. apply sqrt_lt_R0, PI_RGT_0. Qed.
Lemma erf_G : forall x, erf x = 2 / sqrt PI * G x.
Proof. reflexivity. Qed.

Lemma erf_sq : forall x, erf x ^ 2 = 1 - 4 / PI * B x.
Proof.
  intros. rewrite erf_G. assert (H := GB x). assert (P := PI_RGT_0). assert (S := sqrtPI_pos).
  assert (Q : sqrt PI ^ 2 = PI) by (simpl; rewrite Rmult_1_r; apply sqrt_def; lra).
  replace ((2 / sqrt PI * G x)^2) with (4 / (sqrt PI ^ 2) * G x ^ 2) by (field; lra).
  rewrite Q. replace (G x ^ 2) with (PI / 4 - B x) by lra. field. lra.
Qed.

Theorem erf_range : forall x, -1 < erf x < 1.
Proof.
  intros. assert (H := erf_sq x). assert (P := PI_RGT_0). assert (0 < 4 / PI * B x).
  { apply Rmult_lt_0_compat; [apply Rdiv_lt_0_compat; lra|apply B_pos]. }
  split; nra.
Qed.
Theorem erf_0 : erf 0 = 0.
Proof. rewrite erf_G, G_0. ring. Qed.
Theorem erf_odd : forall x, erf (- x) = - erf x.
Proof. intros. rewrite !erf_G, G_odd. ring. Qed.
Theorem erf_incr : forall x y, x < y -> erf x < erf y.
Proof.
  intros. rewrite !erf_G. apply Rmult_lt_compat_l; [apply Rdiv_lt_0_compat; [lra|apply sqrtPI_pos]|now apply G_incr].
Qed.
Theorem erf_mono : forall x y, x <= y -> erf x <= erf y.
Proof. intros x y [H| ->]; [left; now apply erf_incr|lra]. Qed.
Theorem erf_pos : forall x, 0 < x -> 0 < erf x.
Proof. intros. rewrite <- erf_0. now apply erf_incr. Qed.

(** 1 - erf^2 <= exp(-x^2) *)
Lemma erf_tail : forall x, 0 <= x -> 1 - exp (- x^2) <= erf x.
Proof.
  intros x Hx. assert (H := erf_sq x). assert (L := B_le x). assert (P := PI_RGT_0). unfold gss in L.
  assert (4 / PI * B x <= exp (- x^2)).
  { apply Rmult_le_reg_l with (PI / 4); [lra|]. replace (PI/4 * (4/PI * B x)) with (B x) by (field; lra). lra. }
  assert (R := erf_range x). assert (0 <= erf x). { destruct Hx as [Hx| <-]; [left; now apply erf_pos|rewrite erf_0; lra]. }
  nra.
Qed.
Lemma exp_neg_bound : forall y, 0 < y -> exp (- y) < / y.
Proof.
  intros. rewrite exp_Ropp. apply Rinv_lt_contravar.
  - apply Rmult_lt_0_compat; [auto|apply exp_pos].
  - assert (A := exp_ineq1 y ltac:(lra)). lra.
Qed.
Theorem erf_lim : forall eps, 0 < eps -> exists M, 0 < M /\ forall x, M <= x -> 1 - eps < erf x.
Proof.
  intros eps He. exists (1 + / eps). assert (Hi := Rinv_0_lt_compat _ He). split; [lra|].
  intros x Hx. assert (T := erf_tail x ltac:(lra)).
  assert (Hx2 : / eps < x^2) by nra.
  assert (E := exp_neg_bound (x^2) ltac:(lra)).
  assert (/ x^2 < eps). { rewrite <- (Rinv_inv eps). apply Rinv_lt_contravar; auto. apply Rmult_lt_0_compat; lra. }
  lra.
Qed.
Theorem erf_derive : forall x, is_derive erf x (2 / sqrt PI * exp (- x^2)).
Proof.
  intros. apply (is_derive_ext (fun t => scal (2 / sqrt PI) (G t))).
  - intros; reflexivity.
  - apply (is_derive_scal G x (2 / sqrt PI) (gss x)). apply G_derive.
Qed.
