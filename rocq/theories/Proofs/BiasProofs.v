From Coq Require Import Reals Lra Lia Bool Psatz String List.
From Coquelicot Require Import Coquelicot.
From Verif Require Import Model.RBool Model.SpecialFn Model.Profiles Model.Bias Spec.BiasSpec Proofs.Calc Proofs.HODProofs Proofs.ProfileProofs Proofs.ProfileConv Proofs.ProfileProofs2 Proofs.ProfileProofs3.
Import ListNotations.
Local Open Scope R_scope.

(** a common form of the three multiplicity functions *)
Definition G (K A p e t nu : R) : R := K * ((1 + Rpower (A * nu) (- p)) * Rpower nu e * exp (- t * nu / 2)).
Lemma G_pos : forall K A p e t nu, 0 < K -> 0 < G K A p e t nu.
Proof. intros. unfold G. assert (0 < Rpower (A * nu) (-p)) by apply exp_pos. apply Rmult_lt_0_compat; auto. apply Rmult_lt_0_compat; [apply Rmult_lt_0_compat; [lra|apply exp_pos]|apply exp_pos]. Qed.
(** slope s(nu) with nu G'(nu) = s G *)
Definition sl (A p e t nu : R) : R := e - t * nu / 2 - p / (1 + Rpower (A * nu) p).
Lemma G_derive : forall K A p e t nu, 0 < A -> 0 < nu -> is_derive (G K A p e t) nu (sl A p e t nu * (G K A p e t nu / nu)).
Proof.
  intros K A p e t nu HA Hn. assert (P : 0 < A * nu) by now apply Rmult_lt_0_compat.
  unfold G, sl. unfold Rpower at 1 2. 
  apply (is_derive_ext (fun nu => K * ((1 + exp (- p * ln (A * nu))) * exp (e * ln nu) * exp (- t * nu / 2)))); [intros; reflexivity|].
  auto_derive; [repeat split; auto|].
  unfold Rpower. replace (- p * ln (A * nu)) with (- (p * ln (A * nu))) by ring. rewrite exp_Ropp.
  assert (0 < exp (p * ln (A * nu))) by apply exp_pos. set (X := exp (p * ln (A * nu))) in *. replace (- t * nu * / 2) with (- t * nu / 2) by reflexivity.
  set (Y := exp (e * ln nu)). set (Z := exp (- t * nu / 2)). field. repeat split; lra.
Qed.
Lemma G_logderive : forall K A p e t nu, 0 < K -> 0 < A -> 0 < nu -> is_derive (fun l => ln (G K A p e t (exp l))) (ln nu) (sl A p e t nu).
Proof.
  intros K A p e t nu HK HA Hn. assert (D := G_derive K A p e t nu HA Hn). assert (P := G_pos K A p e t nu HK).
  assert (E : exp (ln nu) = nu) by now apply exp_ln.
  assert (D1 : is_derive (fun l => G K A p e t (exp l)) (ln nu) (nu * (sl A p e t nu * (G K A p e t nu / nu)))).
  { assert (DE : is_derive exp (ln nu) nu) by (assert (X := is_derive_exp (ln nu)); rewrite E in X; exact X).
    rewrite <- E in D at 1. exact (is_derive_comp (G K A p e t) exp (ln nu) _ _ D DE). }
  assert (D2 : is_derive ln (G K A p e t (exp (ln nu))) (/ G K A p e t nu)).
  { rewrite E. auto_derive; auto. field. lra. }
  assert (D3 := is_derive_comp ln (fun l => G K A p e t (exp l)) (ln nu) _ _ D2 D1).
  eapply is_derive_eq_; [exact D3|]. unfold scal; simpl; unfold mult; simpl. req. field. split; lra.
Qed.
Lemma sl_cont : forall A p e t nu, 0 < A -> 0 < nu -> continuous (fun nu => sl A p e t nu * (G 1 A p e t nu / nu)) nu.
Proof.
  intros A p e t nu HA Hn. assert (P : 0 < A * nu) by now apply Rmult_lt_0_compat.
  apply (ex_derive_continuous (fun nu => sl A p e t nu * (G 1 A p e t nu / nu))). unfold sl, G, Rpower. auto_derive.
  assert (0 < exp (p * ln (A * nu))) by apply exp_pos. repeat split; auto; lra.
Qed.
Lemma G_int : forall A p e t a b, 0 < A -> 0 < a <= b -> is_RInt (fun nu => sl A p e t nu * (G 1 A p e t nu / nu)) a b (G 1 A p e t b - G 1 A p e t a).
Proof. intros. apply ftc; [lra| |]; intros; [apply G_derive|apply sl_cont]; lra. Qed.

Lemma exp_le_ : forall x y, x <= y -> exp x <= exp y.
Proof. intros x y [H|H]; [left; now apply exp_increasing|subst; lra]. Qed.

(** decay *)
Lemma rpow_small : forall s eps, 0 < s -> 0 < eps -> exists d, 0 < d /\ forall x, 0 < x <= d -> Rpower x s < eps.
Proof.
  intros s eps Hs He. exists (Rpower eps (/ s) / 2). assert (P : 0 < Rpower eps (/ s)) by apply exp_pos. split; [lra|]. intros x Hx.
  apply Rlt_le_trans with (Rpower (Rpower eps (/ s)) s); [apply Rlt_Rpower_l; lra|].
  rewrite Rpower_mult. replace (/ s * s) with 1 by (field; lra). rewrite Rpower_1; lra.
Qed.
Lemma ln_le_sqrt : forall x, 0 < x -> ln x <= 2 * sqrt x.
Proof.
  intros x Hx. assert (S : 0 < sqrt x) by now apply sqrt_lt_R0. replace x with (sqrt x * sqrt x) at 1 by (apply sqrt_sqrt; lra).
  rewrite ln_mult by auto. assert (E := exp_ineq1_le (ln (sqrt x))). rewrite exp_ln in E by auto. lra.
Qed.
Lemma decay : forall s t eps, 0 < t -> 0 < eps -> exists M, 0 < M /\ forall x, M <= x -> Rpower x s * exp (- t * x / 2) < eps.
Proof.
  intros s t eps Ht He.
  set (S := Rmax s 0 + 1). assert (HS : s < S /\ 0 < S) by (unfold S; assert (A := Rmax_l s 0); assert (B := Rmax_r s 0); lra).
  (* need 2 S sqrt x <= t x / 4 i.e. sqrt x >= 8 S / t; and exp(-t x/4) < eps *)
  exists (Rmax 1 (Rmax ((8 * S / t) ^ 2) (4 / t * (Rabs (ln eps) + 1)))).
  split; [eapply Rlt_le_trans; [|apply Rmax_l]; lra|].
  intros x Hx.
  assert (X1 : 1 <= x) by (eapply Rle_trans; [apply Rmax_l|exact Hx]).
  assert (X2 : (8 * S / t) ^ 2 <= x) by (eapply Rle_trans; [eapply Rle_trans; [apply Rmax_l|apply Rmax_r]|exact Hx]).
  assert (X3 : 4 / t * (Rabs (ln eps) + 1) <= x) by (eapply Rle_trans; [eapply Rle_trans; [apply Rmax_r|apply Rmax_r]|exact Hx]).
  set (q := sqrt x). assert (Q : 0 < q) by (apply sqrt_lt_R0; lra). assert (QQ : q * q = x) by (apply sqrt_sqrt; lra).
  assert (Q2 : 8 * S / t <= q).
  { assert (0 < 8 * S / t) by (apply Rdiv_lt_0_compat; lra). simpl in X2. rewrite Rmult_1_r in X2. nra. }
  assert (Q3 : 8 * S <= t * q). { apply (Rmult_le_compat_l t) in Q2; [|lra]. replace (t * (8 * S / t)) with (8 * S) in Q2 by (field; lra). lra. }
  assert (L0 : 0 <= ln x) by (rewrite <- ln_1; apply ln_le; lra).
  assert (L1 := ln_le_sqrt x ltac:(lra)). fold q in L1.
  assert (B : s * ln x <= t * x / 4).
  { apply Rle_trans with (S * ln x); [nra|]. apply Rle_trans with (S * (2 * q)); [apply Rmult_le_compat_l; lra|]. rewrite <- QQ. nra. }
  assert (B3 : Rabs (ln eps) + 1 <= t * x / 4).
  { apply (Rmult_le_compat_l (t/4)) in X3; [|lra]. replace (t / 4 * (4 / t * (Rabs (ln eps) + 1))) with (Rabs (ln eps) + 1) in X3 by (field; lra). lra. }
  unfold Rpower. rewrite <- exp_plus. rewrite <- (exp_ln eps) by auto. apply exp_increasing.
  assert (Y := Rabs_le_between (ln eps) (Rabs (ln eps))). assert (Z := proj1 Y (Rle_refl _)). lra.
Qed.
Lemma G_split : forall A p e t x, 0 < A -> 0 < x -> G 1 A p e t x = (Rpower x e + Rpower A (- p) * Rpower x (e - p)) * exp (- t * x / 2).
Proof.
  intros. unfold G. rewrite <- Rpower_mult_distr by auto. unfold Rminus. rewrite Rpower_plus. ring.
Qed.
Lemma G_zero : forall A p e t, 0 < A -> 0 < t -> 0 < e -> p < e -> forall eps, 0 < eps -> exists a0, 0 < a0 /\ forall a, 0 < a <= a0 -> G 1 A p e t a < eps.
Proof.
  intros A p e t HA Ht He Hp eps Heps. set (C := Rpower A (- p)). assert (HC : 0 < C) by apply exp_pos.
  destruct (rpow_small e (eps/2) He ltac:(lra)) as [d1 [D1 H1]].
  destruct (rpow_small (e - p) (eps / (2 * C)) ltac:(lra) ltac:(apply Rdiv_lt_0_compat; lra)) as [d2 [D2 H2]].
  exists (Rmin d1 d2). split; [now apply Rmin_pos|]. intros a Ha.
  assert (M1 := Rmin_l d1 d2). assert (M2 := Rmin_r d1 d2). specialize (H1 a ltac:(lra)). specialize (H2 a ltac:(lra)).
  rewrite G_split by lra. fold C.
  assert (E1 : exp (- t * a / 2) <= 1) by (rewrite <- exp_0; apply exp_le_; nra).
  assert (E2 : 0 < exp (- t * a / 2)) by apply exp_pos.
  assert (P1 : 0 < Rpower a e) by apply exp_pos. assert (P2 : 0 < Rpower a (e - p)) by apply exp_pos.
  assert (B : C * Rpower a (e - p) < eps / 2). { apply (Rmult_lt_compat_l C) in H2; auto. replace (C * (eps / (2 * C))) with (eps / 2) in H2 by (field; lra). lra. }
  assert (0 < C * Rpower a (e - p)) by now apply Rmult_lt_0_compat. nra.
Qed.
Lemma G_inf : forall A p e t, 0 < A -> 0 < t -> forall eps, 0 < eps -> exists b0, 0 < b0 /\ forall b, b0 <= b -> G 1 A p e t b < eps.
Proof.
  intros A p e t HA Ht eps Heps. set (C := Rpower A (- p)). assert (HC : 0 < C) by apply exp_pos.
  destruct (decay e t (eps/2) Ht ltac:(lra)) as [M1 [P1 H1]].
  destruct (decay (e - p) t (eps / (2 * C)) Ht ltac:(apply Rdiv_lt_0_compat; lra)) as [M2 [P2 H2]].
  exists (Rmax M1 M2). assert (X1 := Rmax_l M1 M2). assert (X2 := Rmax_r M1 M2). split; [lra|]. intros b Hb.
  specialize (H1 b ltac:(lra)). specialize (H2 b ltac:(lra)). rewrite G_split by lra. fold C.
  assert (B : C * (Rpower b (e - p) * exp (- t * b / 2)) < eps / 2). { apply (Rmult_lt_compat_l C) in H2; auto. replace (C * (eps / (2 * C))) with (eps / 2) in H2 by (field; lra). lra. }
  rewrite Rmult_plus_distr_r, Rmult_assoc. lra.
Qed.
Lemma G_total : forall A p e t k, 0 < A -> 0 < t -> 0 < e -> p < e -> integrates_to_zero (fun nu => k * (sl A p e t nu * (G 1 A p e t nu / nu))).
Proof.
  intros A p e t k HA Ht He Hp eps Heps. set (d := eps / (Rabs k + 1)). assert (AK := Rabs_pos k). assert (Hd : 0 < d) by (apply Rdiv_lt_0_compat; lra).
  destruct (G_zero A p e t HA Ht He Hp d Hd) as [a0 [Pa Ha]]. destruct (G_inf A p e t HA Ht d Hd) as [b0 [Pb Hb]].
  exists a0, (Rmax b0 (a0 + 1)). assert (X1 := Rmax_l b0 (a0+1)). assert (X2 := Rmax_r b0 (a0+1)). split; [lra|].
  intros a b HA1 HB. exists (k * (G 1 A p e t b - G 1 A p e t a)). split.
  - apply rscal. apply G_int; lra.
  - specialize (Ha a HA1). specialize (Hb b ltac:(lra)). assert (Ga := G_pos 1 A p e t a ltac:(lra)). assert (Gb := G_pos 1 A p e t b ltac:(lra)).
    rewrite Rabs_mult. assert (R1 : Rabs (G 1 A p e t b - G 1 A p e t a) < d) by (apply Rabs_def1; lra).
    assert (0 <= Rabs (G 1 A p e t b - G 1 A p e t a)) by apply Rabs_pos.
    assert (D : (Rabs k + 1) * d = eps) by (unfold d; field; lra). nra.
Qed.
