(** The hypotheses of the profile theorems are satisfiable: sine and cosine
    integrals with their values at infinity exist, as do the other ingredients. *)
From Coq Require Import Reals Lra Lia Bool Psatz String List Sorted Permutation.
From Coquelicot Require Import Coquelicot.
From Verif Require Import Model.RBool Model.SpecialFn Model.Profiles Spec.ProfileSpec Proofs.Calc Proofs.HODProofs Proofs.ExclusionProofs
  Proofs.ProfileProofs Proofs.ProfileConv Proofs.ProfileProofs2 Proofs.ProfileProofs3 Props.ProfileProps Props.ProfileProps2.
Import ListNotations.
Local Open Scope R_scope.

(** a bounded increasing function on [1, oo) has a finite limit *)
Lemma incr_lim : forall (F : R -> R) M, (forall x y, 1 <= x <= y -> F x <= F y) -> (forall x, 1 <= x -> F x <= M) -> exists l : R, is_lim F p_infty l.
Proof.
  intros F M HI HB.
  destruct (completeness (fun y => exists x, 1 <= x /\ y = F x)) as [l [UB LUB]].
  - exists M. intros y [x [Hx ->]]. auto.
  - exists (F 1), 1. split; [lra|auto].
  - exists l. apply is_lim_spec. intros eps. destruct eps as [eps He]. simpl.
    assert (EX : exists x, 1 <= x /\ l - eps < F x).
    { apply Classical_Prop.NNPP. intros N. assert (l <= l - eps); [|lra]. apply LUB. intros y [x [Hx ->]].
      destruct (Rle_or_lt (F x) (l - eps)); auto. exfalso. apply N. eauto. }
    destruct EX as [x0 [H0 H1]]. exists x0. intros x Hx. assert (F x0 <= F x) by (apply HI; lra). assert (F x <= l) by (apply UB; exists x; split; [lra|auto]).
    apply Rabs_def1; lra.
Qed.
Section Osc.
  Variable phi : R -> R.
  Hypothesis Pc : forall x, continuous phi x.
  Hypothesis Pb : forall x, -1 <= phi x <= 1.
  Let g := fun t => (1 + phi t) * / t^2.
  Let k := fun t => phi t * / t^2.
  Lemma inv2_cont : forall x, 0 < x -> continuous (fun t => / t^2) x.
  Proof. intros. apply (ex_derive_continuous (fun t => / t^2)). auto_derive. apply Rgt_not_eq. nra. Qed.
  Lemma g_ex : forall a b, 1 <= a <= b -> ex_RInt g a b.
  Proof.
    intros. apply (ex_RInt_continuous (V:=R_CompleteNormedModule)). intros z. rewrite Rmin_left, Rmax_right by lra. intros Hz.
    apply (continuous_mult (K:=R_AbsRing)); [apply (continuous_plus (V:=R_NormedModule)); [apply continuous_const|apply Pc]|apply inv2_cont; lra].
  Qed.
  Lemma inv2_int : forall b, 1 <= b -> is_RInt (fun t => / t^2) 1 b (1 - / b).
  Proof.
    intros b Hb. replace (1 - / b) with ((fun t => - / t) b - (fun t => - / t) 1) by (cbv beta; field; lra). apply (ftc (fun t => - / t) (fun t => / t^2)); auto.
    - intros x Hx. auto_derive; [lra|]. field. lra.
    - intros x Hx. apply inv2_cont; lra.
  Qed.
  Lemma g_nn : forall t, 0 < t -> 0 <= g t <= 2 * / t^2.
  Proof. intros t Ht. unfold g. assert (B := Pb t). assert (0 < / t^2) by (apply Rinv_0_lt_compat, pow_lt; auto). split; nra. Qed.
  Lemma osc_lim : exists l : R, is_lim (fun b => RInt k 1 b) p_infty l.
  Proof.
    destruct (incr_lim (fun b => RInt g 1 b) 2) as [l L].
    - intros x y Hxy. rewrite <- (RInt_Chasles (V:=R_CompleteNormedModule) g 1 x y) by (apply g_ex; lra).
      assert (0 <= RInt g x y) by (apply RInt_ge_0; [lra|apply g_ex; lra|]; intros; apply g_nn; lra). unfold plus; simpl; lra.
    - intros x Hx. apply Rle_trans with (RInt (fun t => 2 * / t^2) 1 x).
      + apply RInt_le; auto; [apply g_ex; lra| |intros; apply g_nn; lra]. exists (2 * (1 - / x)). apply (rscal (fun t => / t^2) 1 x (1 - / x) 2), inv2_int; lra.
      + rewrite (rint_u _ _ _ _ (rscal _ _ _ _ 2 (inv2_int x Hx))). assert (0 < / x) by (apply Rinv_0_lt_compat; lra). lra.
    - exists (l - (1 - 0)). apply is_lim_ext_loc with (fun b => RInt g 1 b - (1 - / (b + 0))).
      + exists 1. intros b Hb. rewrite Rplus_0_r. rewrite <- (rint_u _ _ _ _ (inv2_int b ltac:(lra))).
        assert (E := RInt_minus (V:=R_CompleteNormedModule) g (fun t => / t^2) 1 b (g_ex 1 b ltac:(lra)) (ex_intro _ _ (inv2_int b ltac:(lra)))).
        symmetry. etransitivity; [|exact E]. apply RInt_ext. intros x _. unfold minus, plus, opp, g, k; simpl. req. ring.
      + apply is_lim_minus'; auto. apply is_lim_minus'; [apply is_lim_const|]. apply lim_inv_aff.
  Qed.
End Osc.

(** int_1^x S(t)/t dt for S' = C, C' = -S type pairs, by parts *)
Lemma by_parts_lim : forall (S C : R -> R), (forall x, is_derive C x (- S x)) -> (forall x, continuous S x) -> (forall x, -1 <= C x <= 1) ->
  exists l : R, is_lim (fun b => RInt (fun t => S t / t) 1 b) p_infty l.
Proof.
  intros S C D Cc B. assert (CC : forall x, continuous C x) by (intros x; apply (ex_derive_continuous C); eexists; apply D).
  destruct (osc_lim C CC B) as [l L]. exists (C 1 - 0 - l).
  apply is_lim_ext_loc with (fun b => C 1 - C b / (1 + (b - 1)) - RInt (fun t => C t * / t^2) 1 b).
  - exists 1. intros b Hb. symmetry. apply rint_u.
    assert (E : is_RInt (fun t => S t / t + C t * / t^2) 1 b ((fun t => - C t / t) b - (fun t => - C t / t) 1)).
    { apply (ftc (fun t => - C t / t) (fun t => S t / t + C t * / t^2)); [lra| |].
      - intros x Hx. assert (DX := D x). auto_derive; [repeat split; [eexists; exact DX|lra]|]. change (Derive (fun x0 => C x0) x) with (Derive C x). rewrite (is_derive_unique C x _ DX). field. lra.
      - intros x Hx. apply (continuous_plus (V:=R_NormedModule)).
        + apply (continuous_mult (K:=R_AbsRing)); [apply Cc|]. apply (ex_derive_continuous Rinv). auto_derive. lra.
        + apply (continuous_mult (K:=R_AbsRing)); [apply CC|apply inv2_cont; lra]. }
    assert (K : is_RInt (fun t => C t * / t^2) 1 b (RInt (fun t => C t * / t^2) 1 b)).
    { apply (RInt_correct (V:=R_CompleteNormedModule)). apply (ex_RInt_continuous (V:=R_CompleteNormedModule)). intros z. rewrite Rmin_left, Rmax_right by lra. intros.
      apply (continuous_mult (K:=R_AbsRing)); [apply CC|apply inv2_cont; lra]. }
    eapply rint_eq; [eapply rext; [lra| |exact (rminus _ _ _ _ _ _ E K)]|].
    + intros x Hx. cbv beta. ring.
    + cbv beta. req. field. lra.
  - apply is_lim_minus'; auto. apply is_lim_minus'; [apply is_lim_const|].
    apply is_lim_ext_loc with (fun b => C b * / (b + 0)); [exists 1; intros b Hb; field; lra|].
    apply lim_sq with (fun b => / (b + 0)); [|apply lim_inv_aff]. exists 1. intros x Hx. rewrite Rabs_mult.
    assert (0 < / (x + 0)) by (apply Rinv_0_lt_compat; lra). rewrite (Rabs_pos_eq (/ (x + 0))) by lra. assert (Rabs (C x) <= 1) by (apply Rabs_le; auto).
    assert (0 <= Rabs (C x)) by apply Rabs_pos. nra.
Qed.
Lemma anti_derive : forall (S : R -> R), (forall x, continuous S x) -> forall t, 0 < t -> is_derive (fun x => RInt (fun t => S t / t) 1 x) t (S t / t).
Proof.
  intros S Cc t Ht. assert (CT : forall x, 0 < x -> continuous (fun t => S t / t) x).
  { intros x Hx. apply (continuous_mult (K:=R_AbsRing)); [apply Cc|]. apply (ex_derive_continuous Rinv). auto_derive. lra. }
  apply (is_derive_RInt (fun t => S t / t) (fun x => RInt (fun t => S t / t) 1 x) 1 t); [|now apply CT].
  apply pos_loc; auto. intros y Hy. apply (RInt_correct (V:=R_CompleteNormedModule)). apply (ex_RInt_continuous (V:=R_CompleteNormedModule)).
  intros z Hz. apply CT. unfold Rmin in Hz. destruct (Rle_dec 1 y); lra.
Qed.
Lemma antiderivative_with_limit : forall (S C : R -> R) (v : R), (forall x, is_derive C x (- S x)) -> (forall x, continuous S x) -> (forall x, -1 <= C x <= 1) ->
  exists F : R -> R, (forall t, 0 < t -> is_derive F t (S t / t)) /\ is_lim F p_infty v.
Proof.
  intros S C v D Cc B. destruct (by_parts_lim S C D Cc B) as [l L].
  exists (fun x => RInt (fun t => S t / t) 1 x + (v - l)). split.
  - intros t Ht. eapply is_derive_eq_; [apply (is_derive_plus (V:=R_NormedModule) _ (fun _ => v - l)); [now apply anti_derive|apply (is_derive_const (V:=R_NormedModule))]|].
    unfold plus, zero; simpl. req. ring.
  - eapply lim_eq; [apply is_lim_plus'; [exact L|apply is_lim_const]|]. ring.
Qed.
Theorem sici_exist : exists Si Ci, sine_cosine_integrals Si Ci /\ sici_at_infinity Si Ci.
Proof.
  destruct (antiderivative_with_limit sin cos (PI/2)) as [Si [D1 L1]].
  { intros x. auto_derive; auto. ring. } { intros x. apply (ex_derive_continuous sin). auto_derive. auto. } { intros; apply COS_bound. }
  destruct (antiderivative_with_limit cos (fun x => - sin x) 0) as [Ci [D2 L2]].
  { intros x. auto_derive; auto. ring. } { intros x. apply (ex_derive_continuous cos). auto_derive. auto. } { intros x; assert (B := SIN_bound x); lra. }
  exists Si, Ci. split; split; auto.
Qed.
Print Assumptions sici_exist.

(** an instance at z = 0 without bloating *)
Definition ex_inst : inst := mkInst 200 1 1 0 (fun _ => 1) (fun m => 10).
Example ex_inst_ok : inst_ok ex_inst /\ forall m, bloat ex_inst m = 1.
Proof. split; [repeat split; simpl; lra|]. intros. unfold bloat. simpl. unfold Rpower. rewrite Rmult_0_l. apply exp_0. Qed.
Example ex_moore : 1.7 < cm_at_z ex_inst 1.
Proof. simpl. lra. Qed.
(** Einasto with alpha = 3: the incomplete gamma function of order 1 *)
Example ex_ginc : let ginc := fun s y => 1 - exp (- y) in
  (forall y, 0 < y -> is_derive (ginc (3 / 3)) y (Rpower y (3 / 3 - 1) * exp (- y))) /\ ginc (3 / 3) 0 = 0 /\ filterlim (ginc (3 / 3)) (at_right 0) (locally 0).
Proof.
  cbv zeta. split; [|split].
  - intros y Hy. replace (3/3 - 1) with 0 by field. rewrite Rpower_O by auto. auto_derive; auto. ring.
  - rewrite Ropp_0, exp_0. ring.
  - assert (C : continuous (fun y => 1 - exp (- y)) 0) by (apply (ex_derive_continuous (fun y => 1 - exp (- y))); auto_derive; auto).
    unfold continuous in C. rewrite Ropp_0, exp_0, Rminus_eq_0 in C. eapply filterlim_filter_le_1; [|exact C]. apply filter_le_within.
Qed.
(** a sorting function exists *)
Fixpoint insert (x : R) (l : list R) : list R := match l with [] => [x] | y :: t => if Rle_dec x y then x :: l else y :: insert x t end.
Fixpoint isort (l : list R) : list R := match l with [] => [] | x :: t => insert x (isort t) end.
Lemma insert_perm : forall x l, Permutation (x :: l) (insert x l).
Proof. intros x l. induction l as [|y t IH]; simpl; auto. destruct (Rle_dec x y); auto. eapply perm_trans; [apply perm_swap|]. now constructor. Qed.
Lemma insert_sorted : forall x l, Sorted Rle l -> Sorted Rle (insert x l).
Proof.
  intros x l. induction l as [|y t IH]; intros S; simpl; [repeat constructor|].
  destruct (Rle_dec x y); [constructor; auto|]. inversion S as [|? ? S1 H1]; subst. constructor; auto.
  destruct t as [|z t]; simpl; [constructor; lra|]. inversion H1; subst. destruct (Rle_dec x z); constructor; lra.
Qed.
Example isort_is_sort : is_sort isort.
Proof.
  intros l. induction l as [|x t [P S]]; simpl; [split; constructor|]. split; [|now apply insert_sorted].
  eapply perm_trans; [|apply insert_perm]. now constructor.
Qed.
(** exact quadrature is additive *)
Example ex_quad : forall a b d, (fun a b : R => b - a) a b + (fun a b : R => b - a) b d = (fun a b : R => b - a) a d.
Proof. intros. cbv beta. lra. Qed.
