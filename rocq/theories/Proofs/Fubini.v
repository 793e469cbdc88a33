(** Iterated integrals of a continuous function of two variables can be exchanged. *)
From Coq Require Import Reals Lra.
From Coquelicot Require Import Coquelicot.
From Verif Require Import Proofs.Calc.
Local Open Scope R_scope.

Definition cont2 (h : R -> R -> R) : Prop := forall u v, continuity_2d_pt h u v.
Lemma cont2_swap : forall h, cont2 h -> cont2 (fun u v => h v u).
Proof. intros h H u v eps. destruct (H v u eps) as [d D]. exists d. intros. now apply D. Qed.
Lemma cont2_r : forall h u v, cont2 h -> continuous (fun y => h u y) v.
Proof.
  intros h u v H. apply filterlim_locally. intros eps. destruct (H u v eps) as [d D]. exists d. intros y Hy. unfold ball in *; simpl in *. unfold AbsRing_ball, abs, minus, plus, opp in *; simpl in *.
  apply D; auto. replace (u - u) with 0 by ring. rewrite Rabs_R0. apply d.
Qed.
Lemma cont2_l : forall h u v, cont2 h -> continuous (fun x => h x v) u.
Proof. intros h u v H. exact (cont2_r (fun a b => h b a) v u (cont2_swap h H)). Qed.
Lemma ex_cont : forall (f : R -> R) a b, (forall x, continuous f x) -> ex_RInt f a b.
Proof. intros f a b H. apply (ex_RInt_continuous (V:=R_CompleteNormedModule)). intros; apply H. Qed.
Lemma param_cont : forall h a b c, a <= b -> cont2 h -> continuous (fun x => RInt (fun y => h x y) a b) c.
Proof.
  intros h a b c L H. apply filterlim_locally. intros eps.
  assert (Q : 0 < eps / (b - a + 1)) by (apply Rdiv_lt_0_compat; [apply eps|lra]).
  destruct (uniform_continuity_2d_1d' h a b c (fun x _ => H c x) (mkposreal _ Q)) as [d D].
  exists d. intros v Hv. unfold ball in *; simpl in *. unfold AbsRing_ball, abs, minus, plus, opp in *; simpl in *.
  assert (E1 : forall x, ex_RInt (fun y => h x y) a b) by (intros x; apply ex_cont; intros; now apply cont2_r).
  apply Rabs_def2 in Hv.
  assert (M : Rabs (RInt (fun y => h v y - h c y) a b) <= (b - a) * (eps / (b - a + 1))).
  { apply abs_RInt_le_const; auto.
    - apply (ex_RInt_minus (V:=R_NormedModule)); apply E1.
    - intros t Ht. left. apply (D t c t v); auto; try (split; lra). replace (t - t) with 0 by ring. rewrite Rabs_R0. apply d. }
  assert (E : RInt (fun y => h v y - h c y) a b = RInt (fun y => h v y) a b - RInt (fun y => h c y) a b) by exact (RInt_minus (V:=R_CompleteNormedModule) _ _ a b (E1 v) (E1 c)).
  rewrite E in M. apply Rle_lt_trans with (1 := M). apply Rmult_lt_reg_r with (b - a + 1); [lra|].
  replace ((b - a) * (eps / (b - a + 1)) * (b - a + 1)) with ((b - a) * eps) by (field; lra). destruct eps as [e P]; simpl. nra.
Qed.
Lemma fubini : forall h a b, 0 <= a -> 0 <= b -> cont2 h ->
  is_RInt (fun s => RInt (fun y => h s y) 0 b) 0 a (RInt (fun y => RInt (fun s => h s y) 0 a) 0 b).
Proof.
  intros h a b Ha Hb H. set (F := fun X => RInt (fun y => RInt (fun s => h s y) 0 X) 0 b).
  assert (E1 : forall y p q, ex_RInt (fun s => h s y) p q) by (intros; apply ex_cont; intros; now apply cont2_l).
  assert (DV : forall y X, is_derive (fun Z => RInt (fun s => h s y) 0 Z) X (h X y)).
  { intros y X. apply (is_derive_RInt (V:=R_NormedModule) (fun s => h s y)) with (a := 0); [|now apply cont2_l].
    exists (mkposreal 1 Rlt_0_1). intros Z _. apply (RInt_correct (V:=R_CompleteNormedModule)). apply E1. }
  assert (P : forall X, 0 <= X -> ex_RInt (fun y => RInt (fun s => h s y) 0 X) 0 b).
  { intros X HX. apply ex_cont. intros y. apply (param_cont (fun u v => h v u) 0 X y HX). now apply cont2_swap. }
  assert (PN : forall X, ex_RInt (fun y => RInt (fun s => h s y) 0 X) 0 b).
  { intros X. destruct (Rle_dec 0 X) as [L|L]; auto. apply ex_RInt_ext with (fun y => -1 * RInt (fun s => h s y) X 0).
    - intros y _. assert (S := opp_RInt_swap (V:=R_CompleteNormedModule) (fun s => h s y) X 0 (E1 y X 0)). unfold opp in S; simpl in S. lra.
    - apply ex_RInt_mult_l. apply ex_cont. intros y. apply (param_cont (fun u v => h v u) X 0 y); [lra|]. now apply cont2_swap. }
  assert (D : forall X, is_derive F X (RInt (fun y => h X y) 0 b)).
  { intros X. unfold F. rewrite (RInt_ext (fun y => h X y) (fun y => Derive (fun u => RInt (fun s => h s y) 0 u) X)).
    2:{ intros y _. symmetry. apply is_derive_unique, DV. }
    apply is_derive_RInt_param.
    - exists (mkposreal 1 Rlt_0_1). intros Z _ t _. eexists; apply DV.
    - intros t _. apply (continuity_2d_pt_ext h); [|apply H]. intros u v. symmetry. apply is_derive_unique, DV.
    - exists (mkposreal 1 Rlt_0_1). intros Z _. apply PN. }
  assert (Z : F 0 = 0).
  { unfold F. rewrite (RInt_ext _ (fun _ => 0)). - rewrite RInt_const. unfold scal; simpl. unfold mult; simpl. ring. - intros y _. rewrite RInt_point. reflexivity. }
  assert (K := ftc F (fun s => RInt (fun y => h s y) 0 b) 0 a Ha (fun x _ => D x) (fun x _ => param_cont h 0 b x Hb H)).
  rewrite Z, Rminus_0_r in K. exact K.
Qed.
