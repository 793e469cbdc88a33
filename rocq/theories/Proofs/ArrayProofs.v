(** Broadcasting lemmas. *)
From Coq Require Import Reals Bool String List Arith Lia Lra.
From Verif Require Import Model.RBool Model.Profiles Model.ProfileArrays Spec.ArraySpec.
Import ListNotations.
Local Open Scope R_scope.

Lemma bdim_refl : forall n, bdim n n = Some n.
Proof. intros. unfold bdim. now rewrite Nat.eqb_refl. Qed.
Lemma bdim_1l : forall n, bdim 1 n = Some n.
Proof. intros. unfold bdim. destruct (1 =? n)%nat eqn:E; auto. apply Nat.eqb_eq in E. now subst. Qed.
Lemma bdim_1r : forall n, bdim n 1 = Some n.
Proof. intros. unfold bdim. destruct (n =? 1)%nat eqn:E; auto. Qed.
Lemma bdim_none : forall n p, bdim n p = None <-> n <> p /\ n <> 1%nat /\ p <> 1%nat.
Proof.
  intros n p. unfold bdim. destruct (Nat.eqb_spec n p); [split; [discriminate|lia]|]. destruct (Nat.eqb_spec n 1); [split; [discriminate|lia]|].
  destruct (Nat.eqb_spec p 1); split; try discriminate; try lia; auto.
Qed.
Lemma bidx_lt : forall n i, (i < n)%nat -> bidx n i = i.
Proof. intros n i H. unfold bidx. destruct (Nat.eqb_spec n 1); lia. Qed.
Lemma bidx_1 : forall i, bidx 1 i = 0%nat.
Proof. reflexivity. Qed.
Lemma bidx_bound : forall n p k i, bdim n p = Some k -> (i < k)%nat -> (bidx n i < n)%nat /\ (bidx p i < p)%nat.
Proof.
  intros n p k i H Hi. unfold bdim in H. unfold bidx. destruct (Nat.eqb_spec n p); [injection H as <-|destruct (Nat.eqb_spec n 1); [injection H as <-|destruct (Nat.eqb_spec p 1); [injection H as <-|discriminate]]];
  destruct (Nat.eqb_spec n 1); destruct (Nat.eqb_spec p 1); lia.
Qed.
Lemma like_map : forall f a rk n p F, like a rk n p F -> like (amap f a) rk n p (fun i j => f (F i j)).
Proof. intros f a rk n p F [A [B [C D]]]. repeat split; auto. intros i j Hi Hj. simpl. now rewrite D. Qed.
Lemma like_ext : forall a rk n p F G, like a rk n p F -> (forall i j, (i < n)%nat -> (j < p)%nat -> F i j = G i j) -> like a rk n p G.
Proof. intros a rk n p F G [A [B [C D]]] H. repeat split; auto. intros i j Hi Hj. rewrite D; auto. Qed.
Lemma like_ufunc2 : forall op a b ra na pa F rb nb pb G n p, like a ra na pa F -> like b rb nb pb G -> bdim na nb = Some n -> bdim pa pb = Some p ->
  exists t, ufunc2 op a b = Ok t /\ like t (Nat.max ra rb) n p (fun i j => op (F (bidx na i) (bidx pa j)) (G (bidx nb i) (bidx pb j))).
Proof.
  intros op a b ra na pa F rb nb pb G n p [A1 [A2 [A3 A4]]] [B1 [B2 [B3 B4]]] H1 H2. unfold ufunc2. rewrite A2, A3, B2, B3, H1, H2. eexists. split; [reflexivity|].
  repeat split; simpl; auto. intros i j Hi Hj. unfold bent. rewrite A2, A3, B2, B3. destruct (bidx_bound _ _ _ i H1 Hi). destruct (bidx_bound _ _ _ j H2 Hj). rewrite A4, B4 by auto. reflexivity.
Qed.
Lemma ufunc2_fails : forall op a b, bdim (rows a) (rows b) = None \/ bdim (cols a) (cols b) = None -> ufunc2 op a b = Raise ValueError.
Proof. intros op a b [H|H]; unfold ufunc2; rewrite H; auto. destruct (bdim (rows a) (rows b)); auto. Qed.
Lemma like_sc : forall x, like (sc x) 0 1 1 (fun _ _ => x).
Proof. repeat split; auto. Qed.
Lemma like_v1 : forall n f, like (v1 n f) 1 1 n (fun _ j => f j).
Proof. repeat split; auto. Qed.
Lemma like_reduce : forall a rk n p F, like a rk n p F -> is_table (reduce a) n p F.
Proof.
  intros a rk n p F [A [B [C D]]]. unfold is_table, reduce. rewrite B, C.
  destruct (Nat.eqb_spec n 1) as [E|E]; destruct (Nat.eqb_spec p 1) as [E2|E2]; simpl; subst n p.
  - repeat split; auto. intros i j Hi Hj. simpl. rewrite D by lia. replace i with 0%nat by lia. replace j with 0%nat by lia. reflexivity.
  - repeat split; auto. intros i j Hi Hj. simpl. replace i with 0%nat by lia. apply D; lia.
  - repeat split; auto. intros i j Hi Hj. simpl. apply D; lia.
  - repeat split; auto.
Qed.
(** one row (or a scalar) reduced is still one row *)
Definition red_rank (p : nat) : nat := if (p =? 1)%nat then 0%nat else 1%nat.
Lemma like_reduce_row : forall a rk p F, like a rk 1 p F -> like (reduce a) (red_rank p) 1 p F.
Proof.
  intros a rk p F H. apply like_reduce in H. unfold is_table in H. simpl in H. unfold red_rank. destruct (Nat.eqb_spec p 1); subst; auto.
Qed.
Lemma table_of_row_num : forall a p F G, is_table a 1 p F -> (forall j, (j < p)%nat -> F 0%nat j = G j 0%nat) -> is_table a p 1 G.
Proof.
  intros a p F G H E. unfold is_table in *. simpl in *. destruct (Nat.eqb_spec p 1) as [P|P].
  - subst. eapply like_ext; [exact H|]. intros i j Hi Hj. replace i with 0%nat by lia. replace j with 0%nat by lia. apply E. lia.
  - eapply like_ext; [exact H|]. intros i j Hi Hj. replace i with 0%nat by lia. simpl. apply E. lia.
Qed.
Lemma table_ext : forall a n p F G, is_table a n p F -> (forall i j, (i < n)%nat -> (j < p)%nat -> F i j = G i j) -> is_table a n p G.
Proof.
  intros a n p F G H E. unfold is_table in *. destruct (Nat.eqb_spec n 1); destruct (Nat.eqb_spec p 1); subst; (eapply like_ext; [exact H|]); intros; simpl; apply E; lia.
Qed.
