From Coq Require Import Reals Lra Lia Bool Psatz List Permutation Sorting.Sorted.
From Verif Require Import Model.RBool Model.SpecialFn Model.HODFloat Model.Profiles Model.Concentration Proofs.ExtSplineProofs.
Import ListNotations.
Local Open Scope R_scope.

Definition ltp (p q : R * R) := fst p < fst q.
Definition lep (p q : R * R) := fst p <= fst q.

Lemma sort_in : forall l p, In p (sort_pts l) <-> In p l.
Proof.
  assert (I : forall q l p, In p (insert_pt q l) <-> p = q \/ In p l).
  { intros q l p. induction l as [|a t IH]; simpl; [firstorder|]. destruct (Rleb (fst q) (fst a)); simpl; [firstorder|]. rewrite IH. firstorder. }
  induction l as [|a t IH]; intros p; simpl; [tauto|]. rewrite I, IH. firstorder.
Qed.
Lemma sort_nil : forall l, sort_pts l = [] -> l = [].
Proof. intros [|a t] H; auto. assert (X : In a (sort_pts (a :: t))) by (apply sort_in; now left). rewrite H in X. destruct X. Qed.
Lemma sort_sorted : forall l, StronglySorted lep (sort_pts l).
Proof.
  assert (I : forall q l, StronglySorted lep l -> StronglySorted lep (insert_pt q l)).
  { intros q l H. induction H as [|a t H IH F]; simpl; [repeat constructor|]. destruct (Rleb (fst q) (fst a)) eqn:E.
    - apply Rleb_spec in E. constructor; [now constructor|]. constructor; [exact E|]. eapply Forall_impl; [|exact F]. unfold lep; intros; lra.
    - apply Rleb_false in E. constructor; auto. apply Forall_forall. intros x Hx.
      assert (G : forall q l x, In x (insert_pt q l) -> x = q \/ In x l).
      { clear. intros q l x. induction l as [|a t IH]; simpl; [firstorder|]. destruct (Rleb (fst q) (fst a)); simpl; firstorder. }
      destruct (G _ _ _ Hx); [subst; unfold lep; lra|]. rewrite Forall_forall in F. auto. }
  induction l as [|a t IH]; simpl; [constructor|]. now apply I.
Qed.
Lemma sort_id : forall l, StronglySorted ltp l -> sort_pts l = l.
Proof.
  intros l H. induction H as [|a t H IH F]; simpl; auto. rewrite IH. destruct t as [|b t']; simpl; auto.
  inversion F; subst. unfold ltp in H2. replace (Rleb (fst a) (fst b)) with true; auto. symmetry. apply Rleb_spec. lra.
Qed.

(** interpolated values stay between the ordinates *)
Lemma seg_between : forall a b ya yb x lo hi, a <= x < b -> lo <= ya <= hi -> lo <= yb <= hi -> lo <= ya + (yb - ya) / (b - a) * (x - a) <= hi.
Proof.
  intros a b ya yb x lo hi Hx Ha Hb. set (t := (x - a) / (b - a)).
  assert (T : 0 <= t <= 1). { unfold t. assert (0 < / (b - a)) by (apply Rinv_0_lt_compat; lra). unfold Rdiv. split; [apply Rmult_le_pos; lra|]. apply Rmult_le_reg_r with (b - a); [lra|]. rewrite Rmult_assoc, Rinv_l by lra. lra. }
  replace (ya + (yb - ya) / (b - a) * (x - a)) with (ya * (1 - t) + yb * t) by (unfold t; field; lra). nra.
Qed.
Lemma interp_range : forall pts x y lo hi, (forall p, In p pts -> lo <= snd p <= hi) -> np_interp pts x = Some y -> lo <= y <= hi.
Proof.
  induction pts as [|[a ya] t IH]; intros x y lo hi H E; simpl in E; [discriminate|].
  destruct t as [|[b yb] t'].
  - destruct (Reqb x a); [|discriminate]. injection E as <-. exact (H (a, ya) (or_introl eq_refl)).
  - destruct (Rltb x b) eqn:L.
    + destruct (Rleb a x) eqn:K; [|discriminate]. injection E as <-. apply Rltb_spec in L. apply Rleb_spec in K.
      apply seg_between; [lra|exact (H (a, ya) (or_introl eq_refl))|exact (H (b, yb) (or_intror (or_introl eq_refl)))].
    + apply (IH x); auto. intros p Hp. apply H. now right.
Qed.
(** knots are reproduced *)
Lemma interp_knot : forall pts a ya, StronglySorted ltp pts -> In (a, ya) pts -> np_interp pts a = Some ya.
Proof.
  induction pts as [|[a0 y0] t IH]; intros a ya S H; [destruct H|]. inversion S as [|? ? S' F]; subst. simpl. destruct t as [|[b yb] t'].
  - destruct H as [H|[]]. injection H as <- <-. replace (Reqb a0 a0) with true; auto. symmetry. now apply Reqb_spec.
  - assert (L : a0 < b) by (inversion F; subst; auto). destruct H as [H|H].
    + injection H as <- <-. replace (Rltb a0 b) with true by (symmetry; now apply Rltb_spec). replace (Rleb a0 a0) with true by (symmetry; apply Rleb_spec; lra).
      f_equal. ring.
    + assert (b <= a). { destruct H as [H|H]; [injection H as <- _; lra|]. inversion S'; subst. rewrite List.Forall_forall in H3. specialize (H3 _ H). unfold ltp in H3; simpl in H3; lra. }
      replace (Rltb a b) with false by (symmetry; now apply Rltb_false). apply IH; auto.
Qed.
(** on a segment the value is the chord *)
Lemma interp_chord : forall l1 a ya b yb l2 x, StronglySorted ltp (l1 ++ (a, ya) :: (b, yb) :: l2) -> a <= x < b ->
  np_interp (l1 ++ (a, ya) :: (b, yb) :: l2) x = Some (ya + (yb - ya) / (b - a) * (x - a)).
Proof.
  induction l1 as [|[c yc] l1 IH]; intros a ya b yb l2 x S Hx.
  - simpl. replace (Rltb x b) with true by (symmetry; apply Rltb_spec; lra). replace (Rleb a x) with true by (symmetry; apply Rleb_spec; lra). reflexivity.
  - inversion S as [|? ? S' F]; subst. specialize (IH a ya b yb l2 x S' Hx). simpl ((_ :: _) ++ _). simpl.
    destruct (l1 ++ (a, ya) :: (b, yb) :: l2) as [|[d yd] u] eqn:E; [destruct l1; discriminate|].
    assert (d <= x). { destruct l1 as [|e l1]; simpl in E; [injection E as <- _ _; lra|]. injection E as -> E.
      inversion S'; subst. rewrite List.Forall_forall in H2. specialize (H2 (a, ya)). unfold ltp in H2; simpl in H2. assert (d < a); [|lra]. apply H2. apply in_app_iff. right. now left. }
    replace (Rltb x d) with false by (symmetry; now apply Rltb_false). exact IH.
Qed.
Lemma interp_below : forall pts x, (forall p, In p pts -> x < fst p) -> np_interp pts x = None.
Proof.
  intros [|[a ya] t] x H; auto. simpl. assert (A := H (a, ya) (or_introl eq_refl)). simpl in A. destruct t as [|[b yb] t'].
  - replace (Reqb x a) with false; auto. symmetry. apply Reqb_false. lra.
  - assert (B := H (b, yb) (or_intror (or_introl eq_refl))). simpl in B. replace (Rltb x b) with true by (symmetry; now apply Rltb_spec).
    replace (Rleb a x) with false; auto. symmetry. now apply Rleb_false.
Qed.
Lemma interp_above : forall pts x, (forall p, In p pts -> fst p < x) -> np_interp pts x = None.
Proof.
  induction pts as [|[a ya] t IH]; intros x H; auto. simpl. assert (A := H (a, ya) (or_introl eq_refl)). simpl in A. destruct t as [|[b yb] t'].
  - replace (Reqb x a) with false; auto. symmetry. apply Reqb_false. lra.
  - assert (B := H (b, yb) (or_intror (or_introl eq_refl))). simpl in B. replace (Rltb x b) with false by (symmetry; apply Rltb_false; lra).
    apply IH. intros p Hp. apply H. now right.
Qed.
(** if one abscissa is <= x and another >= x the interpolation is defined *)
Lemma interp_some : forall pts x p q, StronglySorted lep pts -> In p pts -> In q pts -> fst p <= x -> x <= fst q -> exists y, np_interp pts x = Some y.
Proof.
  assert (K : forall pts x q a ya, StronglySorted lep ((a, ya) :: pts) -> a <= x -> In q ((a, ya) :: pts) -> x <= fst q -> exists y, np_interp ((a, ya) :: pts) x = Some y).
  { induction pts as [|[b yb] t IH]; intros x q a ya S Ha Hq Hx; simpl.
    - destruct Hq as [Hq|[]]. subst q. simpl in Hx. replace (Reqb x a) with true; eauto. symmetry. apply Reqb_spec. lra.
    - destruct (Rltb x b) eqn:L.
      + replace (Rleb a x) with true by (symmetry; now apply Rleb_spec). eauto.
      + apply Rltb_false in L. inversion S as [|? ? S' F]; subst. destruct Hq as [Hq|Hq].
        * subst q. simpl in Hx. assert (x = a) by lra. subst x. apply (IH a (b, yb) b yb S'); auto; [now left|].
          inversion F; subst. unfold lep in H1. simpl in *. lra.
        * exact (IH x q b yb S' L Hq Hx). }
  intros pts x p q S Hp Hq H1 H2. destruct pts as [|[a ya] t]; [destruct Hp|]. apply (K t x q a ya S); auto.
  destruct Hp as [Hp|Hp]; [subst p; exact H1|]. inversion S; subst. rewrite List.Forall_forall in H4. specialize (H4 _ Hp). unfold lep in H4. simpl in H4. lra.
Qed.
(** a defined value lies between two neighbouring points that enclose x *)
Lemma interp_bracket : forall pts x y, np_interp pts x = Some y ->
  exists p q, In p pts /\ In q pts /\ fst p <= x <= fst q /\ Rmin (snd p) (snd q) <= y <= Rmax (snd p) (snd q).
Proof.
  induction pts as [|[a ya] t IH]; intros x y E; simpl in E; [discriminate|]. destruct t as [|[b yb] t'].
  - destruct (Reqb x a) eqn:K; [|discriminate]. injection E as <-. apply Reqb_spec in K. exists (a, ya), (a, ya). simpl. rewrite Rmin_left, Rmax_left by lra. repeat split; auto; lra.
  - destruct (Rltb x b) eqn:L.
    + destruct (Rleb a x) eqn:K; [|discriminate]. injection E as <-. apply Rltb_spec in L. apply Rleb_spec in K.
      exists (a, ya), (b, yb). repeat split; [now left|right; now left|exact K|simpl; lra| |]; simpl;
      apply (seg_between a b ya yb x (Rmin ya yb) (Rmax ya yb)); try lra; split; try apply Rmin_l; try apply Rmin_r; try apply Rmax_l; apply Rmax_r.
    + destruct (IH x y E) as [p [q [H1 [H2 H3]]]]. exists p, q. repeat split; try (right; assumption); apply H3.
Qed.
