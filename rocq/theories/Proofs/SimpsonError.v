(** Distance between scipy's Simpson sum and the integral of a Lipschitz function, for every number of points from 3 on. *)
From Coq Require Import Reals List Bool Arith Lia Lra.
From Coquelicot Require Import Coquelicot.
From Verif Require Import Model.Quad Spec.QuadSpec Proofs.QuadProofs Proofs.QuadProofs2 Proofs.ExclusionProofs Proofs.SimpsonExact.
Local Open Scope R_scope.

Section Lip.
  Variable f : R -> R. Variable K : R. Hypothesis K0 : 0 <= K.
  Hypothesis lip : forall x y, Rabs (f x - f y) <= K * Rabs (x - y).
  Lemma lip_cont : forall x, continuous f x.
  Proof.
    intros x. apply continuity_pt_filterlim. intros e E. exists (e / (K + 1)). split; [apply Rdiv_lt_0_compat; lra|].
    intros y [_ H]. unfold dist in *. simpl in *. unfold R_dist in *. eapply Rle_lt_trans; [apply lip|].
    apply Rle_lt_trans with (K * (e / (K + 1))); [apply Rmult_le_compat_l; lra|]. apply (Rmult_lt_reg_r (K + 1)); [lra|]. replace (K * (e / (K + 1)) * (K + 1)) with (K * e) by (field; lra). nra.
  Qed.
  Lemma lip_ex : forall a b, ex_RInt f a b.
  Proof. intros. apply (@ex_RInt_continuous R_CompleteNormedModule). intros. apply lip_cont. Qed.
  Lemma lip_near : forall a b c d, a <= b -> (forall t, a <= t <= b -> Rabs (t - c) <= d) -> Rabs (RInt f a b - (b - a) * f c) <= (b - a) * (K * d).
  Proof.
    intros a b c d AB H. replace (RInt f a b - (b - a) * f c) with (RInt (fun t => f t - f c) a b).
    - apply abs_RInt_le_const; auto.
      + apply (@ex_RInt_minus R_NormedModule); [apply lip_ex|apply (@ex_RInt_const R_NormedModule)].
      + intros t Ht. eapply Rle_trans; [apply lip|]. apply Rmult_le_compat_l; auto.
    - rewrite (RInt_minus (V:=R_CompleteNormedModule) f (fun _ => f c)); [|apply lip_ex|apply (@ex_RInt_const R_NormedModule)]. rewrite (RInt_const (V:=R_CompleteNormedModule)). reflexivity.
  Qed.
  Variable x0 h : R. Hypothesis H0 : 0 <= h.
  Let x (i : nat) := x0 + INR i * h.
  Lemma xS : forall i, x (S i) = x i + h. Proof. intros. unfold x. rewrite S_INR. ring. Qed.
  Lemma xd : forall i, Rabs (f (x (S i)) - f (x i)) <= K * h.
  Proof. intros. eapply Rle_trans; [apply lip|]. rewrite xS. replace (x i + h - x i) with h by ring. rewrite Rabs_right; lra. Qed.
  Lemma rule_err : forall k, Rabs (simpson_rule h k (fun i => f (x i)) - RInt f x0 (x (2 * k))) <= 3 / 2 * K * h * (INR (2 * k) * h).
  Proof.
    unfold simpson_rule. induction k as [|k IH].
    - rewrite bigsum_0. replace (x (2 * 0)) with x0 by (unfold x; simpl; ring). rewrite (RInt_point (V:=R_CompleteNormedModule)). simpl INR. rewrite Rmult_0_l. unfold zero; simpl. rewrite Rminus_0_r, Rabs_R0. lra.
    - rewrite bigsum_S. replace (2 * S k)%nat with (S (S (2 * k))) by lia. rewrite <- (RInt_Chasles (V:=R_CompleteNormedModule) f x0 (x (2 * k)) (x (S (S (2 * k))))) by apply lip_ex.
      set (p := (2 * k)%nat) in *. replace (p + 1)%nat with (S p) by lia. replace (p + 2)%nat with (S (S p)) by lia. match goal with |- Rabs (?s + _ - _) <= _ => set (Sm := s) in * end.
      assert (D1 := xd p). assert (D2 := xd (S p)). assert (N := lip_near (x p) (x (S (S p))) (x (S p)) h).
      assert (E1 := xS p). assert (E2 := xS (S p)). specialize (N ltac:(lra)). specialize (N ltac:(intros t Ht; apply Rabs_le; lra)).
      set (I1 := RInt f x0 (x p)) in *. set (I2 := RInt f (x p) (x (S (S p)))) in *. change (plus I1 I2) with (I1 + I2). set (u := f (x p)) in *. set (v := f (x (S p))) in *. set (w := f (x (S (S p)))) in *.
      replace (x (S (S p)) - x p) with (2 * h) in N by lra.
      replace (3 / 2 * K * h * (INR (S (S p)) * h)) with (3 / 2 * K * h * (INR p * h) + 3 * (K * h * h)) by (rewrite !S_INR; field).
      assert (KH : 0 <= K * h * h) by (apply Rmult_le_pos; [apply Rmult_le_pos|]; auto).
      assert (D1' : h * Rabs (v - u) <= h * (K * h)) by (apply Rmult_le_compat_l; auto). assert (D2' : h * Rabs (w - v) <= h * (K * h)) by (apply Rmult_le_compat_l; auto).
      replace (h * Rabs (v - u)) with (Rabs (h * (v - u))) in D1' by (rewrite Rabs_mult, (Rabs_right h); lra). replace (h * Rabs (w - v)) with (Rabs (h * (w - v))) in D2' by (rewrite Rabs_mult, (Rabs_right h); lra).
      apply Rabs_le_between in D1'. apply Rabs_le_between in D2'. apply Rabs_le_between in N. apply Rabs_le_between in IH. apply Rabs_le. lra.
  Qed.
  Lemma simpson_err : forall n, (3 <= n)%nat -> Rabs (scipy_simpson n h (fun i => f (x i)) - RInt f x0 (x (n - 1))) <= 3 / 2 * K * h * (INR (n - 1) * h).
  Proof.
    intros n N. destruct (Nat.even n) eqn:E.
    - apply Nat.even_spec in E. destruct E as [j ->]. assert (J : (1 <= j - 1)%nat) by lia. replace (2 * j)%nat with (2 * (j - 1) + 2)%nat by lia. set (k := (j - 1)%nat) in *. clearbody k. clear N j.
      rewrite even_split, simpson_odd_rule by auto. assert (IH := rule_err k). replace (2 * k + 2 - 1)%nat with (S (2 * k)) by lia. rewrite <- (RInt_Chasles (V:=R_CompleteNormedModule) f x0 (x (2 * k)) (x (S (2 * k)))) by apply lip_ex.
      replace (2 * k + 1)%nat with (S (2 * k)) by lia. destruct (2 * k)%nat as [|q] eqn:Q; [lia|]. replace (S q - 1)%nat with q by lia.
      assert (D1 := xd q). assert (D2 := xd (S q)). assert (E1 := xS q). assert (E2 := xS (S q)). assert (NN := lip_near (x (S q)) (x (S (S q))) (x (S q)) h ltac:(lra) ltac:(intros t Ht; apply Rabs_le; lra)).
      set (I1 := RInt f x0 (x (S q))) in *. set (I2 := RInt f (x (S q)) (x (S (S q)))) in *. change (plus I1 I2) with (I1 + I2). set (u := f (x q)) in *. set (v := f (x (S q))) in *. set (w := f (x (S (S q)))) in *.
      replace (x (S (S q)) - x (S q)) with h in NN by lra.
      replace (3 / 2 * K * h * (INR (S (S q)) * h)) with (3 / 2 * K * h * (INR (S q) * h) + 3 / 2 * (K * h * h)) by (rewrite !S_INR; field).
      assert (D1' : h * Rabs (v - u) <= h * (K * h)) by (apply Rmult_le_compat_l; auto). assert (D2' : h * Rabs (w - v) <= h * (K * h)) by (apply Rmult_le_compat_l; auto).
      replace (h * Rabs (v - u)) with (Rabs (h * (v - u))) in D1' by (rewrite Rabs_mult, (Rabs_right h); lra). replace (h * Rabs (w - v)) with (Rabs (h * (w - v))) in D2' by (rewrite Rabs_mult, (Rabs_right h); lra).
      set (SR := simpson_rule h k (fun i => f (x i))) in *. apply Rabs_le_between in D1'. apply Rabs_le_between in D2'. apply Rabs_le_between in NN. apply Rabs_le_between in IH. apply Rabs_le. lra.
    - assert (O : Nat.odd n = true) by (unfold Nat.odd; now rewrite E). apply Nat.odd_spec in O. destruct O as [k ->]. rewrite simpson_odd_rule by lia. replace (2 * k + 1 - 1)%nat with (2 * k)%nat by lia. apply rule_err.
  Qed.
End Lip.

(** Lipschitz on the range of the points is enough *)
Definition clampf (a b x : R) : R := Rmax a (Rmin b x).
Lemma clampf_id : forall a b x, a <= x <= b -> clampf a b x = x.
Proof. intros. unfold clampf. rewrite Rmin_right, Rmax_right; lra. Qed.
Lemma clampf_in : forall a b x, a <= b -> a <= clampf a b x <= b.
Proof. intros. unfold clampf, Rmax, Rmin. destruct (Rle_dec b x); destruct (Rle_dec _ _); lra. Qed.
Lemma clampf_lip : forall a b x y, a <= b -> Rabs (clampf a b x - clampf a b y) <= Rabs (x - y).
Proof. intros. unfold clampf, Rmax, Rmin, Rabs. repeat (destruct (Rle_dec _ _) || destruct (Rcase_abs _)); lra. Qed.
Theorem simpson_lipschitz : forall f K x0 h n, (3 <= n)%nat -> 0 <= K -> 0 <= h ->
  (forall x y, x0 <= x <= x0 + INR (n - 1) * h -> x0 <= y <= x0 + INR (n - 1) * h -> Rabs (f x - f y) <= K * Rabs (x - y)) ->
  Rabs (scipy_simpson n h (fun i => f (x0 + INR i * h)) - RInt f x0 (x0 + INR (n - 1) * h)) <= 3 / 2 * K * h * (INR (n - 1) * h).
Proof.
  intros f K x0 h n N K0 H0 L. set (b := x0 + INR (n - 1) * h) in *. assert (AB : x0 <= b) by (unfold b; assert (0 <= INR (n - 1)) by apply pos_INR; nra).
  set (g := fun x => f (clampf x0 b x)). assert (G : forall x y, Rabs (g x - g y) <= K * Rabs (x - y)). { intros x y. unfold g. eapply Rle_trans; [apply L; apply clampf_in; auto|]. apply Rmult_le_compat_l; auto. now apply clampf_lip. }
  assert (E := simpson_err g K K0 G x0 h H0 n N). fold b in E.
  rewrite (simpson_ext n h _ (fun i => g (x0 + INR i * h))). 2: { intros i Hi. unfold g. rewrite clampf_id; auto. unfold b. assert (0 <= INR i) by apply pos_INR. assert (INR i <= INR (n - 1)) by (apply le_INR; lia). nra. }
  rewrite (RInt_ext f g); auto. intros t Ht. rewrite Rmin_left, Rmax_right in Ht by auto. unfold g. rewrite clampf_id; auto. lra.
Qed.
