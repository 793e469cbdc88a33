(** Distance between scipy's Simpson sum and the integral of a function with a bounded second-order remainder. *)
From Coq Require Import Reals List Bool Arith Lia Lra.
From Coquelicot Require Import Coquelicot.
From Verif Require Import Model.Quad Spec.QuadSpec Proofs.Calc Proofs.QuadProofs Proofs.QuadProofs2 Proofs.ExclusionProofs Proofs.SimpsonExact.
Local Open Scope R_scope.

Lemma lin_int : forall A B c a b, a <= b -> is_RInt (fun t => A + B * (t - c)) a b (A * (b - a) + B * ((b - c) ^ 2 - (a - c) ^ 2) / 2).
Proof.
  intros A B c a b L. replace (A * (b - a) + B * ((b - c) ^ 2 - (a - c) ^ 2) / 2) with ((A * b + B * (b - c) ^ 2 / 2) - (A * a + B * (a - c) ^ 2 / 2)) by field.
  apply (ftc (fun t : R => A * t + B * (t - c) ^ 2 / 2) (fun t => A + B * (t - c))); auto.
  - intros t _. auto_derive; auto. field.
  - intros t _. apply (@ex_derive_continuous R_AbsRing R_NormedModule). auto_derive. auto.
Qed.
Section Smooth.
  Variables (f f1 : R -> R) (K lo hi : R). Hypothesis K0 : 0 <= K.
  Hypothesis ex : ex_RInt f lo hi.
  Hypothesis rem : forall x y, lo <= x <= hi -> lo <= y <= hi -> Rabs (f x - f y - f1 y * (x - y)) <= K * (x - y) ^ 2.
  Lemma sub_ex : forall a b, lo <= a -> a <= b -> b <= hi -> ex_RInt f a b.
  Proof.
    intros a b A B C. apply (@ex_RInt_Chasles_2 R_CompleteNormedModule f lo a b); [lra|]. apply (@ex_RInt_Chasles_1 R_CompleteNormedModule f lo b hi); [lra|exact ex].
  Qed.
  Lemma smooth_near : forall a b c d, lo <= a -> a <= b -> b <= hi -> lo <= c <= hi -> (forall t, a <= t <= b -> Rabs (t - c) <= d) ->
    Rabs (RInt f a b - (f c * (b - a) + f1 c * ((b - c) ^ 2 - (a - c) ^ 2) / 2)) <= (b - a) * (K * d ^ 2).
  Proof.
    intros a b c d A B C D H. assert (L := lin_int (f c) (f1 c) c a b B). rewrite <- (is_RInt_unique (V:=R_CompleteNormedModule) _ _ _ _ L).
    rewrite <- (RInt_minus (V:=R_CompleteNormedModule) f (fun t => f c + f1 c * (t - c))); [|now apply sub_ex|eexists; exact L].
    apply abs_RInt_le_const; auto.
    - apply (@ex_RInt_minus R_NormedModule); [now apply sub_ex|eexists; exact L].
    - intros t Ht. change (minus (f t) (f c + f1 c * (t - c))) with (f t - (f c + f1 c * (t - c))). replace (f t - (f c + f1 c * (t - c))) with (f t - f c - f1 c * (t - c)) by ring. eapply Rle_trans; [apply rem; lra|]. apply Rmult_le_compat_l; auto. rewrite <- (pow2_abs (t - c)). assert (X := H t Ht). assert (Y := Rabs_pos (t - c)). nra.
  Qed.
  Variables (h : R) (n : nat). Hypothesis H0 : 0 <= h.
  Let x (i : nat) := lo + INR i * h.
  Hypothesis TOP : x (n - 1) <= hi.
  Lemma xS2 : forall i, x (S i) = x i + h. Proof. intros. unfold x. rewrite S_INR. ring. Qed.
  Lemma x_in : forall i, (i <= n - 1)%nat -> lo <= x i <= hi.
  Proof. intros i Hi. split; [unfold x; assert (0 <= INR i) by apply pos_INR; nra|]. eapply Rle_trans; [|exact TOP]. unfold x. apply Rplus_le_compat_l, Rmult_le_compat_r; auto. now apply le_INR. Qed.
  Lemma rule_err2 : forall k, (2 * k <= n - 1)%nat -> Rabs (simpson_rule h k (fun i => f (x i)) - RInt f lo (x (2 * k))) <= 3 / 2 * K * h ^ 2 * (INR (2 * k) * h).
  Proof.
    unfold simpson_rule. induction k as [|k IH]; intros N.
    - rewrite bigsum_0. replace (x (2 * 0)) with lo by (unfold x; simpl; ring). rewrite (RInt_point (V:=R_CompleteNormedModule)). change (INR (2 * 0)) with 0. rewrite Rmult_0_l. change (zero : R_CompleteNormedModule) with 0. rewrite Rminus_0_r, Rabs_R0. lra.
    - specialize (IH ltac:(lia)). rewrite bigsum_S. replace (2 * S k)%nat with (S (S (2 * k))) in * by lia. set (p := (2 * k)%nat) in *. 
      assert (I0 := x_in p ltac:(lia)). assert (I1 := x_in (S p) ltac:(lia)). assert (I2 := x_in (S (S p)) ltac:(lia)). assert (E1 := xS2 p). assert (E2 := xS2 (S p)).
      rewrite <- (RInt_Chasles (V:=R_CompleteNormedModule) f lo (x p) (x (S (S p)))); [|apply sub_ex; lra|apply sub_ex; lra].
      replace (p + 1)%nat with (S p) by lia. replace (p + 2)%nat with (S (S p)) by lia. match goal with |- Rabs (?s + _ - _) <= _ => set (Sm := s) in * end.
      assert (NN := smooth_near (x p) (x (S (S p))) (x (S p)) h ltac:(lra) ltac:(lra) ltac:(lra) ltac:(lra) ltac:(intros t Ht; apply Rabs_le; lra)).
      assert (R0 := rem (x p) (x (S p)) I0 I1). assert (R2 := rem (x (S (S p))) (x (S p)) I2 I1).
      replace (x p - x (S p)) with (- h) in * by lra. replace (x (S (S p)) - x (S p)) with h in * by lra. replace (x (S (S p)) - x p) with (2 * h) in NN by lra.
      set (J1 := RInt f lo (x p)) in *. set (J2 := RInt f (x p) (x (S (S p)))) in *. change (plus J1 J2) with (J1 + J2). set (u := f (x p)) in *. set (v := f (x (S p))) in *. set (w := f (x (S (S p)))) in *. set (v' := f1 (x (S p))) in *.
      assert (R0' : Rabs (h * (u - v - v' * - h)) <= h * (K * (- h) ^ 2)) by (rewrite Rabs_mult, (Rabs_right h) by lra; apply Rmult_le_compat_l; auto).
      assert (R2' : Rabs (h * (w - v - v' * h)) <= h * (K * h ^ 2)) by (rewrite Rabs_mult, (Rabs_right h) by lra; apply Rmult_le_compat_l; auto).
      replace (3 / 2 * K * h ^ 2 * (INR (S (S p)) * h)) with (3 / 2 * K * h ^ 2 * (INR p * h) + 3 * (K * h ^ 3)) by (rewrite !S_INR; field).
      assert (KH : 0 <= K * h ^ 3) by (apply Rmult_le_pos; [auto|now apply pow_le]).
      apply Rabs_le_between in R0'. apply Rabs_le_between in R2'. apply Rabs_le_between in NN. apply Rabs_le_between in IH. apply Rabs_le. lra.
  Qed.
  Lemma simpson_err2 : (3 <= n)%nat -> Rabs (scipy_simpson n h (fun i => f (x i)) - RInt f lo (x (n - 1))) <= 3 / 2 * K * h ^ 2 * (INR (n - 1) * h).
  Proof.
    intros N. destruct (Nat.even n) eqn:E.
    - apply Nat.even_spec in E. destruct E as [j J]. assert (K1 : exists k, (n = 2 * k + 2)%nat /\ (1 <= k)%nat) by (exists (j - 1)%nat; lia). destruct K1 as [k [NK K1]].
      assert (IH := rule_err2 k ltac:(lia)). replace (scipy_simpson n h) with (scipy_simpson (2 * k + 2) h) by (now rewrite NK). rewrite even_split, simpson_odd_rule by auto. replace (n - 1)%nat with (S (2 * k)) by lia.
      replace (2 * k + 1)%nat with (S (2 * k)) by lia. set (SR := simpson_rule h k (fun i => f (x i))) in *. destruct (2 * k)%nat as [|q] eqn:Q; [lia|]. replace (S q - 1)%nat with q by lia.
      assert (I0 := x_in q ltac:(lia)). assert (I1 := x_in (S q) ltac:(lia)). assert (I2 := x_in (S (S q)) ltac:(lia)). assert (E1 := xS2 q). assert (E2 := xS2 (S q)).
      rewrite <- (RInt_Chasles (V:=R_CompleteNormedModule) f lo (x (S q)) (x (S (S q)))); [|apply sub_ex; lra|apply sub_ex; lra].
      assert (NN := smooth_near (x (S q)) (x (S (S q))) (x (S q)) h ltac:(lra) ltac:(lra) ltac:(lra) ltac:(lra) ltac:(intros t Ht; apply Rabs_le; lra)).
      assert (R0 := rem (x q) (x (S q)) I0 I1). assert (R2 := rem (x (S (S q))) (x (S q)) I2 I1).
      replace (x q - x (S q)) with (- h) in * by lra. replace (x (S q) - x (S q)) with 0 in NN by ring. replace (x (S (S q)) - x (S q)) with h in * by lra.
      set (J1 := RInt f lo (x (S q))) in *. set (J2 := RInt f (x (S q)) (x (S (S q)))) in *. change (plus J1 J2) with (J1 + J2). set (u := f (x q)) in *. set (v := f (x (S q))) in *. set (w := f (x (S (S q)))) in *. set (v' := f1 (x (S q))) in *.
      assert (R0' : Rabs (h * (u - v - v' * - h)) <= h * (K * (- h) ^ 2)) by (rewrite Rabs_mult, (Rabs_right h) by lra; apply Rmult_le_compat_l; auto).
      assert (R2' : Rabs (h * (w - v - v' * h)) <= h * (K * h ^ 2)) by (rewrite Rabs_mult, (Rabs_right h) by lra; apply Rmult_le_compat_l; auto).
      replace (3 / 2 * K * h ^ 2 * (INR (S (S q)) * h)) with (3 / 2 * K * h ^ 2 * (INR (S q) * h) + 3 / 2 * (K * h ^ 3)) by (rewrite !S_INR; field).
      apply Rabs_le_between in R0'. apply Rabs_le_between in R2'. apply Rabs_le_between in NN. apply Rabs_le_between in IH. apply Rabs_le. lra.
    - assert (O : Nat.odd n = true) by (unfold Nat.odd; now rewrite E). apply Nat.odd_spec in O. destruct O as [k NK]. assert (IH := rule_err2 k ltac:(lia)). replace (scipy_simpson n h) with (scipy_simpson (2 * k + 1) h) by (now rewrite NK). rewrite simpson_odd_rule by lia. replace (n - 1)%nat with (2 * k)%nat by lia. exact IH.
  Qed.
End Smooth.
