(** scipy's Simpson rule with constant spacing is exact on quadratics for every number of points from 3 on. *)
From Coq Require Import Reals List Bool Arith Lia Lra.
From Verif Require Import Model.Quad Spec.QuadSpec Proofs.QuadProofs Proofs.QuadProofs2 Proofs.ExclusionProofs.
Local Open Scope R_scope.

Definition quad_prim (A B C x : R) : R := A * x + B * x ^ 2 / 2 + C * x ^ 3 / 3.
Lemma rule_exact : forall A B C x0 h k, simpson_rule h k (fun i => A + B * (x0 + INR i * h) + C * (x0 + INR i * h) ^ 2) = quad_prim A B C (x0 + INR (2 * k) * h) - quad_prim A B C x0.
Proof.
  intros A B C x0 h k. unfold simpson_rule. induction k as [|k IH].
  - rewrite bigsum_0. change (INR (2 * 0)) with 0. rewrite Rmult_0_l, Rplus_0_r. ring.
  - rewrite bigsum_S, IH. clear IH. replace (2 * S k)%nat with (2 * k + 2)%nat by lia. rewrite !plus_INR. change (INR 1) with 1. replace (INR 2) with 2 by (simpl; ring). set (y := INR (2 * k)). unfold quad_prim. field.
Qed.
Lemma even_split : forall k h f, (1 <= k)%nat -> scipy_simpson (2*k+2) h f = scipy_simpson (2*k+1) h f + h * (5/12 * f (2*k+1)%nat + 8/12 * f (2*k)%nat - 1/12 * f (2*k-1)%nat).
Proof.
  intros k h f K. rewrite !simpson_big. rewrite <- Rmult_plus_distr_l. f_equal.
  set (n := (2*k+2)%nat).
  assert (O1 : Nat.odd (2*k+1) = true) by (rewrite Nat.add_1_r, Nat.odd_succ, Nat.even_mul; reflexivity).
  assert (O2 : Nat.odd n = false) by (unfold n; replace (2*k+2)%nat with (2*(k+1))%nat by lia; rewrite Nat.odd_mul; reflexivity).
  rewrite (bigsum_ext n _ (fun i => (if (i <? n - 1)%nat then simpson_weight_odd (n - 1) i else 0) * f i + (if (i =? n - 1)%nat then 5 / 12 else if (i =? n - 2)%nat then 8 / 12 else if (i =? n - 3)%nat then - (1 / 12) else 0) * f i)).
  2: { intros i Hi. unfold scipy_simpson_weight. destruct (Nat.leb_spec n 1); [unfold n in *; lia|]. destruct (Nat.eqb_spec n 2); [unfold n in *; lia|]. rewrite O2. ring. }
  rewrite bigsum_plus. f_equal.
  - replace n with (S (2*k+1)) by (unfold n; lia). rewrite bigsum_S. replace (S (2*k+1) - 1)%nat with (2*k+1)%nat by lia. rewrite Nat.ltb_irrefl, Rmult_0_l, Rplus_0_r.
    apply bigsum_ext. intros i Hi. destruct (Nat.ltb_spec i (2*k+1)); [|lia]. unfold scipy_simpson_weight. destruct (Nat.leb_spec (2*k+1) 1); [lia|]. destruct (Nat.eqb_spec (2*k+1) 2); [lia|]. rewrite O1. reflexivity.
  - replace n with (S (S (S (2*k-1)))) by (unfold n; lia). rewrite !bigsum_S.
    replace (S (S (S (2*k-1))) - 1)%nat with (2*k+1)%nat by lia. replace (S (S (S (2*k-1))) - 2)%nat with (2*k)%nat by lia. replace (S (S (S (2*k-1))) - 3)%nat with (2*k-1)%nat by lia.
    replace (S (S (2*k-1))) with (2*k+1)%nat by lia. replace (S (2*k-1)) with (2*k)%nat by lia.
    rewrite (bigsum_ext (2*k-1) _ (fun _ => 0)). 2: { intros i Hi. destruct (Nat.eqb_spec i (2*k+1)); [lia|]. destruct (Nat.eqb_spec i (2*k)); [lia|]. destruct (Nat.eqb_spec i (2*k-1)); [lia|]. ring. }
    rewrite bigsum_zero. rewrite !Nat.eqb_refl. destruct (Nat.eqb_spec (2*k) (2*k+1)); [lia|]. destruct (Nat.eqb_spec (2*k-1) (2*k+1)); [lia|]. destruct (Nat.eqb_spec (2*k-1) (2*k)); [lia|]. ring.
Qed.
Lemma simpson_exact : forall A B C x0 h n, (3 <= n)%nat ->
  scipy_simpson n h (fun i => A + B * (x0 + INR i * h) + C * (x0 + INR i * h) ^ 2) = quad_prim A B C (x0 + INR (n - 1) * h) - quad_prim A B C x0.
Proof.
  intros A B C x0 h n N. destruct (Nat.even n) eqn:E.
  - apply Nat.even_spec in E. destruct E as [j ->]. assert (K : (1 <= j - 1)%nat) by lia. replace (2 * j)%nat with (2 * (j - 1) + 2)%nat by lia. set (k := (j - 1)%nat) in *. clearbody k.
    rewrite even_split, simpson_odd_rule, rule_exact by auto. replace (2 * k + 2 - 1)%nat with (2 * k + 1)%nat by lia. rewrite minus_INR, plus_INR by lia. change (INR 1) with 1. set (y := INR (2 * k)). unfold quad_prim. field.
  - assert (O : Nat.odd n = true) by (unfold Nat.odd; now rewrite E). apply Nat.odd_spec in O. destruct O as [k ->]. rewrite simpson_odd_rule, rule_exact by lia. replace (2 * k + 1 - 1)%nat with (2 * k)%nat by lia. reflexivity.
Qed.
