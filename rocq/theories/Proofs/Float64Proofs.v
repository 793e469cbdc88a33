(** Rounding errors and concrete roundings in binary64. *)
From Coq Require Import Reals ZArith Lra Lia.
From Flocq Require Import Core Relative Plus_error.
From Verif Require Import Model.Float64.
Local Open Scope R_scope.

Lemma abs_le : forall x y, Rabs x <= y -> - y <= x <= y.
Proof. intros x y H. unfold Rabs in H. destruct (Rcase_abs x); lra. Qed.
(** half a unit in the last place, relatively: 2^-53 *)
Definition hu : R := / 9007199254740992.
Lemma hu_pos : 0 < hu. Proof. unfold hu. lra. Qed.
Lemma hu_bpow : / 2 * bpow radix2 (- (53) + 1) = hu. Proof. unfold hu. simpl. lra. Qed.
Lemma prec53 : Prec_gt_0 53. Proof. reflexivity. Qed.
#[global] Existing Instance prec53.
Lemma valid_double : Valid_exp double_exp. Proof. apply FLT_exp_valid. reflexivity. Qed.
#[global] Existing Instance valid_double.
Lemma mono_double : Monotone_exp double_exp. Proof. apply FLT_exp_monotone. Qed.
#[global] Existing Instance mono_double.
Lemma nftz_double : Exp_not_FTZ double_exp. Proof. apply monotone_exp_not_FTZ; auto with typeclass_instances. Qed.
#[global] Existing Instance nftz_double.

Lemma rnd_mono : forall x y, x <= y -> rnd x <= rnd y. Proof. intros. apply round_le; auto with typeclass_instances. Qed.
Lemma rnd_id : forall x, double x -> rnd x = x. Proof. intros. apply round_generic; auto with typeclass_instances. Qed.
Lemma rnd_double : forall x, double (rnd x). Proof. intros. apply generic_format_round; auto with typeclass_instances. Qed.
Lemma double_0 : double 0. Proof. apply generic_format_0. Qed.
Lemma double_opp : forall x, double x -> double (- x). Proof. intros. apply generic_format_opp; auto. Qed.
Lemma rnd_opp : forall x, rnd (- x) = - rnd x. Proof. intros. unfold rnd. apply round_NE_opp. Qed.
Lemma rnd_ge : forall x y, double y -> y <= x -> y <= rnd x. Proof. intros x y D H. rewrite <- (rnd_id y D). apply rnd_mono; auto. Qed.
Lemma rnd_le : forall x y, double y -> x <= y -> rnd x <= y. Proof. intros x y D H. rewrite <- (rnd_id y D). apply rnd_mono; auto. Qed.

(** integers up to 2^53 are doubles *)
Lemma double_Z : forall n, (Z.abs n <= 2 ^ 53)%Z -> double (IZR n).
Proof.
  intros n H. destruct (Z.eq_dec (Z.abs n) (2 ^ 53)) as [E|E].
  - assert (D : double (bpow radix2 53)) by (apply generic_format_bpow; unfold double_exp, FLT_exp; lia).
    assert (P : bpow radix2 53 = IZR (2 ^ 53)) by reflexivity. rewrite P in D.
    destruct (Z.abs_eq_or_opp n) as [A|A]; rewrite A in E; [rewrite E; auto|]. assert (n = (- 2 ^ 53)%Z) by lia. subst n. rewrite opp_IZR. apply double_opp; auto.
  - apply generic_format_FLT. apply (FLT_spec radix2 (-1074) 53 (IZR n) (Float radix2 n 0)); [unfold F2R; simpl; lra|simpl; lia|simpl; lia].
Qed.

(** the relative error of one operation, away from underflow *)
Lemma rnd_rel : forall x, bpow radix2 (-1022) <= Rabs x -> exists e, Rabs e <= hu /\ rnd x = x * (1 + e).
Proof.
  intros x H. destruct (relative_error_N_FLT_ex radix2 (-1074) 53 ltac:(reflexivity) (fun n => negb (Z.even n)) x) as (e & A & B); [exact H|].
  exists e. rewrite hu_bpow in A. split; auto.
Qed.
(** sums never underflow *)
Lemma rnd_plus_rel : forall x y, double x -> double y -> exists e, Rabs e <= hu /\ rnd (x + y) = (x + y) * (1 + e).
Proof.
  intros x y Dx Dy. destruct (FLT_plus_error_N_ex radix2 (-1074) 53 (fun n => negb (Z.even n)) x y Dx Dy) as (e & A & B).
  exists e. split; auto. eapply Rle_trans; [exact A|]. eapply Rle_trans; [apply u_rod1pu_ro_le_u_ro|]. unfold u_ro. rewrite hu_bpow. lra.
Qed.
Lemma rnd_minus_rel : forall x y, double x -> double y -> exists e, Rabs e <= hu /\ rnd (x - y) = (x - y) * (1 + e).
Proof. intros x y Dx Dy. apply (rnd_plus_rel x (- y)); auto. apply double_opp; auto. Qed.
(** in general the error is relative or tiny *)
Definition tiny : R := / 2 * bpow radix2 (-1074).
Lemma tiny_pos : 0 < tiny. Proof. unfold tiny. pose proof (bpow_gt_0 radix2 (-1074)). lra. Qed.
Lemma rnd_err : forall x, Rabs (rnd x - x) <= hu * Rabs x + tiny.
Proof.
  intros x. destruct (relative_error_N_FLT'_ex radix2 (-1074) 53 ltac:(reflexivity) (fun n => negb (Z.even n)) x) as (e & t & A & B & _ & D).
  assert (A' : Rabs e <= hu). { eapply Rle_trans; [exact A|]. eapply Rle_trans; [apply u_rod1pu_ro_le_u_ro|]. unfold u_ro. rewrite hu_bpow. lra. }
  unfold rnd, double_exp. rewrite D. replace (x * (1 + e) + t - x) with (e * x + t) by ring.
  eapply Rle_trans; [apply Rabs_triang|]. rewrite Rabs_mult. apply Rplus_le_compat; [|exact B]. apply Rmult_le_compat_r; auto. apply Rabs_pos.
Qed.

(** a concrete rounding: x = m * 2^e up to less than half a unit, m a 53-bit integer *)
Lemma rnd_val : forall x m e, (-1074 <= e)%Z -> IZR (2 ^ 52) * bpow radix2 e <= Rabs x < IZR (2 ^ 53) * bpow radix2 e -> Rabs (x * bpow radix2 (- e) - IZR m) < / 2 -> rnd x = IZR m * bpow radix2 e.
Proof.
  intros x m e E [A B] C.
  assert (M : (mag radix2 x = e + 53 :> Z)%Z).
  { apply mag_unique. split.
    - replace (e + 53 - 1)%Z with (52 + e)%Z by lia. rewrite bpow_plus. exact A.
    - replace (e + 53)%Z with (53 + e)%Z by lia. rewrite bpow_plus. exact B. }
  unfold rnd, round, scaled_mantissa, cexp, double_exp, FLT_exp. rewrite M. replace (Z.max (e + 53 - 53) (-1074)) with e by lia.
  rewrite (Znearest_imp _ _ m) by exact C. reflexivity.
Qed.
(** a tie just below an even integer goes up *)
Lemma rnd_tie_up : forall x m e, (-1074 <= e)%Z -> IZR (2 ^ 52) * bpow radix2 e <= Rabs x < IZR (2 ^ 53) * bpow radix2 e -> Z.even m = true -> x * bpow radix2 (- e) = IZR m - / 2 -> rnd x = IZR m * bpow radix2 e.
Proof.
  intros x m e E [A B] V C.
  assert (M : (mag radix2 x = e + 53 :> Z)%Z).
  { apply mag_unique. split.
    - replace (e + 53 - 1)%Z with (52 + e)%Z by lia. rewrite bpow_plus. exact A.
    - replace (e + 53)%Z with (53 + e)%Z by lia. rewrite bpow_plus. exact B. }
  unfold rnd, round, scaled_mantissa, cexp, double_exp, FLT_exp. rewrite M. replace (Z.max (e + 53 - 53) (-1074)) with e by lia. rewrite C.
  assert (F : Zfloor (IZR m - / 2) = (m - 1)%Z) by (apply Zfloor_imp; rewrite plus_IZR, minus_IZR; lra).
  assert (G : Zceil (IZR m - / 2) = m) by (apply Zceil_imp; rewrite minus_IZR; lra).
  unfold Znearest. rewrite F, G, minus_IZR. replace (IZR m - / 2 - (IZR m - 1)) with (/ 2) by lra. rewrite Rcompare_Eq by reflexivity.
  rewrite Z.sub_1_r, Z.even_pred, <- Z.negb_even, V. reflexivity.
Qed.
