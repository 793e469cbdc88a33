(** General calculus facts used by several clusters. *)
From Coq Require Import Reals Lra Lia.
From Coquelicot Require Import Coquelicot.
Local Open Scope R_scope.

(** fundamental theorem of calculus on [a,b] *)
Lemma ftc : forall (F f : R -> R) a b, a <= b ->
  (forall x, a <= x <= b -> is_derive F x (f x)) ->
  (forall x, a <= x <= b -> continuous f x) ->
  is_RInt f a b (F b - F a).
Proof.
  intros F f a b Hab HF Hf.
  apply (is_RInt_derive F f a b); intros x Hx; rewrite Rmin_left, Rmax_right in Hx by lra.
  - apply HF; exact Hx.
  - apply Hf; exact Hx.
Qed.

Lemma mvt : forall (F f : R -> R) a b, a < b ->
  (forall x, a <= x <= b -> is_derive F x (f x)) ->
  exists c, a <= c <= b /\ F b - F a = f c * (b - a).
Proof.
  intros F f a b Hab HF.
  destruct (MVT_gen F a b f) as (c & Hc & E).
  - intros x Hx. rewrite Rmin_left, Rmax_right in Hx by lra. apply HF; lra.
  - intros x Hx. rewrite Rmin_left, Rmax_right in Hx by lra.
    apply derivable_continuous_pt. exists (f x). apply is_derive_Reals, HF; exact Hx.
  - rewrite Rmin_left, Rmax_right in Hc by lra. exists c; split; [exact Hc|exact E].
Qed.

Lemma mono_of_derive : forall (F f : R -> R) a b, a <= b ->
  (forall x, a <= x <= b -> is_derive F x (f x)) ->
  (forall x, a <= x <= b -> 0 <= f x) -> F a <= F b.
Proof.
  intros F f a b Hab HF Hf. destruct (Req_dec a b) as [->|Hn]; [lra|].
  destruct (mvt F f a b ltac:(lra) HF) as (c & Hc & E). specialize (Hf c Hc). nra.
Qed.

(** strict version: derivative positive inside the open interval *)
Lemma mvt_open : forall (F f : R -> R) a b, a < b ->
  (forall x, a <= x <= b -> is_derive F x (f x)) ->
  exists c, a < c < b /\ F b - F a = f c * (b - a).
Proof.
  intros F f a b Hab HF.
  destruct (MVT_cor2 F f a b Hab) as (c & E & Hc).
  - intros c Hc. apply is_derive_Reals, HF; exact Hc.
  - exists c; auto.
Qed.

Lemma smono_of_derive : forall (F f : R -> R) a b, a < b ->
  (forall x, a <= x <= b -> is_derive F x (f x)) ->
  (forall x, a < x < b -> 0 < f x) -> F a < F b.
Proof.
  intros F f a b Hab HF Hf. destruct (mvt_open F f a b Hab HF) as (c & Hc & E).
  specialize (Hf c Hc). nra.
Qed.

Lemma sin_le_id : forall y, 0 <= y -> sin y <= y.
Proof.
  intros y Hy.
  assert (H : 0 - sin 0 <= y - sin y).
  { apply (mono_of_derive (fun y => y - sin y) (fun y => 1 - cos y)); [exact Hy| |].
    - intros x _. auto_derive; auto. ring.
    - intros x _. pose proof (COS_bound x). lra. }
  rewrite sin_0 in H. lra.
Qed.

Lemma cos_ge : forall y, 0 <= y -> 1 - y ^ 2 / 2 <= cos y.
Proof.
  intros y Hy.
  assert (H : cos 0 - 1 + 0 ^ 2 / 2 <= cos y - 1 + y ^ 2 / 2).
  { apply (mono_of_derive (fun y => cos y - 1 + y ^ 2 / 2) (fun y => y - sin y)); [exact Hy| |].
    - intros x _. auto_derive; auto. field.
    - intros x Hx. pose proof (sin_le_id x). lra. }
  rewrite cos_0 in H. lra.
Qed.

Lemma sin_ge_cubic : forall y, 0 <= y -> y - y ^ 3 / 6 <= sin y.
Proof.
  intros y Hy.
  assert (H : sin 0 - 0 + 0 ^ 3 / 6 <= sin y - y + y ^ 3 / 6).
  { apply (mono_of_derive (fun y => sin y - y + y ^ 3 / 6) (fun y => cos y - 1 + y ^ 2 / 2));
      [exact Hy| |].
    - intros x _. auto_derive; auto. field.
    - intros x Hx. pose proof (cos_ge x). lra. }
  rewrite sin_0 in H. lra.
Qed.

Lemma sin_abs_le : forall y, Rabs (sin y) <= Rabs y.
Proof.
  intros y. destruct (Rle_dec 0 y) as [H|H].
  - rewrite (Rabs_pos_eq y) by lra. apply Rabs_le. split.
    + destruct (Rle_dec y PI) as [K|K].
      * pose proof (sin_ge_0 y H K). lra.
      * pose proof (SIN_bound y). pose proof PI2_1. lra.
    + apply sin_le_id; exact H.
  - rewrite (Rabs_left y) by lra. replace y with (- - y) at 1 by ring. rewrite sin_neg, Rabs_Ropp.
    set (z := - y). assert (0 <= z) by (unfold z; lra). apply Rabs_le. split.
    + destruct (Rle_dec z PI) as [K|K].
      * pose proof (sin_ge_0 z ltac:(lra) K). lra.
      * pose proof (SIN_bound z). pose proof PI2_1. lra.
    + apply sin_le_id; lra.
Qed.

(** goals produced by RInt_ext live in the carrier of a normed module *)
Ltac req := match goal with |- @eq _ ?a ?b => change (@eq R a b) end.

(** scaling, in terms of multiplication *)
Lemma RInt_mult_l : forall (f : R -> R) a b c, ex_RInt f a b ->
  RInt (fun t => c * f t) a b = c * RInt f a b.
Proof. intros. exact (RInt_scal (V:=R_CompleteNormedModule) f a b c H). Qed.
Lemma ex_RInt_mult_l : forall (f : R -> R) a b c, ex_RInt f a b -> ex_RInt (fun t => c * f t) a b.
Proof. intros. exact (ex_RInt_scal (V:=R_NormedModule) f a b c H). Qed.
