(** Boolean comparisons of reals, as numpy's elementwise [<], [<=], [==]. *)
From Coq Require Import Reals Lra List.
Import ListNotations.
Local Open Scope R_scope.

Definition Rltb (a b : R) : bool := if Rlt_dec a b then true else false.
Definition Rleb (a b : R) : bool := if Rle_dec a b then true else false.
Definition Reqb (a b : R) : bool := if Req_EM_T a b then true else false.

(** Indicator of a boolean: numpy's arithmetic with boolean arrays. *)
Definition b2R (b : bool) : R := if b then 1 else 0.

(** [x.min()], [x.max()] of a non-empty array, [np.sum]. *)
Definition lmin (l : list R) : R :=
  match l with [] => 0 | x :: l' => fold_left Rmin l' x end.
Definition lmax (l : list R) : R :=
  match l with [] => 0 | x :: l' => fold_left Rmax l' x end.
Definition lsum (l : list R) : R := fold_right Rplus 0 l.

(** Python truthiness of an optional float: [if xmin:] *)
Definition truthy (o : option R) : bool :=
  match o with Some v => negb (Reqb v 0) | None => false end.

Lemma Rltb_spec : forall a b, Rltb a b = true <-> a < b.
Proof. intros a b; unfold Rltb; destruct (Rlt_dec a b); split; intros; try lra; congruence. Qed.
Lemma Rleb_spec : forall a b, Rleb a b = true <-> a <= b.
Proof. intros a b; unfold Rleb; destruct (Rle_dec a b); split; intros; try lra; congruence. Qed.
Lemma Reqb_spec : forall a b, Reqb a b = true <-> a = b.
Proof. intros a b; unfold Reqb; destruct (Req_EM_T a b); split; intros; try lra; congruence. Qed.
Lemma Rltb_false : forall a b, Rltb a b = false <-> b <= a.
Proof. intros a b; unfold Rltb; destruct (Rlt_dec a b); split; intros; try lra; congruence. Qed.
Lemma Rleb_false : forall a b, Rleb a b = false <-> b < a.
Proof. intros a b; unfold Rleb; destruct (Rle_dec a b); split; intros; try lra; congruence. Qed.
Lemma Reqb_false : forall a b, Reqb a b = false <-> a <> b.
Proof. intros a b; unfold Reqb; destruct (Req_EM_T a b); split; intros; try lra; congruence. Qed.
