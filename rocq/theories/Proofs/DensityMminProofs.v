(** A linear quadrature is a weighted sum; limits of weighted sums.  Used by Props/DensityMminProps.v (C146). *)
From Coq Require Import Reals List Bool Arith Lia Lra.
From Coquelicot Require Import Coquelicot.
From Verif Require Import Model.RBool Spec.HMSpec Proofs.HMProofs.
Import ListNotations.
Local Open Scope R_scope.

Fixpoint gs (n : nat) (f : nat -> R) : R := match n with O => 0 | S k => gs k f + f k end.
Definition unit_vec (j i : nat) : R := if (i =? j)%nat then 1 else 0.
Lemma gs_ext : forall n f g, (forall i, (i < n)%nat -> f i = g i) -> gs n f = gs n g.
Proof. induction n; intros f g H; simpl; auto. rewrite (IHn f g), (H n); auto. Qed.
Lemma gs_minus : forall n f g, gs n f - gs n g = gs n (fun i => f i - g i).
Proof. induction n; intros f g; simpl; [ring|]. rewrite <- IHn. ring. Qed.
Lemma gs_single : forall n j f, (j < n)%nat -> (forall i, (i < n)%nat -> i <> j -> f i = 0) -> gs n f = f j.
Proof.
  induction n as [|n IH]; intros j f Hj H; [lia|]. simpl. destruct (Nat.eq_dec j n) as [->|N].
  - assert (Z : gs n f = 0). { clear IH. assert (K : forall m, (m <= n)%nat -> gs m f = 0). { induction m; intros; simpl; auto. rewrite IHm, H; try lia; lra. } apply K; lia. } rewrite Z. ring.
  - rewrite (IH j f); try lia; [rewrite (H n); try lia; ring|]. intros i Hi Ni. apply H; lia.
Qed.
Lemma quad_weights : forall I, q_linear I -> forall n x f a b, I (arr n x) (arr n f) a b = gs n (fun i => f i * I (arr n x) (arr n (unit_vec i)) a b).
Proof.
  intros I L n x f a b.
  assert (Z : I (arr n x) (arr n (fun _ => 0)) a b = 0).
  { assert (K := L n x (fun _ => 0) (fun _ => 0) (-1) a b). cbv beta in K. replace (arr n (fun _ : nat => 0 + -1 * 0)) with (arr n (fun _ => 0)) in K by (apply arr_ext; intros; ring). lra. }
  assert (K : forall k, (k <= n)%nat -> I (arr n x) (arr n (fun i => if (i <? k)%nat then f i else 0)) a b = gs k (fun i => f i * I (arr n x) (arr n (unit_vec i)) a b)).
  { intros k. induction k as [|k IHk]; intros Hk.
    - etransitivity; [|exact Z]. reflexivity.
    - simpl gs. rewrite <- IHk by lia. cbv beta. rewrite <- (L n x (fun i => if (i <? k)%nat then f i else 0) (unit_vec k) (f k)). f_equal. apply arr_ext. intros i Hi. unfold unit_vec.
      destruct (Nat.ltb_spec i (S k)), (Nat.ltb_spec i k), (Nat.eqb_spec i k); try lia; subst; ring. }
  rewrite <- (K n) by lia. f_equal. apply arr_ext. intros i Hi. destruct (Nat.ltb_spec i n); [reflexivity|lia].
Qed.

(** limits along a filter *)
Lemma lim_plus : forall (F : (R -> Prop) -> Prop), Filter F -> forall (f g : R -> R) (a b : R), filterlim f F (locally a) -> filterlim g F (locally b) -> filterlim (fun t => f t + g t) F (locally (a + b)).
Proof. intros F HF f g a b Hf Hg. apply (filterlim_comp_2 f g Rplus Hf Hg). apply (filterlim_plus a b). Qed.
Lemma lim_mult : forall (F : (R -> Prop) -> Prop), Filter F -> forall (f g : R -> R) (a b : R), filterlim f F (locally a) -> filterlim g F (locally b) -> filterlim (fun t => f t * g t) F (locally (a * b)).
Proof. intros F HF f g a b Hf Hg. apply (filterlim_comp_2 f g Rmult Hf Hg). apply (filterlim_mult a b). Qed.
Lemma lim_gs : forall (F : (R -> Prop) -> Prop), Filter F -> forall n (f : nat -> R -> R) (l : nat -> R), (forall i, (i < n)%nat -> filterlim (f i) F (locally (l i))) -> filterlim (fun t => gs n (fun i => f i t)) F (locally (gs n l)).
Proof.
  intros F HF n f l. induction n as [|n IH]; intros H; simpl.
  - apply filterlim_const.
  - apply lim_plus; auto.
Qed.
Lemma lim_eventually_const : forall (F : (R -> Prop) -> Prop), Filter F -> forall (f : R -> R) (a : R), F (fun t => f t = a) -> filterlim f F (locally a).
Proof. intros F HF f a H P HP. unfold filtermap. generalize H. apply filter_imp. intros t ->. now apply locally_singleton. Qed.
Lemma cont_left : forall (f : R -> R) (x : R), continuous f x -> filterlim f (at_left x) (locally (f x)).
Proof. intros f x H P HP. specialize (H P HP). unfold filtermap, at_left, within in *. generalize H. apply filter_imp. auto. Qed.
Lemma cont_right : forall (f : R -> R) (x : R), continuous f x -> filterlim f (at_right x) (locally (f x)).
Proof. intros f x H P HP. specialize (H P HP). unfold filtermap, at_right, within in *. generalize H. apply filter_imp. auto. Qed.
Lemma lim_locally_sides : forall (f : R -> R) (x l : R), f x = l -> filterlim f (at_left x) (locally l) -> filterlim f (at_right x) (locally l) -> filterlim f (locally x) (locally l).
Proof.
  intros f x l E HL HR P HP. specialize (HL P HP). specialize (HR P HP). unfold filtermap, at_left, at_right, within in *.
  generalize (filter_and _ _ HL HR). apply filter_imp. intros t [A B]. destruct (Rtotal_order t x) as [L|[->|G]]; auto. rewrite E. now apply locally_singleton.
Qed.
