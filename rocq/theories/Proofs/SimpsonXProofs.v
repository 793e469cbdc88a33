From Coq Require Import Reals List Arith Lia Lra.
From Verif Require Import Model.RBool Model.SimpsonX.
Import ListNotations.
Local Open Scope R_scope.

Lemma simpx_ind : forall (P : list (R * R) -> Prop), P [] -> (forall a, P [a]) -> (forall a b, P [a; b]) -> (forall a b c, P [a; b; c]) -> (forall a b c d, P [a; b; c; d]) ->
  (forall a b c d e t, P (c :: d :: e :: t) -> P (a :: b :: c :: d :: e :: t)) -> forall l, P l.
Proof.
  intros P H0 H1 H2 H3 H4 H5. assert (K : forall n l, (length l <= n)%nat -> P l); [|intros l; apply (K (length l)); lia].
  induction n as [|n IH]; intros l Hl; [destruct l; [auto|simpl in Hl; lia]|].
  destruct l as [|a [|b [|c [|d [|e t]]]]]; auto. apply H5. apply IH. simpl in *. lia.
Qed.
Lemma simpx_5 : forall a b c d e t, simpx_pts (a :: b :: c :: d :: e :: t) = panel a b c + simpx_pts (c :: d :: e :: t).
Proof. reflexivity. Qed.
Lemma simpx_4 : forall a b c d, simpx_pts [a; b; c; d] = panel a b c + cartwright b c d.
Proof. reflexivity. Qed.
Lemma simpx_3 : forall a b c, simpx_pts [a; b; c] = panel a b c.
Proof. intros. simpl. ring. Qed.

(** points on a graph *)
Definition pts (f : R -> R) (x : list R) : list (R * R) := map (fun t => (t, f t)) x.
Lemma simpx_pts_eq : forall x f, simpx x (map f x) = simpx_pts (pts f x).
Proof. intros x f. unfold simpx, pts. f_equal. induction x; simpl; congruence. Qed.

Lemma list_ind5 : forall (P : list R -> Prop), P [] -> (forall a, P [a]) -> (forall a b, P [a; b]) -> (forall a b c, P [a; b; c]) -> (forall a b c d, P [a; b; c; d]) ->
  (forall a b c d e t, P (c :: d :: e :: t) -> P (a :: b :: c :: d :: e :: t)) -> forall l, P l.
Proof.
  intros P H0 H1 H2 H3 H4 H5. assert (K : forall n l, (length l <= n)%nat -> P l); [|intros l; apply (K (length l)); lia].
  induction n as [|n IH]; intros l Hl; [destruct l; [auto|simpl in Hl; lia]|].
  destruct l as [|a [|b [|c [|d [|e t]]]]]; auto. apply H5. apply IH. simpl in *. lia.
Qed.
Lemma simpx_ext : forall f g x, (forall t, In t x -> f t = g t) -> simpx_pts (pts f x) = simpx_pts (pts g x).
Proof. intros f g x H. f_equal. unfold pts. apply map_ext_in. intros a Ha. now rewrite H. Qed.
(** linear in the data *)
Lemma simpx_linear : forall f g k x, simpx_pts (pts (fun t => f t + k * g t) x) = simpx_pts (pts f x) + k * simpx_pts (pts g x).
Proof.
  intros f g k. apply list_ind5; intros; unfold pts; cbn [map].
  - simpl; ring.
  - simpl; ring.
  - simpl. unfold Rdiv. ring.
  - rewrite !simpx_3. unfold panel; cbn [fst snd]. unfold Rdiv. ring.
  - rewrite !simpx_4. unfold panel, cartwright; cbn [fst snd]. unfold Rdiv. ring.
  - rewrite !simpx_5. unfold pts in H; cbn [map] in H. rewrite H. unfold panel; cbn [fst snd]. unfold Rdiv. ring.
Qed.
Lemma simpx_zero : forall x, simpx_pts (pts (fun _ => 0) x) = 0.
Proof. intros x. assert (H := simpx_linear (fun _ => 0) (fun _ => 0) 1 x). rewrite (simpx_ext (fun _ => 0 + 1 * 0) (fun _ => 0)) in H by (intros; ring). lra. Qed.
Lemma simpx_scal : forall f k x, simpx_pts (pts (fun t => k * f t) x) = k * simpx_pts (pts f x).
Proof. intros f k x. assert (H := simpx_linear (fun _ => 0) f k x). rewrite simpx_zero in H. rewrite (simpx_ext (fun t => 0 + k * f t) (fun t => k * f t)) in H by (intros; ring). lra. Qed.
Lemma simpx_plus : forall f g x, simpx_pts (pts (fun t => f t + g t) x) = simpx_pts (pts f x) + simpx_pts (pts g x).
Proof. intros f g x. rewrite (simpx_ext _ (fun t => f t + 1 * g t)) by (intros; ring). rewrite simpx_linear. ring. Qed.

(** an increasing grid *)
Inductive incr : list R -> Prop :=
| incr0 : incr [] | incr1 : forall a, incr [a] | incrS : forall a b t, a < b -> incr (b :: t) -> incr (a :: b :: t).
Lemma incr_inv : forall a b t, incr (a :: b :: t) -> a < b /\ incr (b :: t).
Proof. intros a b t H. inversion H; auto. Qed.
Lemma last_cons2 : forall (a b : R) t d, last (a :: b :: t) d = last (b :: t) d.
Proof. reflexivity. Qed.
(** exact on every quadratic, whatever the (increasing) grid of at least three points *)
Lemma simpx_quadratic : forall A B C x, (3 <= length x)%nat -> incr x ->
  simpx_pts (pts (fun t => A + B * t + C * t ^ 2) x) = (A * last x 0 + B * last x 0 ^ 2 / 2 + C * last x 0 ^ 3 / 3) - (A * hd 0 x + B * hd 0 x ^ 2 / 2 + C * hd 0 x ^ 3 / 3).
Proof.
  intros A B C x. pattern x. apply list_ind5; clear x; intros; try (simpl in *; lia); unfold pts; cbn [map].
  - apply incr_inv in H0. destruct H0 as [Q1 H0]. apply incr_inv in H0. destruct H0 as [Q2 _]. rewrite simpx_3. unfold panel; cbn [fst snd]. cbn [last hd]. field. repeat split; lra.
  - apply incr_inv in H0. destruct H0 as [Q1 H0]. apply incr_inv in H0. destruct H0 as [Q2 H0]. apply incr_inv in H0. destruct H0 as [Q3 _]. rewrite simpx_4. unfold panel, cartwright; cbn [fst snd]. cbn [last hd]. field. repeat split; lra.
  - apply incr_inv in H1. destruct H1 as [Q1 H1]. apply incr_inv in H1. destruct H1 as [Q2 H1]. rewrite simpx_5. unfold pts in H; cbn [map] in H. rewrite H by (auto; simpl; lia).
    rewrite !(last_cons2 a), !(last_cons2 b). cbn [hd]. set (L := last (c :: d :: e :: t) 0). unfold panel; cbn [fst snd]. field. repeat split; lra.
Qed.
(** exact on linear functions with at least two points *)
Lemma simpx_affine : forall A B x, (2 <= length x)%nat -> incr x ->
  simpx_pts (pts (fun t => A + B * t) x) = (A * last x 0 + B * last x 0 ^ 2 / 2) - (A * hd 0 x + B * hd 0 x ^ 2 / 2).
Proof.
  intros A B x L H. destruct x as [|a [|b [|c t]]]; try (simpl in L; lia).
  - unfold pts; cbn [map]. simpl. field.
  - rewrite (simpx_ext _ (fun t => A + B * t + 0 * t ^ 2)) by (intros; ring). rewrite simpx_quadratic by (auto; simpl; lia). lra.
Qed.
(** neighbouring intervals of comparable length (within a factor 2) *)
Inductive quasi_uniform : list R -> Prop :=
| qu0 : quasi_uniform [] | qu1 : forall a, quasi_uniform [a] | qu2 : forall a b, quasi_uniform [a; b]
| quS : forall a b c t, b - a <= 2 * (c - b) -> c - b <= 2 * (b - a) -> quasi_uniform (b :: c :: t) -> quasi_uniform (a :: b :: c :: t).
Lemma qu_inv : forall a b c t, quasi_uniform (a :: b :: c :: t) -> b - a <= 2 * (c - b) /\ c - b <= 2 * (b - a) /\ quasi_uniform (b :: c :: t).
Proof. intros a b c t H. inversion H; auto. Qed.
Lemma div_pos : forall a b, 0 <= a -> 0 < b -> 0 <= a / b.
Proof. intros. unfold Rdiv. apply Rmult_le_pos; auto. left. now apply Rinv_0_lt_compat. Qed.
Lemma panel_pos : forall a b c u v w, a < b -> b < c -> b - a <= 2 * (c - b) -> c - b <= 2 * (b - a) -> 0 <= u -> 0 <= v -> 0 <= w -> 0 <= panel (a, u) (b, v) (c, w).
Proof.
  intros a b c u v w H1 H2 H3 H4 U V W. unfold panel; cbn [fst snd]. set (p := b - a) in *. set (q := c - b) in *. assert (0 < p) by (unfold p; lra). assert (0 < q) by (unfold q; lra).
  apply Rmult_le_pos; [apply div_pos; lra|]. assert (0 <= 2 - / (p / q)). { replace (2 - / (p / q)) with ((2 * p - q) / p) by (field; lra). apply div_pos; lra. }
  assert (0 <= 2 - p / q). { replace (2 - p / q) with ((2 * q - p) / q) by (field; lra). apply div_pos; lra. }
  assert (0 <= (p + q) * ((p + q) / (p * q))). { apply Rmult_le_pos; [lra|]. apply div_pos; [lra|]. now apply Rmult_lt_0_compat. }
  assert (0 <= u * (2 - / (p / q))) by (now apply Rmult_le_pos). assert (0 <= v * ((p + q) * ((p + q) / (p * q)))) by (now apply Rmult_le_pos). assert (0 <= w * (2 - p / q)) by (now apply Rmult_le_pos). lra.
Qed.
(** the middle weight absorbs Cartwright's negative one *)
Lemma tail_pos : forall a b c d u v w z, a < b -> b < c -> c < d -> b - a <= 2 * (c - b) -> c - b <= 2 * (b - a) -> c - b <= 2 * (d - c) -> d - c <= 2 * (c - b) ->
  0 <= u -> 0 <= v -> 0 <= w -> 0 <= z -> 0 <= panel (a, u) (b, v) (c, w) + cartwright (b, v) (c, w) (d, z).
Proof.
  intros a b c d u v w z H1 H2 H3 H4 H5 H6 H7 U V W Z. unfold panel, cartwright; cbn [fst snd]. set (p := b - a) in *. set (q := c - b) in *. set (r := d - c) in *.
  assert (P : 0 < p) by (unfold p; lra). assert (Q : 0 < q) by (unfold q; lra). assert (S : 0 < r) by (unfold r; lra).
  assert (PQ : 0 < p * q) by now apply Rmult_lt_0_compat. assert (QR : 0 < q * r) by now apply Rmult_lt_0_compat.
  assert (W0 : 0 <= (p + q) / 6 * (2 - / (p / q))). { apply Rmult_le_pos; [lra|]. replace (2 - / (p / q)) with ((2 * p - q) / p) by (field; lra). apply div_pos; lra. }
  assert (W2 : 0 <= (p + q) / 6 * (2 - p / q) + (r ^ 2 + 3 * q * r) / (6 * q)).
  { apply Rplus_le_le_0_compat. { apply Rmult_le_pos; [lra|]. replace (2 - p / q) with ((2 * q - p) / q) by (field; lra). apply div_pos; lra. } apply div_pos; [|lra]. assert (0 <= r ^ 2) by (apply pow2_ge_0). lra. }
  assert (W3 : 0 <= (2 * r ^ 2 + 3 * q * r) / (6 * (r + q))). { apply div_pos; [|lra]. assert (0 <= r ^ 2) by (apply pow2_ge_0). lra. }
  assert (W1 : 0 <= (p + q) / 6 * ((p + q) * ((p + q) / (p * q))) + - r ^ 3 / (6 * q * (q + r))).
  { replace ((p + q) / 6 * ((p + q) * ((p + q) / (p * q))) + - r ^ 3 / (6 * q * (q + r))) with (((p + q) ^ 3 * (q + r) - r ^ 3 * p) / (6 * p * q * (q + r))) by (field; repeat split; lra).
    apply div_pos; [|apply Rmult_lt_0_compat; [|lra]; replace (6 * p * q) with (6 * (p * q)) by ring; lra].
    assert (L1 : r ^ 3 <= r * (4 * q ^ 2)). { replace (r ^ 3) with (r * r ^ 2) by ring. apply Rmult_le_compat_l; [lra|]. replace (4 * q ^ 2) with ((2 * q) ^ 2) by ring. apply pow_incr. lra. }
    assert (L2 : r * (4 * q ^ 2) * p <= (p + q) ^ 3 * r). { replace (r * (4 * q ^ 2) * p) with (r * (4 * q ^ 2 * p)) by ring. rewrite (Rmult_comm _ r). apply Rmult_le_compat_l; [lra|].
      replace ((p + q) ^ 3) with (4 * q ^ 2 * p + (p ^ 2 * p + q ^ 2 * q + p * q * (3 * p - q))) by ring. assert (0 <= p * q * (3 * p - q)) by (apply Rmult_le_pos; lra). assert (0 <= p ^ 2 * p) by (apply Rmult_le_pos; [apply pow2_ge_0|lra]). assert (0 <= q ^ 2 * q) by (apply Rmult_le_pos; [apply pow2_ge_0|lra]). lra. }
    assert (L3 : r ^ 3 * p <= r * (4 * q ^ 2) * p) by (apply Rmult_le_compat_r; lra). assert (L4 : 0 <= (p + q) ^ 3 * q) by (apply Rmult_le_pos; [apply pow_le; lra|lra]).
    replace ((p + q) ^ 3 * (q + r)) with ((p + q) ^ 3 * q + (p + q) ^ 3 * r) by ring. lra. }
  apply (Rmult_le_compat_l u) in W0; auto. apply (Rmult_le_compat_l v) in W1; auto. apply (Rmult_le_compat_l w) in W2; auto. apply (Rmult_le_compat_l z) in W3; auto. rewrite Rmult_0_r in *. lra.
Qed.
(** non-negative weights: data that are non-negative integrate to a non-negative number *)
Lemma simpx_positive : forall f x, incr x -> quasi_uniform x -> (forall t, In t x -> 0 <= f t) -> 0 <= simpx_pts (pts f x).
Proof.
  intros f x. pattern x. apply list_ind5; clear x; intros; unfold pts; cbn [map].
  - simpl; lra.
  - simpl; lra.
  - apply incr_inv in H. simpl. assert (0 <= f a) by (apply H1; simpl; auto). assert (0 <= f b) by (apply H1; simpl; auto). apply Rmult_le_pos; lra.
  - apply incr_inv in H. destruct H as [Q1 H]. apply incr_inv in H. destruct H as [Q2 _]. apply qu_inv in H0. destruct H0 as [K1 [K2 _]]. rewrite simpx_3. apply panel_pos; auto; apply H1; simpl; auto.
  - apply incr_inv in H. destruct H as [Q1 H]. apply incr_inv in H. destruct H as [Q2 H]. apply incr_inv in H. destruct H as [Q3 _]. apply qu_inv in H0. destruct H0 as [K1 [K2 H0]]. apply qu_inv in H0. destruct H0 as [K3 [K4 _]].
    rewrite simpx_4. apply tail_pos; auto; apply H1; simpl; auto.
  - apply incr_inv in H0. destruct H0 as [Q1 H0]. apply incr_inv in H0. destruct H0 as [Q2 H0]. apply qu_inv in H1. destruct H1 as [K1 [K2 H1]]. apply qu_inv in H1. destruct H1 as [K3 [K4 H1]].
    rewrite simpx_5. apply Rplus_le_le_0_compat; [apply panel_pos; auto; apply H2; simpl; auto|]. apply H; auto. intros s Hs. apply H2. simpl in *. tauto.
Qed.
