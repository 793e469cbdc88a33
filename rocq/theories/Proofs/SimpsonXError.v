(** Error of the irregular Simpson rule for functions whose second derivative is Lipschitz (cubic splines included). *)
From Coq Require Import Reals List Arith Lia Lra Psatz.
From Coquelicot Require Import Coquelicot.
From Verif Require Import Model.RBool Model.SimpsonX Proofs.Calc Proofs.SimpsonXProofs.
Import ListNotations.
Local Open Scope R_scope.

Lemma taylor_half : forall (f f1 f2 : R -> R) K c hi, (forall s, c <= s <= hi -> is_derive f s (f1 s)) -> (forall s, c <= s <= hi -> is_derive f1 s (f2 s)) ->
  (forall s, c <= s <= hi -> f2 s - f2 c <= K * (s - c)) -> forall t, c <= t <= hi -> f t - (f c + f1 c * (t - c) + f2 c * (t - c) ^ 2 / 2) <= K * (t - c) ^ 3 / 6.
Proof.
  intros f f1 f2 K c hi D1 D2 L t T.
  assert (A : forall s, c <= s <= hi -> 0 <= K * (s - c) ^ 2 / 2 - (f1 s - f1 c - f2 c * (s - c))).
  { intros s S. assert (M := mono_of_derive (fun s => K * (s - c) ^ 2 / 2 - (f1 s - f1 c - f2 c * (s - c))) (fun s => K * (s - c) - (f2 s - f2 c)) c s (proj1 S)).
    cbv beta in M. replace (K * (c - c) ^ 2 / 2 - (f1 c - f1 c - f2 c * (c - c))) with 0 in M by field. apply M.
    - intros x X. apply (is_derive_minus (fun s => K * (s - c) ^ 2 / 2) (fun s => f1 s - f1 c - f2 c * (s - c)) x (K * (x - c)) (f2 x - f2 c)).
      + auto_derive; auto. field.
      + assert (E : is_derive f1 x (f2 x)) by (apply D2; lra). apply (is_derive_minus (fun s => f1 s - f1 c) (fun s => f2 c * (s - c)) x (f2 x) (f2 c)); [|auto_derive; auto; ring].
        replace (f2 x) with (minus (f2 x) 0) by (unfold minus, plus, opp; simpl; ring). apply (is_derive_minus f1 (fun _ => f1 c)); auto. apply @is_derive_const.
    - intros x X. specialize (L x ltac:(lra)). lra. }
  assert (M := mono_of_derive (fun s => K * (s - c) ^ 3 / 6 - (f s - (f c + f1 c * (s - c) + f2 c * (s - c) ^ 2 / 2))) (fun s => K * (s - c) ^ 2 / 2 - (f1 s - f1 c - f2 c * (s - c))) c t (proj1 T)).
  cbv beta in M. replace (K * (c - c) ^ 3 / 6 - (f c - (f c + f1 c * (c - c) + f2 c * (c - c) ^ 2 / 2))) with 0 in M by field.
  assert (G : 0 <= K * (t - c) ^ 3 / 6 - (f t - (f c + f1 c * (t - c) + f2 c * (t - c) ^ 2 / 2))); [|lra]. apply M.
  - intros x X. apply (is_derive_minus (fun s => K * (s - c) ^ 3 / 6) (fun s => f s - (f c + f1 c * (s - c) + f2 c * (s - c) ^ 2 / 2)) x (K * (x - c) ^ 2 / 2) (f1 x - f1 c - f2 c * (x - c))).
    + auto_derive; auto. field.
    + replace (f1 x - f1 c - f2 c * (x - c)) with (minus (f1 x) (f1 c + f2 c * (x - c))) by (unfold minus, plus, opp; simpl; ring).
      apply (is_derive_minus f (fun s => f c + f1 c * (s - c) + f2 c * (s - c) ^ 2 / 2)); [apply D1; lra|]. auto_derive; auto. field.
  - intros x X. apply A. lra.
Qed.
Lemma is_derive_neg : forall (f : R -> R) x d, is_derive f x d -> is_derive (fun s => - f s) x (- d).
Proof. intros. apply (is_derive_opp f x d). auto. Qed.
Lemma taylor_right : forall (f f1 f2 : R -> R) K c hi, (forall s, c <= s <= hi -> is_derive f s (f1 s)) -> (forall s, c <= s <= hi -> is_derive f1 s (f2 s)) ->
  (forall s, c <= s <= hi -> Rabs (f2 s - f2 c) <= K * (s - c)) -> forall t, c <= t <= hi -> Rabs (f t - (f c + f1 c * (t - c) + f2 c * (t - c) ^ 2 / 2)) <= K * (t - c) ^ 3 / 6.
Proof.
  intros f f1 f2 K c hi D1 D2 L t T. apply Rabs_le.
  assert (A := taylor_half f f1 f2 K c hi D1 D2 ltac:(intros s S; specialize (L s S); apply Rabs_le_between in L; lra) t T).
  assert (B := taylor_half (fun s => - f s) (fun s => - f1 s) (fun s => - f2 s) K c hi ltac:(intros; apply is_derive_neg; auto) ltac:(intros; apply is_derive_neg; auto)
     ltac:(intros s S; specialize (L s S); apply Rabs_le_between in L; lra) t T). cbv beta in B. lra.
Qed.
Lemma is_derive_refl : forall (f : R -> R) c x d, is_derive f (2 * c - x) d -> is_derive (fun s => f (2 * c - s)) x (- d).
Proof.
  intros f c x d H. assert (A := is_derive_comp f (fun s => 2 * c - s) x d (-1) H ltac:(auto_derive; auto; ring)).
  replace (- d) with (scal (-1) d) by (unfold scal; simpl; unfold mult; simpl; ring). exact A.
Qed.
Lemma taylor_left : forall (f f1 f2 : R -> R) K c lo, (forall s, lo <= s <= c -> is_derive f s (f1 s)) -> (forall s, lo <= s <= c -> is_derive f1 s (f2 s)) ->
  (forall s, lo <= s <= c -> Rabs (f2 s - f2 c) <= K * (c - s)) -> forall t, lo <= t <= c -> Rabs (f t - (f c + f1 c * (t - c) + f2 c * (t - c) ^ 2 / 2)) <= K * (c - t) ^ 3 / 6.
Proof.
  intros f f1 f2 K c lo D1 D2 L t T.
  assert (A := taylor_right (fun s => f (2 * c - s)) (fun s => - f1 (2 * c - s)) (fun s => f2 (2 * c - s)) K c (2 * c - lo)). cbv beta in A.
  specialize (A ltac:(intros; apply is_derive_refl, D1; lra)).
  assert (E : forall s, c <= s <= 2 * c - lo -> is_derive (fun s => - f1 (2 * c - s)) s (f2 (2 * c - s))).
  { intros s S. replace (f2 (2 * c - s)) with (- - f2 (2 * c - s)) by ring. apply is_derive_neg. apply is_derive_refl, D2. lra. }
  specialize (A E). replace (2 * c - c) with c in A by ring.
  specialize (A ltac:(intros s S; replace (s - c) with (c - (2 * c - s)) by ring; apply L; lra) (2 * c - t) ltac:(lra)).
  replace (2 * c - (2 * c - t)) with t in A by ring. replace (2 * c - t - c) with (c - t) in A by ring.
  replace (f c + f1 c * (t - c) + f2 c * (t - c) ^ 2 / 2) with (f c + - f1 c * (c - t) + f2 c * (c - t) ^ 2 / 2) by field. exact A.
Qed.

(** twice differentiable on [lo, hi]; from any point c the second derivative changes by at most K c per unit length to the right of c *)
Section Err.
  Variables (f f1 f2 K : R -> R) (lo hi : R).
  Hypothesis D1 : forall s, lo <= s <= hi -> is_derive f s (f1 s).
  Hypothesis D2 : forall s, lo <= s <= hi -> is_derive f1 s (f2 s).
  Hypothesis L : forall c s t, lo <= c -> c <= s -> s <= t -> t <= hi -> Rabs (f2 t - f2 s) <= K c * (t - s).

  Lemma exf : forall a b, lo <= a -> a <= b -> b <= hi -> ex_RInt f a b.
  Proof.
    intros a b A B C. apply (ex_RInt_continuous (V:=R_CompleteNormedModule)). intros t T. rewrite Rmin_left, Rmax_right in T by lra.
    apply (@ex_derive_continuous R_AbsRing R_NormedModule). exists (f1 t). apply D1. lra.
  Qed.
  Lemma K_pos : forall c s t, lo <= c -> c <= s -> s < t -> t <= hi -> 0 <= K c.
  Proof.
    intros c s t A B C D. assert (X := L c s t A B ltac:(lra) D). assert (0 <= Rabs (f2 t - f2 s)) by apply Rabs_pos. destruct (Rle_or_lt 0 (K c)); auto. nra.
  Qed.
  (** Taylor about b within [a, c], with the constant at a *)
  Lemma taylor_in : forall a b c t h, lo <= a -> a <= b <= c -> c <= hi -> a < c -> a <= t <= c -> b - a <= h -> c - b <= h ->
    Rabs (f t - (f b + f1 b * (t - b) + f2 b * (t - b) ^ 2 / 2)) <= K a * h ^ 3 / 6.
  Proof.
    intros a b c t h A B C AC T H1 H2. assert (KP := K_pos a a c A ltac:(lra) AC C).
    destruct (Rle_dec b t) as [S|S].
    - eapply Rle_trans; [apply (taylor_right f f1 f2 (K a) b c); try (intros; apply D1 || apply D2 || apply L; lra); lra|].
      apply Rmult_le_compat_r; [lra|]. apply Rmult_le_compat_l; auto. apply pow_incr. lra.
    - eapply Rle_trans; [apply (taylor_left f f1 f2 (K a) b a); try (intros; apply D1 || apply D2; lra); try lra|].
      + intros s S'. rewrite Rabs_minus_sym. apply L; lra.
      + apply Rmult_le_compat_r; [lra|]. apply Rmult_le_compat_l; auto. apply pow_incr. lra.
  Qed.
  Lemma quad_int : forall A B C b x y, x <= y -> is_RInt (fun t => A + B * (t - b) + C * (t - b) ^ 2 / 2) x y ((A * (y - b) + B * (y - b) ^ 2 / 2 + C * (y - b) ^ 3 / 6) - (A * (x - b) + B * (x - b) ^ 2 / 2 + C * (x - b) ^ 3 / 6)).
  Proof.
    intros A B C b x y XY. apply (ftc (fun t => A * (t - b) + B * (t - b) ^ 2 / 2 + C * (t - b) ^ 3 / 6) (fun t => A + B * (t - b) + C * (t - b) ^ 2 / 2)); auto.
    - intros t _. auto_derive; auto. field.
    - intros t _. apply (@ex_derive_continuous R_AbsRing R_NormedModule). auto_derive. auto.
  Qed.
  (** integral over [x, y] inside [a, c] against the integral of the Taylor polynomial about b *)
  Lemma int_err : forall a b c x y h, lo <= a -> a <= b <= c -> c <= hi -> a < c -> a <= x -> x <= y -> y <= c -> b - a <= h -> c - b <= h ->
    Rabs (RInt f x y - ((f b * (y - b) + f1 b * (y - b) ^ 2 / 2 + f2 b * (y - b) ^ 3 / 6) - (f b * (x - b) + f1 b * (x - b) ^ 2 / 2 + f2 b * (x - b) ^ 3 / 6))) <= (y - x) * (K a * h ^ 3 / 6).
  Proof.
    intros a b c x y h A B C AC X XY Y H1 H2. assert (Q := quad_int (f b) (f1 b) (f2 b) b x y XY). rewrite <- (is_RInt_unique (V:=R_CompleteNormedModule) _ _ _ _ Q).
    assert (E1 := exf x y ltac:(lra) XY ltac:(lra)). rewrite <- (RInt_minus (V:=R_CompleteNormedModule) f _ x y E1) by (eexists; exact Q).
    apply abs_RInt_le_const; auto; [apply (ex_RInt_minus (V:=R_NormedModule)); [exact E1|eexists; exact Q]|]. intros t T. apply (taylor_in a b c t h); lra.
  Qed.
  Lemma panel_err : forall a b c h, lo <= a -> a < b -> b < c -> c <= hi -> b - a <= 2 * (c - b) -> c - b <= 2 * (b - a) -> b - a <= h -> c - b <= h ->
    Rabs (panel (a, f a) (b, f b) (c, f c) - RInt f a c) <= 3 / 8 * (K a * h ^ 3) * (c - a).
  Proof.
    intros a b c h A AB BC C Q1 Q2 H1 H2. assert (I := int_err a b c a c h A ltac:(lra) C ltac:(lra) ltac:(lra) ltac:(lra) ltac:(lra) H1 H2).
    assert (Ta := taylor_in a b c a h A ltac:(lra) C ltac:(lra) ltac:(lra) H1 H2). assert (Tc := taylor_in a b c c h A ltac:(lra) C ltac:(lra) ltac:(lra) H1 H2).
    set (e := K a * h ^ 3) in *.
    set (ua := f a - (f b + f1 b * (a - b) + f2 b * (a - b) ^ 2 / 2)) in *. set (uc := f c - (f b + f1 b * (c - b) + f2 b * (c - b) ^ 2 / 2)) in *.
    set (w0 := (c - a) / 6 * (2 - (c - b) / (b - a))). set (w2 := (c - a) / 6 * (2 - (b - a) / (c - b))).
    assert (E : panel (a, f a) (b, f b) (c, f c) - RInt f a c = w0 * ua + w2 * uc - (RInt f a c - ((f b * (c - b) + f1 b * (c - b) ^ 2 / 2 + f2 b * (c - b) ^ 3 / 6) - (f b * (a - b) + f1 b * (a - b) ^ 2 / 2 + f2 b * (a - b) ^ 3 / 6)))).
    { unfold panel, w0, w2, ua, uc; cbn [fst snd]. field. repeat split; lra. }
    rewrite E. clear E. assert (B0 : 0 <= w0 <= (c - a) / 3).
    { unfold w0. assert (0 <= (c - b) / (b - a)) by (apply div_pos; lra). assert ((c - b) / (b - a) <= 2). { apply (Rmult_le_reg_r (b - a)); [lra|]. unfold Rdiv. rewrite Rmult_assoc, Rinv_l by lra. lra. }
      split; [apply Rmult_le_pos; lra|]. replace ((c - a) / 3) with ((c - a) / 6 * 2) by field. apply Rmult_le_compat_l; lra. }
    assert (B2 : 0 <= w2 <= (c - a) / 3).
    { unfold w2. assert (0 <= (b - a) / (c - b)) by (apply div_pos; lra). assert ((b - a) / (c - b) <= 2). { apply (Rmult_le_reg_r (c - b)); [lra|]. unfold Rdiv. rewrite Rmult_assoc, Rinv_l by lra. lra. }
      split; [apply Rmult_le_pos; lra|]. replace ((c - a) / 3) with ((c - a) / 6 * 2) by field. apply Rmult_le_compat_l; lra. }
    match goal with |- Rabs (_ - ?x) <= _ => set (J := x) in * end. clearbody J w0 w2 ua uc e.
    apply Rabs_le_between in Ta. apply Rabs_le_between in Tc. apply Rabs_le_between in I.
    assert (P0 : Rabs (w0 * ua) <= (c - a) / 3 * (e / 6)). { rewrite Rabs_mult, (Rabs_pos_eq w0) by lra. apply Rmult_le_compat; [lra|apply Rabs_pos|lra|apply Rabs_le; lra]. }
    assert (P2 : Rabs (w2 * uc) <= (c - a) / 3 * (e / 6)). { rewrite Rabs_mult, (Rabs_pos_eq w2) by lra. apply Rmult_le_compat; [lra|apply Rabs_pos|lra|apply Rabs_le; lra]. }
    apply Rabs_le_between in P0. apply Rabs_le_between in P2. assert (0 <= e * (c - a)) by (apply Rmult_le_pos; lra). apply Rabs_le. split; nra.
  Qed.
  Lemma cart_err : forall a b c h, lo <= a -> a < b -> b < c -> c <= hi -> c - b <= 2 * (b - a) -> b - a <= h -> c - b <= h ->
    Rabs (cartwright (a, f a) (b, f b) (c, f c) - RInt f b c) <= 3 / 8 * (K a * h ^ 3) * (c - b).
  Proof.
    intros a b c h A AB BC C Q2 H1 H2. assert (I := int_err a b c b c h A ltac:(lra) C ltac:(lra) ltac:(lra) ltac:(lra) ltac:(lra) H1 H2).
    assert (Ta := taylor_in a b c a h A ltac:(lra) C ltac:(lra) ltac:(lra) H1 H2). assert (Tc := taylor_in a b c c h A ltac:(lra) C ltac:(lra) ltac:(lra) H1 H2).
    set (e := K a * h ^ 3) in *.
    set (ua := f a - (f b + f1 b * (a - b) + f2 b * (a - b) ^ 2 / 2)) in *. set (uc := f c - (f b + f1 b * (c - b) + f2 b * (c - b) ^ 2 / 2)) in *.
    set (p := b - a) in *. set (q := c - b) in *. assert (P : 0 < p) by (unfold p; lra). assert (Q : 0 < q) by (unfold q; lra).
    set (w0 := q ^ 3 / (6 * p * (p + q))). set (w2 := (2 * q ^ 2 + 3 * p * q) / (6 * (q + p))).
    assert (E : cartwright (a, f a) (b, f b) (c, f c) - RInt f b c = w2 * uc - w0 * ua - (RInt f b c - ((f b * q + f1 b * q ^ 2 / 2 + f2 b * q ^ 3 / 6) - (f b * (b - b) + f1 b * (b - b) ^ 2 / 2 + f2 b * (b - b) ^ 3 / 6)))).
    { unfold cartwright, w0, w2, ua, uc, p, q; cbn [fst snd]. field. repeat split; lra. }
    rewrite E. clear E. assert (B0 : 0 <= w0 <= 2 / 3 * q).
    { unfold w0. split; [apply div_pos; [apply pow_le; lra|repeat apply Rmult_lt_0_compat; lra]|]. apply (Rmult_le_reg_r (6 * p * (p + q))); [repeat apply Rmult_lt_0_compat; lra|].
      unfold Rdiv at 1. rewrite Rmult_assoc, Rinv_l by (apply Rgt_not_eq; repeat apply Rmult_lt_0_compat; lra).
      replace (q ^ 3 * 1) with (q * q ^ 2) by ring. replace (2 / 3 * q * (6 * p * (p + q))) with (q * (4 * p * (p + q))) by field. apply Rmult_le_compat_l; [lra|]. nra. }
    assert (B2 : 0 <= w2 <= q / 2).
    { unfold w2. split; [apply div_pos; nra|]. apply (Rmult_le_reg_r (6 * (q + p))); [lra|]. unfold Rdiv at 1. rewrite Rmult_assoc, Rinv_l by lra. nra. }
    match goal with |- Rabs (_ - _ - ?x) <= _ => set (J := x) in * end. clearbody J w0 w2 ua uc e.
    apply Rabs_le_between in Ta. apply Rabs_le_between in Tc. apply Rabs_le_between in I.
    assert (P0 : Rabs (w0 * ua) <= 2 / 3 * q * (e / 6)). { rewrite Rabs_mult, (Rabs_pos_eq w0) by lra. apply Rmult_le_compat; [lra|apply Rabs_pos|lra|apply Rabs_le; lra]. }
    assert (P2 : Rabs (w2 * uc) <= q / 2 * (e / 6)). { rewrite Rabs_mult, (Rabs_pos_eq w2) by lra. apply Rmult_le_compat; [lra|apply Rabs_pos|lra|apply Rabs_le; lra]. }
    apply Rabs_le_between in P0. apply Rabs_le_between in P2. assert (0 <= e * q) by (apply Rmult_le_pos; lra). apply Rabs_le. split; nra.
  Qed.

  (** a budget: Phi grows, over any panel of the grid, by at least the error bound of the panel *)
  Variable Phi : R -> R.
  Inductive budget : list R -> Prop :=
  | bg3 : forall a b c, (exists h, b - a <= h /\ c - b <= h /\ 3 / 8 * (K a * h ^ 3) * (c - a) <= Phi c - Phi a) -> budget [a; b; c]
  | bg4 : forall a b c d, (exists h, b - a <= h /\ c - b <= h /\ 3 / 8 * (K a * h ^ 3) * (c - a) <= Phi c - Phi a) ->
      (exists h, c - b <= h /\ d - c <= h /\ 3 / 8 * (K b * h ^ 3) * (d - c) <= Phi d - Phi c) -> budget [a; b; c; d]
  | bgS : forall a b c d e t, (exists h, b - a <= h /\ c - b <= h /\ 3 / 8 * (K a * h ^ 3) * (c - a) <= Phi c - Phi a) -> budget (c :: d :: e :: t) -> budget (a :: b :: c :: d :: e :: t).
  Lemma last_ge : forall x a, incr (a :: x) -> a <= last (a :: x) 0.
  Proof.
    induction x as [|b t IH]; intros a H; [simpl; lra|]. apply incr_inv in H. destruct H as [A H]. rewrite last_cons2. specialize (IH b H). lra.
  Qed.
  Lemma simpx_err : forall x, incr x -> quasi_uniform x -> budget x -> lo <= hd 0 x -> last x 0 <= hi ->
    Rabs (simpx_pts (pts f x) - RInt f (hd 0 x) (last x 0)) <= Phi (last x 0) - Phi (hd 0 x).
  Proof.
    intros x. pattern x. apply list_ind5; clear x.
    - intros _ _ B. inversion B.
    - intros a _ _ B. inversion B.
    - intros a b _ _ B. inversion B.
    - intros a b c I Q B Lo Hi. unfold pts; cbn [map]. rewrite simpx_3. cbn [hd last] in *. inversion B as [? ? ? [h [H1 [H2 H3]]]| |]. subst.
      apply incr_inv in I. destruct I as [I1 I]. apply incr_inv in I. destruct I as [I2 _]. apply qu_inv in Q. destruct Q as [Q1 [Q2 _]].
      eapply Rle_trans; [apply (panel_err a b c h); lra|exact H3].
    - intros a b c d I Q B Lo Hi. unfold pts; cbn [map]. rewrite simpx_4. cbn [hd last] in *. inversion B as [|? ? ? ? [h [H1 [H2 H3]]] [k [K1 [K2 K3]]]|]. subst.
      apply incr_inv in I. destruct I as [I1 I]. apply incr_inv in I. destruct I as [I2 I]. apply incr_inv in I. destruct I as [I3 _].
      apply qu_inv in Q. destruct Q as [Q1 [Q2 Q]]. apply qu_inv in Q. destruct Q as [Q3 [Q4 _]].
      assert (P := panel_err a b c h ltac:(lra) ltac:(lra) ltac:(lra) ltac:(lra) Q1 Q2 H1 H2). assert (C := cart_err b c d k ltac:(lra) ltac:(lra) ltac:(lra) ltac:(lra) Q4 K1 K2).
      rewrite <- (RInt_Chasles (V:=R_CompleteNormedModule) f a c d) by (apply exf; lra). unfold plus; simpl. apply Rabs_le_between in P. apply Rabs_le_between in C. apply Rabs_le. lra.
    - intros a b c d e t IH I Q B Lo Hi. unfold pts; cbn [map]. rewrite simpx_5. rewrite !(last_cons2 a), !(last_cons2 b) in *. cbn [hd] in *. inversion B as [| |? ? ? ? ? ? [h [H1 [H2 H3]]] B']. subst.
      apply incr_inv in I. destruct I as [I1 I]. apply incr_inv in I. destruct I as [I2 I]. apply qu_inv in Q. destruct Q as [Q1 [Q2 Q]]. apply qu_inv in Q. destruct Q as [_ [_ Q]].
      assert (LG := last_ge _ _ I). specialize (IH I Q B' ltac:(lra) Hi). unfold pts in IH; cbn [map] in IH. set (X := simpx_pts _) in *. set (Y := last _ 0) in *. clearbody X Y.
      assert (P := panel_err a b c h ltac:(lra) ltac:(lra) ltac:(lra) ltac:(lra) Q1 Q2 H1 H2).
      rewrite <- (RInt_Chasles (V:=R_CompleteNormedModule) f a c Y) by (apply exf; lra). unfold plus; simpl. apply Rabs_le_between in P. apply Rabs_le_between in IH. apply Rabs_le. lra.
  Qed.
End Err.
