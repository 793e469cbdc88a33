(** Error of the double Simpson sum of angular_corr_gal. *)
From Coq Require Import Reals List Arith Lia Lra Psatz.
From Coquelicot Require Import Coquelicot.
From Verif Require Import Model.RBool Model.SimpsonX Model.IntegrateCorr Spec.IntegrateSpec Spec.AngularSpec Proofs.Calc Proofs.SimpsonXProofs Proofs.SimpsonXError Proofs.IntegrateProofs
  Props.IntegrateProps Props.SimpsonErrorProps.
Import ListNotations.
Local Open Scope R_scope.

(** ** Simpson's rule is a weighted sum *)
Definition wsum (wl : list (R * R)) (f : R -> R) : R := fold_right (fun p a => fst p * f (snd p) + a) 0 wl.
Lemma wsum_app : forall a b f, wsum (a ++ b) f = wsum a f + wsum b f.
Proof. intros a b f. induction a as [|p a IH]; simpl; [ring|]. unfold wsum in *. rewrite IH. ring. Qed.
Lemma panel_w : forall a b c, exists w0 w1 w2, forall u v w, panel (a, u) (b, v) (c, w) = w0 * u + w1 * v + w2 * w.
Proof. intros a b c. unfold panel; cbn [fst snd]. do 3 eexists. intros u v w. instantiate (1 := (b - a + (c - b)) / 6 * (2 - (b - a) / (c - b))). instantiate (1 := (b - a + (c - b)) / 6 * ((b - a + (c - b)) * ((b - a + (c - b)) / ((b - a) * (c - b))))). instantiate (1 := (b - a + (c - b)) / 6 * (2 - / ((b - a) / (c - b)))). ring. Qed.
Lemma cart_w : forall a b c, exists w0 w1 w2, forall u v w, cartwright (a, u) (b, v) (c, w) = w0 * u + w1 * v + w2 * w.
Proof.
  intros a b c. unfold cartwright; cbn [fst snd]. set (h0 := b - a). set (h1 := c - b).
  exists (- h1 ^ 3 / (6 * h0 * (h0 + h1))), ((h1 ^ 2 + 3 * h0 * h1) / (6 * h0)), ((2 * h1 ^ 2 + 3 * h0 * h1) / (6 * (h1 + h0))). intros. ring.
Qed.
Lemma simpx_weights : forall x, exists wl, (forall p, In p wl -> In (snd p) x) /\ forall f, simpx_pts (pts f x) = wsum wl f.
Proof.
  intros x. pattern x. apply list_ind5; clear x.
  - exists []. split; [simpl; tauto|reflexivity].
  - intros a. exists []. split; [simpl; tauto|reflexivity].
  - intros a b. exists [((b - a) / 2, a); ((b - a) / 2, b)]. split.
    + intros p [<-|[<-|[]]]; simpl; auto.
    + intros f. unfold pts, wsum. simpl. ring.
  - intros a b c. destruct (panel_w a b c) as (w0 & w1 & w2 & H). exists [(w0, a); (w1, b); (w2, c)]. split.
    + intros p [<-|[<-|[<-|[]]]]; simpl; auto.
    + intros f. unfold pts; cbn [map]. rewrite simpx_3, H. unfold wsum. simpl. ring.
  - intros a b c d. destruct (panel_w a b c) as (w0 & w1 & w2 & H). destruct (cart_w b c d) as (v0 & v1 & v2 & K). exists [(w0, a); (w1, b); (w2, c); (v0, b); (v1, c); (v2, d)]. split.
    + intros p [<-|[<-|[<-|[<-|[<-|[<-|[]]]]]]]; simpl; auto.
    + intros f. unfold pts; cbn [map]. rewrite simpx_4, H, K. unfold wsum. simpl. ring.
  - intros a b c d e t (wl & I & E). destruct (panel_w a b c) as (w0 & w1 & w2 & H). exists ([(w0, a); (w1, b); (w2, c)] ++ wl). split.
    + intros p Hp. apply in_app_or in Hp. destruct Hp as [[<-|[<-|[<-|[]]]]|Hp]; simpl; auto. right. right. apply I in Hp. exact Hp.
    + intros f. rewrite wsum_app. unfold pts in *; cbn [map]. rewrite simpx_5, H. specialize (E f). cbn [map] in E. rewrite E. unfold wsum at 2. simpl. ring.
Qed.
Lemma wsum_ext : forall wl f g, (forall p, In p wl -> f (snd p) = g (snd p)) -> wsum wl f = wsum wl g.
Proof. induction wl as [|p wl IH]; intros f g H; [reflexivity|]. unfold wsum in *. simpl. rewrite (H p) by (simpl; auto). rewrite (IH f g); auto. intros q Hq. apply H. simpl; auto. Qed.
Lemma simpx_wsum : forall X wl (F : R -> R -> R), simpx_pts (pts (fun x => wsum wl (F x)) X) = wsum wl (fun v => simpx_pts (pts (fun x => F x v) X)).
Proof.
  intros X wl F. induction wl as [|p wl IH].
  - unfold wsum. simpl. apply simpx_zero.
  - unfold wsum in *. simpl. rewrite <- IH. rewrite <- simpx_scal, <- simpx_plus. reflexivity.
Qed.
Lemma RInt_wsum : forall wl (F : R -> R -> R) a b, (forall p, In p wl -> ex_RInt (fun x => F x (snd p)) a b) ->
  is_RInt (fun x => wsum wl (F x)) a b (wsum wl (fun v => RInt (fun x => F x v) a b)).
Proof.
  intros wl F a b. induction wl as [|p wl IH]; intros H.
  - unfold wsum. simpl. evar_last; [apply (is_RInt_const (V := R_NormedModule) a b 0)|]. unfold scal; simpl. unfold mult; simpl. ring.
  - unfold wsum in *. simpl. apply (is_RInt_plus (V := R_NormedModule)); [|apply IH; intros; apply H; simpl; auto].
    apply (is_RInt_scal (V := R_NormedModule)). apply (RInt_correct (V := R_CompleteNormedModule)). apply H. simpl; auto.
Qed.
Lemma simpx_bound : forall x (d e : R -> R), incr x -> quasi_uniform x -> (forall t, In t x -> Rabs (d t) <= e t) -> Rabs (simpx_pts (pts d x)) <= simpx_pts (pts e x).
Proof.
  intros x d e I Q H. assert (A : 0 <= simpx_pts (pts (fun t => e t + (-1) * d t) x)) by (apply simpx_positive; auto; intros t Ht; specialize (H t Ht); apply Rabs_le_between in H; lra).
  assert (B : 0 <= simpx_pts (pts (fun t => e t + 1 * d t) x)) by (apply simpx_positive; auto; intros t Ht; specialize (H t Ht); apply Rabs_le_between in H; lra).
  rewrite simpx_linear in A, B. apply Rabs_le. lra.
Qed.

(** ** the correlation function along a line *)
Section Line.
  Variables (xi xi1 xi2 xi3 : R -> R) (B lo k c : R).
  Hypotheses (HX : falling xi xi1 xi2 xi3 B lo) (Lo : 0 < lo) (Hk : 0 <= k) (Hc : 0 <= c).
  Let s v := sqrt (c + (k * v) ^ 2).
  Definition line v := xi (s v).
  Definition line1 v := xi1 (s v) * (k ^ 2 * v / s v).
  Definition line2 v := xi2 (s v) * (k ^ 2 * v / s v) ^ 2 + xi1 (s v) * (k ^ 2 * c / s v ^ 3).
  Definition line3 v := xi3 (s v) * (k ^ 2 * v / s v) ^ 3 + 3 * xi2 (s v) * (k ^ 2 * v / s v) * (k ^ 2 * c / s v ^ 3) - 3 * xi1 (s v) * (k ^ 4 * c * v / s v ^ 5).
  Lemma B_nonneg : 0 <= B.
  Proof.
    destruct (HX lo ltac:(lra)) as (_ & _ & _ & H & _). assert (P := sqrt_lt_R0 lo Lo). assert (0 <= B / sqrt lo) by (eapply Rle_trans; [apply Rabs_pos|exact H]).
    replace B with (B / sqrt lo * sqrt lo) by (field; lra). apply Rmult_le_pos; lra.
  Qed.
  Section At.
    Variable v : R.
    Hypothesis Hv : lo <= s v.
    Lemma s_sq : s v ^ 2 = c + (k * v) ^ 2.
    Proof. unfold s. apply pow2_sqrt. assert (0 <= (k * v) ^ 2) by apply pow2_ge_0. lra. Qed.
    Lemma s_arg : 0 < c + (k * v) ^ 2.
    Proof. rewrite <- s_sq. apply pow_lt. lra. Qed.
    Lemma s_d : is_derive s v (k ^ 2 * v / s v).
    Proof. assert (P := s_arg). unfold s. auto_derive; [simpl in *; lra|]. simpl. field. assert (0 < sqrt (c + k * v * (k * v * 1))); [|lra]. apply sqrt_lt_R0. simpl in P. exact P. Qed.
    Lemma ratio_d : is_derive (fun v => k ^ 2 * v / s v) v (k ^ 2 * c / s v ^ 3).
    Proof.
      assert (D := s_d). evar_last.
      - apply (is_derive_div (fun v => k ^ 2 * v) s v (k ^ 2) (k ^ 2 * v / s v)); [auto_derive; [auto|ring]|exact D|lra].
      - replace c with (s v ^ 2 - (k * v) ^ 2) by (rewrite s_sq; ring). field. lra.
    Qed.
    Lemma cub_d : is_derive (fun v => k ^ 2 * c / s v ^ 3) v (- 3 * (k ^ 4 * c * v / s v ^ 5)).
    Proof.
      assert (D := s_d). assert (P : 0 < s v) by lra. apply (is_derive_ext (fun v => k ^ 2 * c * / (s v ^ 3))); [reflexivity|]. evar_last.
      - apply is_derive_scal. apply (is_derive_inv (fun v => s v ^ 3)); [apply is_derive_pow; exact D|]. apply pow_nonzero. lra.
      - simpl. field. lra.
    Qed.
    Lemma line_d : is_derive line v (line1 v).
    Proof. destruct (HX (s v) Hv) as (D & _). unfold line, line1. evar_last; [apply (is_derive_comp xi s v); [exact D|apply s_d]|]. unfold scal; simpl. unfold mult; simpl. ring. Qed.
    Lemma comp_d : forall g g', is_derive g (s v) g' -> is_derive (fun v => g (s v)) v (g' * (k ^ 2 * v / s v)).
    Proof. intros g g' D. evar_last; [apply (is_derive_comp g s v); [exact D|apply s_d]|]. unfold scal; simpl. unfold mult; simpl. ring. Qed.
    Lemma line1_d : is_derive line1 v (line2 v).
    Proof.
      destruct (HX (s v) Hv) as (_ & D & _). unfold line1. evar_last.
      - apply (is_derive_mult (fun v => xi1 (s v)) (fun v => k ^ 2 * v / s v)); [apply comp_d; exact D|apply ratio_d|intros; apply Rmult_comm].
      - unfold plus, mult; simpl. unfold line2. simpl. ring.
    Qed.
    Lemma line2_d : is_derive line2 v (line3 v).
    Proof.
      destruct (HX (s v) Hv) as (_ & D1 & D2 & _). unfold line2. evar_last.
      - apply (is_derive_plus (fun v => xi2 (s v) * (k ^ 2 * v / s v) ^ 2) (fun v => xi1 (s v) * (k ^ 2 * c / s v ^ 3))).
        + apply (is_derive_mult (fun v => xi2 (s v)) (fun v => (k ^ 2 * v / s v) ^ 2)); [apply comp_d; exact D2|apply is_derive_pow, ratio_d|intros; apply Rmult_comm].
        + apply (is_derive_mult (fun v => xi1 (s v)) (fun v => k ^ 2 * c / s v ^ 3)); [apply comp_d; exact D1|apply cub_d|intros; apply Rmult_comm].
      - unfold plus, mult; simpl. unfold line3. simpl. ring.
    Qed.
    (** sizes: q = k / s *)
    Hypothesis Hv0 : 0 <= v.
    Lemma line_b : Rabs (line v) <= B / sqrt (s v) /\ Rabs (line1 v) <= B / sqrt (s v) * (k / s v) /\ Rabs (line2 v) <= B / sqrt (s v) * (k / s v) ^ 2 /\ Rabs (line3 v) <= 3 * (B / sqrt (s v) * (k / s v) ^ 3).
    Proof.
      destruct (HX (s v) Hv) as (_ & _ & _ & B0 & B1 & B2 & B3). assert (P : 0 < s v) by lra. assert (W := sqrt_lt_R0 _ P). assert (BN := B_nonneg).
      set (a := k * v / s v). assert (A0 : 0 <= a) by (apply div_pos; auto; apply Rmult_le_pos; auto).
      assert (AC : c / s v ^ 2 = 1 - a ^ 2). { unfold a. replace c with (s v ^ 2 - (k * v) ^ 2) by (rewrite s_sq; ring). field. lra. }
      assert (C0 : 0 <= c / s v ^ 2) by (apply div_pos; auto; apply pow_lt; auto).
      assert (A1 : a <= 1) by nra. set (b := B / sqrt (s v)) in *. assert (Bb : 0 <= b) by (apply div_pos; auto). set (q := k / s v). assert (Q0 : 0 <= q) by (apply div_pos; auto).
      set (X1 := xi1 (s v) * s v) in *. set (X2 := xi2 (s v) * s v ^ 2). set (X3 := xi3 (s v) * s v ^ 3).
      assert (N1 : Rabs X1 <= b). { unfold X1, b. rewrite Rabs_mult, (Rabs_pos_eq (s v)) by lra. replace (B / sqrt (s v)) with (B / (s v * sqrt (s v)) * s v) by (field; lra). apply Rmult_le_compat_r; lra. }
      assert (N2 : Rabs X2 <= b). { unfold X2, b. assert (0 < s v ^ 2) by (apply pow_lt; auto). rewrite Rabs_mult, (Rabs_pos_eq (s v ^ 2)) by lra. replace (B / sqrt (s v)) with (B / (s v ^ 2 * sqrt (s v)) * s v ^ 2) by (field; lra). apply Rmult_le_compat_r; lra. }
      assert (N3 : Rabs X3 <= b). { unfold X3, b. assert (0 < s v ^ 3) by (apply pow_lt; auto). rewrite Rabs_mult, (Rabs_pos_eq (s v ^ 3)) by lra. replace (B / sqrt (s v)) with (B / (s v ^ 3 * sqrt (s v)) * s v ^ 3) by (field; lra). apply Rmult_le_compat_r; lra. }
      assert (E1 : line1 v = X1 * (q * a)) by (unfold line1, X1, q, a; field; lra).
      assert (E2 : line2 v = X2 * (q * a) ^ 2 + X1 * (q ^ 2 * (1 - a ^ 2))) by (rewrite <- AC; unfold line2, X2, X1, q, a; field; lra).
      assert (E3 : line3 v = X3 * (q * a) ^ 3 + 3 * X2 * (q ^ 3 * a * (1 - a ^ 2)) - 3 * X1 * (q ^ 3 * a * (1 - a ^ 2))) by (rewrite <- AC; unfold line3, X3, X2, X1, q, a; field; lra).
      split; [exact B0|]. rewrite E1, E2, E3. clear E1 E2 E3 B0 B1 B2 B3. clearbody X1 X2 X3 a q b. apply Rabs_le_between in N1. apply Rabs_le_between in N2. apply Rabs_le_between in N3.
      assert (T : 0 <= 1 - a ^ 2) by lra. split; [|split].
      - apply Rabs_le. assert (0 <= q * a <= q) by nra. nra.
      - replace (X2 * (q * a) ^ 2 + X1 * (q ^ 2 * (1 - a ^ 2))) with (q ^ 2 * (X2 * a ^ 2 + X1 * (1 - a ^ 2))) by ring. rewrite (Rmult_comm b). rewrite Rabs_mult, (Rabs_pos_eq (q ^ 2)) by (apply pow2_ge_0).
        apply Rmult_le_compat_l; [apply pow2_ge_0|]. assert (0 <= a ^ 2) by (apply pow2_ge_0). apply Rabs_le. split; nra.
      - replace (X3 * (q * a) ^ 3 + 3 * X2 * (q ^ 3 * a * (1 - a ^ 2)) - 3 * X1 * (q ^ 3 * a * (1 - a ^ 2))) with (q ^ 3 * (X3 * a ^ 3 + 3 * (X2 - X1) * (a * (1 - a ^ 2)))) by ring.
        replace (3 * (b * q ^ 3)) with (q ^ 3 * (3 * b)) by ring. assert (Q3 : 0 <= q ^ 3) by (apply pow_le; auto). rewrite Rabs_mult, (Rabs_pos_eq (q ^ 3)) by auto. apply Rmult_le_compat_l; auto.
        assert (0 <= a ^ 3) by (apply pow_le; auto). assert (G : 0 <= a * (1 - a ^ 2)) by (apply Rmult_le_pos; auto). assert (K : a ^ 3 + 6 * (a * (1 - a ^ 2)) <= 3).
        { assert (0 <= (a - 2 / 3) ^ 2 * (a + 4 / 3)) by (apply Rmult_le_pos; [apply pow2_ge_0|lra]). nra. }
        set (g := a * (1 - a ^ 2)) in *. set (a3 := a ^ 3) in *. clearbody g a3. apply Rabs_le. split; nra.
    Qed.
  End At.
End Line.

(** ** the double sum *)
Section Double.
  Variables (xi xi1 xi2 xi3 n n1 n2 n3 : R -> R) (B N ell x0 x1 u0 u1 th : R).
  Hypotheses (HX : falling xi xi1 xi2 xi3 B u0) (HN : varies n n1 n2 n3 N ell x0 x1).
  Hypotheses (U : 0 < u0 < u1) (X : 0 < x0 < x1) (L : 0 < ell <= x0) (T : 0 <= th).
  Let F x u := n x * xi (sqrt (th ^ 2 * x ^ 2 + u ^ 2)).
  Let sep_ge : forall x u, 0 <= u -> u <= sqrt (th ^ 2 * x ^ 2 + u ^ 2).
  Proof. intros x u H. rewrite <- (sqrt_pow2 u) at 1 by auto. apply sqrt_le_1_alt. assert (0 <= (th * x) ^ 2) by apply pow2_ge_0. nra. Qed.
  Let as_u : forall x u, th ^ 2 * x ^ 2 + u ^ 2 = (th * x) ^ 2 + (1 * u) ^ 2. Proof. intros. ring. Qed.
  Let as_x : forall x u, th ^ 2 * x ^ 2 + u ^ 2 = u ^ 2 + (th * x) ^ 2. Proof. intros. ring. Qed.
  Let BN : 0 <= B. Proof. apply (B_nonneg xi xi1 xi2 xi3 B u0 HX). lra. Qed.
  Let NN : 0 <= N. Proof. destruct (HN x0 ltac:(lra)) as (_ & _ & _ & H & _). eapply Rle_trans; [apply Rabs_pos|exact H]. Qed.

  (** separations u: logarithmic grid *)
  Lemma u_err : forall m q x, x0 <= x <= x1 -> (3 <= m)%nat -> 1 < q <= 2 -> q ^ (m - 1) * u0 = u1 ->
    Rabs (simpx_pts (pts (F x) (logspace u0 u1 m)) - RInt (F x) u0 u1) <= 9 / 4 * (N * B) * q ^ 4 * (q - 1) ^ 3 * sqrt u1.
  Proof.
    intros m q x Hx Hm Q E. destruct (HN x Hx) as (_ & _ & _ & HNx & _). set (c := (th * x) ^ 2). assert (C : 0 <= c) by apply pow2_ge_0.
    assert (S : forall t, u0 <= t -> u0 <= sqrt (c + (1 * t) ^ 2)). { intros t Ht. unfold c. rewrite <- as_u. eapply Rle_trans; [exact Ht|]. apply sep_ge. lra. }
    assert (X3 : forall t, u0 <= t -> Rabs (n x * line3 xi1 xi2 xi3 1 c t) <= 3 * (N * B) / (t ^ 3 * sqrt t)).
    { intros t Ht. destruct (line_b xi xi1 xi2 xi3 B u0 1 c HX ltac:(lra) ltac:(lra) C t (S t Ht) ltac:(lra)) as (_ & _ & _ & H). set (s := sqrt (c + (1 * t) ^ 2)) in *.
      assert (TS : t <= s). { unfold s, c. rewrite <- as_u. apply sep_ge. lra. } assert (W := sqrt_lt_R0 t ltac:(lra)). assert (W' : sqrt t <= sqrt s) by (apply sqrt_le_1_alt; auto).
      rewrite Rabs_mult. assert (Rabs (line3 xi1 xi2 xi3 1 c t) <= 3 * B / (t ^ 3 * sqrt t)).
      { eapply Rle_trans; [exact H|]. replace (3 * (B / sqrt s * (1 / s) ^ 3)) with (3 * B * / (s ^ 3 * sqrt s)) by (field; lra). unfold Rdiv. apply Rmult_le_compat_l; [lra|].
        assert (0 < t ^ 3) by (apply pow_lt; lra). assert (t ^ 3 <= s ^ 3) by (apply pow_incr; lra). apply Rinv_le_contravar; [apply Rmult_lt_0_compat; auto|]. apply Rmult_le_compat; lra. }
      replace (3 * (N * B) / (t ^ 3 * sqrt t)) with (N * (3 * B / (t ^ 3 * sqrt t))) by (unfold Rdiv; ring). apply Rmult_le_compat; auto; apply Rabs_pos. }
    assert (M0 : 0 <= 3 * (N * B)) by (assert (0 <= N * B) by (apply Rmult_le_pos; auto); lra).
    assert (EF : forall u, n x * line xi 1 c u = F x u). { intros u. unfold F, line, c. now rewrite <- as_u. }
    assert (K := c139_log_grid (fun u => n x * line xi 1 c u) (fun u => n x * line1 xi1 1 c u) (fun u => n x * line2 xi1 xi2 1 c u) (3 * (N * B)) u0 u1 m q U Hm Q E M0).
    rewrite (map_ext _ _ EF), (RInt_ext _ _ _ _ (fun u _ => EF u)) in K. rewrite simpx_pts_eq in K. eapply Rle_trans; [apply K|].
    - intros s Hs. apply is_derive_scal. eapply line_d; eauto; try lra. apply S. lra.
    - intros s Hs. apply is_derive_scal. eapply line1_d; eauto; try lra. apply S. lra.
    - intros c0 s t H1 H2 H3 H4. apply (lip_of_derive (fun u => n x * line2 xi1 xi2 1 c u) (fun u => n x * line3 xi1 xi2 xi3 1 c u)); auto.
      + intros r Hr. apply is_derive_scal. eapply line2_d; eauto; try lra. apply S. lra.
      + intros r Hr. eapply Rle_trans; [apply X3; lra|]. unfold Rdiv. apply Rmult_le_compat_l; auto. assert (0 < c0 ^ 3) by (apply pow_lt; lra). assert (c0 ^ 3 <= r ^ 3) by (apply pow_incr; lra).
        assert (W := sqrt_lt_R0 c0 ltac:(lra)). assert (sqrt c0 <= sqrt r) by (apply sqrt_le_1_alt; lra). apply Rinv_le_contravar; [apply Rmult_lt_0_compat; auto|]. apply Rmult_le_compat; lra.
    - assert (W := sqrt_pos u0). replace (9 / 4 * (N * B) * q ^ 4 * (q - 1) ^ 3 * sqrt u1) with (3 / 4 * (3 * (N * B)) * q ^ 4 * (q - 1) ^ 3 * sqrt u1) by field.
      apply Rmult_le_compat_l; [|lra]. repeat apply Rmult_le_pos; try (apply pow_le; lra); try lra.
  Qed.

  (** distances x *)
  Definition fx1 u x := n1 x * line xi th (u ^ 2) x + n x * line1 xi1 th (u ^ 2) x.
  Definition fx2 u x := n2 x * line xi th (u ^ 2) x + 2 * (n1 x * line1 xi1 th (u ^ 2) x) + n x * line2 xi1 xi2 th (u ^ 2) x.
  Definition fx3 u x := n3 x * line xi th (u ^ 2) x + 3 * (n2 x * line1 xi1 th (u ^ 2) x) + 3 * (n1 x * line2 xi1 xi2 th (u ^ 2) x) + n x * line3 xi1 xi2 xi3 th (u ^ 2) x.
  Section AtU.
    Variables (u x : R).
    Hypotheses (Hu : u0 <= u) (Hx : x0 <= x <= x1).
    Let Sx : u0 <= sqrt (u ^ 2 + (th * x) ^ 2). Proof. rewrite <- as_x. eapply Rle_trans; [exact Hu|]. apply sep_ge. lra. Qed.
    Let C : 0 <= u ^ 2. Proof. apply pow2_ge_0. Qed.
    Let LD : is_derive (line xi th (u ^ 2)) x (line1 xi1 th (u ^ 2) x). Proof. eapply line_d; eauto; lra. Qed.
    Let LD1 : is_derive (line1 xi1 th (u ^ 2)) x (line2 xi1 xi2 th (u ^ 2) x). Proof. eapply line1_d; eauto; lra. Qed.
    Let LD2 : is_derive (line2 xi1 xi2 th (u ^ 2)) x (line3 xi1 xi2 xi3 th (u ^ 2) x). Proof. eapply line2_d; eauto; lra. Qed.
    Lemma F_line : F x u = n x * line xi th (u ^ 2) x. Proof. unfold F, line. now rewrite as_x. Qed.
    Lemma mult_d : forall (f g : R -> R) f' g', is_derive f x f' -> is_derive g x g' -> is_derive (fun x => f x * g x) x (f' * g x + f x * g').
    Proof. intros f g f' g' D1 D2. apply (is_derive_mult f g x f' g'); auto. intros; apply Rmult_comm. Qed.
    Lemma fx_d : is_derive (fun x => n x * line xi th (u ^ 2) x) x (fx1 u x).
    Proof. destruct (HN x Hx) as (D & _). apply (mult_d n (line xi th (u ^ 2))); auto. Qed.
    Lemma fx1_d : is_derive (fx1 u) x (fx2 u x).
    Proof.
      destruct (HN x Hx) as (D & D1 & _). unfold fx1. evar_last.
      - apply (is_derive_plus (fun x => n1 x * line xi th (u ^ 2) x) (fun x => n x * line1 xi1 th (u ^ 2) x)); [apply (mult_d n1 (line xi th (u ^ 2))); eauto|apply (mult_d n (line1 xi1 th (u ^ 2))); eauto].
      - unfold plus; simpl. unfold fx2. simpl. ring.
    Qed.
    Lemma fx2_d : is_derive (fx2 u) x (fx3 u x).
    Proof.
      destruct (HN x Hx) as (D & D1 & D2 & _). unfold fx2. evar_last.
      - apply (is_derive_plus (fun x => n2 x * line xi th (u ^ 2) x + 2 * (n1 x * line1 xi1 th (u ^ 2) x)) (fun x => n x * line2 xi1 xi2 th (u ^ 2) x)).
        + apply (is_derive_plus (fun x => n2 x * line xi th (u ^ 2) x) (fun x => 2 * (n1 x * line1 xi1 th (u ^ 2) x))); [apply (mult_d n2 (line xi th (u ^ 2))); eauto|].
          apply is_derive_scal. apply (mult_d n1 (line1 xi1 th (u ^ 2))); eauto.
        + apply (mult_d n (line2 xi1 xi2 th (u ^ 2))); eauto.
      - unfold plus; simpl. unfold fx3. simpl. ring.
    Qed.
    Lemma fx_b : Rabs (n x * line xi th (u ^ 2) x) <= N * B / sqrt u /\ Rabs (fx1 u x) <= 2 * (N * B / sqrt u / ell) /\ Rabs (fx3 u x) <= 10 * (N * B / sqrt u / ell ^ 3).
    Proof.
      destruct (HN x Hx) as (_ & _ & _ & M0 & M1 & M2 & M3). destruct (line_b xi xi1 xi2 xi3 B u0 th (u ^ 2) HX ltac:(lra) T C x Sx ltac:(lra)) as (G0 & G1 & G2 & G3).
      set (s := sqrt (u ^ 2 + (th * x) ^ 2)) in *. assert (US : u <= s) by (unfold s; rewrite <- as_x; apply sep_ge; lra). assert (W := sqrt_lt_R0 u ltac:(lra)). assert (sqrt u <= sqrt s) by (apply sqrt_le_1_alt; auto).
      set (b := B / sqrt u). assert (Hb : B / sqrt s <= b). { unfold b, Rdiv. apply Rmult_le_compat_l; auto. apply Rinv_le_contravar; auto. }
      assert (B0 : 0 <= B / sqrt s) by (apply div_pos; lra). set (e := / ell). assert (E0 : 0 < e) by (apply Rinv_0_lt_compat; lra).
      assert (K : 0 <= th / s <= e).
      { split; [apply div_pos; lra|]. unfold e. assert (TX : th * x <= s). { unfold s. rewrite <- (sqrt_pow2 (th * x)) at 1 by (apply Rmult_le_pos; lra). apply sqrt_le_1_alt. lra. }
        apply (Rmult_le_reg_r (s * ell)); [apply Rmult_lt_0_compat; lra|]. replace (th / s * (s * ell)) with (th * ell) by (field; lra). replace (/ ell * (s * ell)) with s by (field; lra). eapply Rle_trans; [|exact TX]. apply Rmult_le_compat_l; lra. }
      set (g0 := line xi th (u ^ 2) x) in *. set (g1 := line1 xi1 th (u ^ 2) x) in *. set (g2 := line2 xi1 xi2 th (u ^ 2) x) in *. set (g3 := line3 xi1 xi2 xi3 th (u ^ 2) x) in *.
      assert (P0 : Rabs g0 <= b) by lra.
      assert (P1 : Rabs g1 <= b * e) by (eapply Rle_trans; [exact G1|]; apply Rmult_le_compat; lra).
      assert (P2 : Rabs g2 <= b * e ^ 2). { eapply Rle_trans; [exact G2|]. apply Rmult_le_compat; auto; [apply pow2_ge_0|apply pow_incr; lra]. }
      assert (P3 : Rabs g3 <= 3 * (b * e ^ 3)). { eapply Rle_trans; [exact G3|]. apply Rmult_le_compat_l; [lra|]. apply Rmult_le_compat; auto; [apply pow_le; lra|apply pow_incr; lra]. }
      assert (Q1 : Rabs (n1 x) <= N * e) by exact M1.
      assert (Q2 : Rabs (n2 x) <= N * e ^ 2) by (eapply Rle_trans; [exact M2|]; right; unfold e; field; lra).
      assert (Q3 : Rabs (n3 x) <= N * e ^ 3) by (eapply Rle_trans; [exact M3|]; right; unfold e; field; lra).
      assert (R : forall a c A D, Rabs a <= A -> Rabs c <= D -> Rabs (a * c) <= A * D) by (intros; rewrite Rabs_mult; apply Rmult_le_compat; auto; apply Rabs_pos).
      replace (N * B / sqrt u / ell) with (N * b * e) by (unfold b, e; field; lra). replace (N * B / sqrt u / ell ^ 3) with (N * b * e ^ 3) by (unfold b, e; field; lra). replace (N * B / sqrt u) with (N * b) by (unfold b; field; lra).
      unfold fx1, fx3. fold g0 g1 g2 g3. clearbody g0 g1 g2 g3 b e s.
      assert (T00 := R _ _ _ _ M0 P0). assert (T10 := R _ _ _ _ Q1 P0). assert (T01 := R _ _ _ _ M0 P1). assert (T30 := R _ _ _ _ Q3 P0). assert (T21 := R _ _ _ _ Q2 P1). assert (T12 := R _ _ _ _ Q1 P2). assert (T03 := R _ _ _ _ M0 P3).
      replace (N * (b * e)) with (N * b * e) in T01 by ring. replace (N * e * b) with (N * b * e) in T10 by ring. replace (N * e ^ 3 * b) with (N * b * e ^ 3) in T30 by ring.
      replace (N * e ^ 2 * (b * e)) with (N * b * e ^ 3) in T21 by ring. replace (N * e * (b * e ^ 2)) with (N * b * e ^ 3) in T12 by ring. replace (N * (3 * (b * e ^ 3))) with (3 * (N * b * e ^ 3)) in T03 by ring.
      split; [exact T00|]. split.
      - apply Rabs_le_between in T10. apply Rabs_le_between in T01. apply Rabs_le. lra.
      - apply Rabs_le_between in T30. apply Rabs_le_between in T21. apply Rabs_le_between in T12. apply Rabs_le_between in T03. apply Rabs_le. lra.
    Qed.
  End AtU.
  Lemma F_line_all : forall u x, F x u = n x * line xi th (u ^ 2) x.
  Proof. intros u x. unfold F, line. now rewrite as_x. Qed.
  Lemma x_err : forall xs h u, u0 <= u -> (3 <= length xs)%nat -> incr xs -> quasi_uniform xs -> hd 0 xs = x0 -> last xs 0 = x1 -> 0 <= h -> (forall i, (S i < length xs)%nat -> nth (S i) xs 0 - nth i xs 0 <= h) ->
    Rabs (simpx_pts (pts (fun x => F x u) xs) - RInt (fun x => F x u) x0 x1) <= 15 / 4 * (N * B) * (h / ell) ^ 3 * (x1 - x0) * / sqrt u.
  Proof.
    intros xs h u Hu Len I Q H0 H1 Hh G. assert (W := sqrt_lt_R0 u ltac:(lra)).
    assert (K0 : 0 <= N * B / sqrt u / ell ^ 3). { apply div_pos; [apply div_pos; auto; apply Rmult_le_pos; auto|apply pow_lt; lra]. }
    assert (K := c139_simpson_error (fun x => n x * line xi th (u ^ 2) x) (fx1 u) (fx2 u) (10 * (N * B / sqrt u / ell ^ 3)) h xs Len I Q ltac:(lra) Hh G). rewrite H0, H1 in K.
    rewrite simpx_pts_eq in K. unfold pts. rewrite (map_ext _ (fun t => (t, n t * line xi th (u ^ 2) t))) by (intros t; now rewrite F_line_all). rewrite (RInt_ext _ (fun x => n x * line xi th (u ^ 2) x)) by (intros; apply F_line_all).
    eapply Rle_trans; [apply K|].
    - intros s Hs. apply fx_d; auto.
    - intros s Hs. apply fx1_d; auto.
    - intros s t S1 S2 S3. apply (lip_of_derive (fx2 u) (fx3 u)); auto.
      + intros r Hr. apply fx2_d; lra.
      + intros r Hr. apply fx_b; lra.
    - right. field. lra.
  Qed.
  Lemma F_lip : forall u x y, u0 <= u -> x0 <= x -> x <= y -> y <= x1 -> Rabs (F y u - F x u) <= 2 * (N * B / sqrt u0 / ell) * (y - x).
  Proof.
    intros u x y Hu H1 H2 H3. rewrite !F_line_all. apply (lip_of_derive (fun x => n x * line xi th (u ^ 2) x) (fx1 u)); auto.
    - intros r Hr. apply fx_d; lra.
    - intros r Hr. destruct (fx_b u r Hu ltac:(lra)) as (_ & H & _). eapply Rle_trans; [exact H|]. apply Rmult_le_compat_l; [lra|]. unfold Rdiv. apply Rmult_le_compat_r; [left; apply Rinv_0_lt_compat; lra|].
      apply Rmult_le_compat_l; [apply Rmult_le_pos; auto|]. apply Rinv_le_contravar; [apply sqrt_lt_R0; lra|apply sqrt_le_1_alt; lra].
  Qed.
  Lemma ex_x : forall u, u0 <= u -> ex_RInt (fun x => F x u) x0 x1.
  Proof.
    intros u Hu. apply (ex_RInt_ext (fun x => n x * line xi th (u ^ 2) x)); [intros; now rewrite F_line_all|]. apply (ex_RInt_continuous (V := R_CompleteNormedModule)). intros x Hx. rewrite Rmin_left, Rmax_right in Hx by lra.
    apply (ex_derive_continuous (K := R_AbsRing) (V := R_NormedModule)). eexists. apply fx_d; auto.
  Qed.
  Lemma ex_u : forall x, ex_RInt (F x) u0 u1.
  Proof.
    intros x. apply (ex_RInt_continuous (V := R_CompleteNormedModule)). intros u Hu. rewrite Rmin_left, Rmax_right in Hu by lra. apply (ex_derive_continuous (K := R_AbsRing) (V := R_NormedModule)). apply (ex_derive_ext (fun u => n x * line xi 1 ((th * x) ^ 2) u)); [intros t; unfold F, line; now rewrite <- as_u|].
    eexists. apply is_derive_scal. eapply line_d; eauto; try lra; [apply pow2_ge_0|]. rewrite <- as_u. eapply Rle_trans; [|apply sep_ge]; lra.
  Qed.
  Lemma inner_lip : forall x y, x0 <= x -> x <= y -> y <= x1 -> Rabs (RInt (F y) u0 u1 - RInt (F x) u0 u1) <= (u1 - u0) * (2 * (N * B / sqrt u0 / ell) * (y - x)).
  Proof.
    intros x y H1 H2 H3. rewrite <- (RInt_minus (V := R_CompleteNormedModule)) by apply ex_u. apply (abs_RInt_le_const); [lra|apply (ex_RInt_minus (V := R_NormedModule)); apply ex_u|].
    intros t Ht. unfold minus, plus, opp; simpl. apply F_lip; lra.
  Qed.
  (** a function Lipschitz on an interval is integrable there *)
  Lemma ex_of_lip : forall (f : R -> R) K, (forall x y, x0 <= x -> x <= y -> y <= x1 -> Rabs (f y - f x) <= K * (y - x)) -> ex_RInt f x0 x1.
  Proof.
    intros f K H. set (p := fun x => Rmax x0 (Rmin x1 x)). assert (P : forall x, x0 <= p x <= x1) by (intros x; unfold p, Rmax, Rmin; repeat destruct Rle_dec; lra).
    assert (PM : forall x y, x <= y -> p x <= p y /\ p y - p x <= y - x) by (intros x y Hxy; unfold p, Rmax, Rmin; repeat destruct Rle_dec; lra).
    assert (K0 : 0 <= K). { assert (Z := H x0 x1 ltac:(lra) ltac:(lra) ltac:(lra)). assert (0 <= K * (x1 - x0)) by (eapply Rle_trans; [apply Rabs_pos|exact Z]). destruct (Rle_lt_dec 0 K); auto. nra. }
    assert (G : forall x y, Rabs (f (p y) - f (p x)) <= K * Rabs (y - x)).
    { assert (G0 : forall x y, x <= y -> Rabs (f (p y) - f (p x)) <= K * Rabs (y - x)).
      { intros x y Hxy. destruct (PM x y Hxy). eapply Rle_trans; [apply H; try apply P; auto|]. rewrite (Rabs_pos_eq (y - x)) by lra. apply Rmult_le_compat_l; auto. }
      intros x y. destruct (Rle_lt_dec x y); auto. rewrite Rabs_minus_sym, (Rabs_minus_sym y). apply G0. lra. }
    apply (ex_RInt_ext (fun x => f (p x))).
    { intros x Hx. rewrite Rmin_left, Rmax_right in Hx by lra. f_equal. unfold p, Rmax, Rmin. repeat destruct Rle_dec; lra. }
    apply (ex_RInt_continuous (V := R_CompleteNormedModule)). intros x _. apply continuity_pt_filterlim. intros eps He. exists (eps / (K + 1)). split; [apply Rdiv_lt_0_compat; lra|].
    intros y [_ Hy]. unfold dist in *; simpl in *. unfold R_dist in *. eapply Rle_lt_trans; [apply G|]. apply Rle_lt_trans with ((K + 1) * Rabs (y - x)); [apply Rmult_le_compat_r; [apply Rabs_pos|lra]|].
    apply (Rmult_lt_compat_l (K + 1)) in Hy; [|lra]. replace ((K + 1) * (eps / (K + 1))) with eps in Hy by (field; lra). exact Hy.
  Qed.
  Lemma ex_inner : ex_RInt (fun x => RInt (F x) u0 u1) x0 x1.
  Proof. apply (ex_of_lip _ ((u1 - u0) * (2 * (N * B / sqrt u0 / ell)))). intros x y H1 H2 H3. eapply Rle_trans; [apply inner_lip; auto|]. right. ring. Qed.

  (** the sum of 1/sqrt u *)
  Lemma inv_sqrt_sum : forall m q, (3 <= m)%nat -> 1 < q <= 5 / 4 -> q ^ (m - 1) * u0 = u1 -> simpx_pts (pts (fun u => / sqrt u) (logspace u0 u1 m)) <= 3 * sqrt u1.
  Proof.
    intros m q Hm Q E.
    assert (D : forall s, 0 < s -> is_derive (fun u => / sqrt u) s (- / (2 * (s * sqrt s)))).
    { intros s Hs. assert (W := sqrt_lt_R0 s Hs). auto_derive; [split; [lra|split; auto; lra]|]. rewrite <- (sqrt_sqrt s) at 4 by lra. field. lra. }
    assert (D1 : forall s, 0 < s -> is_derive (fun s => - / (2 * (s * sqrt s))) s (3 / (4 * (s ^ 2 * sqrt s)))).
    { intros s Hs. assert (W := sqrt_lt_R0 s Hs). assert (0 < s * sqrt s) by (apply Rmult_lt_0_compat; auto). auto_derive; [split; [lra|split; auto; lra]|]. set (w := sqrt s) in *. assert (Ew : s = w * w) by (unfold w; rewrite sqrt_sqrt; lra). clearbody w. subst s. field. lra. }
    assert (D2 : forall s, 0 < s -> is_derive (fun s => 3 / (4 * (s ^ 2 * sqrt s))) s (- (15 / (8 * (s ^ 3 * sqrt s))))).
    { intros s Hs. assert (W := sqrt_lt_R0 s Hs). assert (0 < s * s * sqrt s) by (repeat apply Rmult_lt_0_compat; auto). auto_derive; [split; [lra|split; auto; nra]|]. set (w := sqrt s) in *. assert (Ew : s = w * w) by (unfold w; rewrite sqrt_sqrt; lra). clearbody w. subst s. field. lra. }
    assert (K := c139_log_grid (fun u => / sqrt u) (fun s => - / (2 * (s * sqrt s))) (fun s => 3 / (4 * (s ^ 2 * sqrt s))) (15 / 8) u0 u1 m q U Hm ltac:(lra) E ltac:(lra)). rewrite simpx_pts_eq in K.
    assert (Z : Rabs (simpx_pts (pts (fun u => / sqrt u) (logspace u0 u1 m)) - RInt (fun u => / sqrt u) u0 u1) <= 3 / 4 * (15 / 8) * q ^ 4 * (q - 1) ^ 3 * (sqrt u1 - sqrt u0)).
    { apply K; [intros; apply D; lra|intros; apply D1; lra|]. intros c s t H1 H2 H3 H4. apply (lip_of_derive (fun s => 3 / (4 * (s ^ 2 * sqrt s))) (fun s => - (15 / (8 * (s ^ 3 * sqrt s))))); auto.
      - intros r Hr. apply D2. lra.
      - intros r Hr. rewrite Rabs_Ropp. assert (0 < c ^ 3) by (apply pow_lt; lra). assert (c ^ 3 <= r ^ 3) by (apply pow_incr; lra). assert (W := sqrt_lt_R0 c ltac:(lra)). assert (sqrt c <= sqrt r) by (apply sqrt_le_1_alt; lra).
        assert (0 < c ^ 3 * sqrt c) by (apply Rmult_lt_0_compat; auto). assert (c ^ 3 * sqrt c <= r ^ 3 * sqrt r) by (apply Rmult_le_compat; lra). rewrite Rabs_pos_eq by (apply div_pos; lra).
        replace (15 / (8 * (r ^ 3 * sqrt r))) with (15 / 8 * / (r ^ 3 * sqrt r)) by (field; split; [apply Rgt_not_eq; apply sqrt_lt_R0; lra|lra]). unfold Rdiv at 2. apply Rmult_le_compat_l; [lra|]. apply Rinv_le_contravar; auto. }
    assert (I : RInt (fun u => / sqrt u) u0 u1 = 2 * sqrt u1 - 2 * sqrt u0).
    { apply (is_RInt_unique (V := R_CompleteNormedModule)). apply (is_RInt_derive (V := R_CompleteNormedModule) (fun u => 2 * sqrt u)).
      - intros x Hx. rewrite Rmin_left, Rmax_right in Hx by lra. assert (W := sqrt_lt_R0 x ltac:(lra)). auto_derive; [lra|]. field. lra.
      - intros x Hx. rewrite Rmin_left, Rmax_right in Hx by lra. apply (ex_derive_continuous (K := R_AbsRing) (V := R_NormedModule)). eexists. apply D. lra. }
    rewrite I in Z. assert (W0 := sqrt_pos u0). assert (W1 : sqrt u0 <= sqrt u1) by (apply sqrt_le_1_alt; lra). apply Rabs_le_between in Z.
    assert (q ^ 4 * (q - 1) ^ 3 <= (5 / 4) ^ 4 * (1 / 4) ^ 3). { apply Rmult_le_compat; try (apply pow_le; lra); apply pow_incr; lra. }
    assert (0 <= q ^ 4 * (q - 1) ^ 3) by (apply Rmult_le_pos; apply pow_le; lra). set (y := q ^ 4 * (q - 1) ^ 3) in *. replace (3 / 4 * (15 / 8) * q ^ 4 * (q - 1) ^ 3 * (sqrt u1 - sqrt u0)) with (45 / 32 * y * (sqrt u1 - sqrt u0)) in Z by (unfold y; field). clearbody y.
    assert (45 / 32 * y <= 1) by lra. assert (45 / 32 * y * (sqrt u1 - sqrt u0) <= sqrt u1 - sqrt u0) by nra. lra.
  Qed.

  Theorem double_err : forall xs h m q, (3 <= length xs)%nat -> incr xs -> quasi_uniform xs -> hd 0 xs = x0 -> last xs 0 = x1 -> 0 <= h -> (forall i, (S i < length xs)%nat -> nth (S i) xs 0 - nth i xs 0 <= h) ->
    (3 <= m)%nat -> 1 < q <= 5 / 4 -> q ^ (m - 1) * u0 = u1 ->
    Rabs (2 * simpx_pts (pts (fun x => simpx_pts (pts (F x) (logspace u0 u1 m))) xs) - 2 * RInt (fun x => RInt (F x) u0 u1) x0 x1)
      <= N * B * sqrt u1 * (x1 - x0) * (23 * (h / ell) ^ 3 + 11 * (q - 1) ^ 3).
  Proof.
    intros xs h m q Len I Q H0 H1 Hh G Hm Hq E. set (us := logspace u0 u1 m). assert (UI : forall v, In v us -> u0 <= v <= u1) by (intros v Hv; apply (logspace_in u0 u1 m); auto; lra).
    assert (QU : quasi_uniform us). { apply logspace_qu; try lra. rewrite <- E. apply Rmult_le_compat_r; [lra|]. apply pow_incr. lra. } assert (IU : incr us) by (apply logspace_incr; lra).
    destruct (simpx_weights us) as (wl & WI & WE). assert (NB : 0 <= N * B) by (apply Rmult_le_pos; auto). assert (W1 := sqrt_pos u1). assert (HE : 0 <= (h / ell) ^ 3) by (apply pow_le, div_pos; lra).
    (* A - B *)
    set (Bm := simpx_pts (pts (fun v => RInt (fun x => F x v) x0 x1) us)).
    assert (AB : Rabs (simpx_pts (pts (fun x => simpx_pts (pts (F x) us)) xs) - Bm) <= 15 / 4 * (N * B) * (h / ell) ^ 3 * (x1 - x0) * (3 * sqrt u1)).
    { assert (EA : simpx_pts (pts (fun x => simpx_pts (pts (F x) us)) xs) = simpx_pts (pts (fun v => simpx_pts (pts (fun x => F x v) xs)) us)).
      { rewrite (WE (fun v => simpx_pts (pts (fun x => F x v) xs))). rewrite <- simpx_wsum. apply simpx_ext. intros t _. apply WE. }
      rewrite EA. unfold Bm. set (p := fun v => simpx_pts (pts (fun x => F x v) xs)). set (r := fun v => RInt (fun x => F x v) x0 x1).
      replace (simpx_pts (pts p us) - simpx_pts (pts r us)) with (simpx_pts (pts (fun v => p v + (-1) * r v) us)) by (rewrite simpx_linear; ring).
      set (cst := 15 / 4 * (N * B) * (h / ell) ^ 3 * (x1 - x0)). assert (C0 : 0 <= cst) by (unfold cst; apply Rmult_le_pos; [apply Rmult_le_pos; [lra|auto]|lra]).
      eapply Rle_trans; [apply (simpx_bound us _ (fun v => cst * / sqrt v)); auto|].
      - intros v Hv. replace (p v + -1 * r v) with (p v - r v) by ring. apply x_err; auto. now apply UI.
      - rewrite simpx_scal. apply Rmult_le_compat_l; auto. apply (inv_sqrt_sum m q); auto. }
    (* B - C *)
    assert (EB : is_RInt (fun x => simpx_pts (pts (F x) us)) x0 x1 Bm).
    { unfold Bm. rewrite WE. apply (is_RInt_ext (fun x => wsum wl (F x))); [intros; symmetry; apply WE|]. apply RInt_wsum. intros p Hp. apply ex_x. apply UI, WI, Hp. }
    set (Cc := RInt (fun x => RInt (F x) u0 u1) x0 x1).
    assert (BC : Rabs (Bm - Cc) <= (x1 - x0) * (9 / 4 * (N * B) * q ^ 4 * (q - 1) ^ 3 * sqrt u1)).
    { assert (D : is_RInt (fun x => minus (simpx_pts (pts (F x) us)) (RInt (F x) u0 u1)) x0 x1 (minus Bm Cc)) by (apply (is_RInt_minus (V := R_NormedModule)); [exact EB|apply (RInt_correct (V := R_CompleteNormedModule)); exact ex_inner]).
      change (Bm - Cc) with (minus Bm Cc). rewrite <- (is_RInt_unique (V := R_CompleteNormedModule) _ _ _ _ D). apply abs_RInt_le_const; [lra|eexists; exact D|]. intros x Hx. change (Rabs (simpx_pts (pts (F x) us) - RInt (F x) u0 u1) <= 9 / 4 * (N * B) * q ^ 4 * (q - 1) ^ 3 * sqrt u1). apply u_err; auto; lra. }
    assert (Q4 : q ^ 4 <= (5 / 4) ^ 4) by (apply pow_incr; lra). assert (Q40 : 0 <= q ^ 4) by (apply pow_le; lra). assert (Q3 : 0 <= (q - 1) ^ 3) by (apply pow_le; lra).
    set (Y := N * B * sqrt u1 * (x1 - x0)). assert (Y0 : 0 <= Y) by (unfold Y; apply Rmult_le_pos; [apply Rmult_le_pos; auto|lra]).
    replace (15 / 4 * (N * B) * (h / ell) ^ 3 * (x1 - x0) * (3 * sqrt u1)) with (45 / 4 * (Y * (h / ell) ^ 3)) in AB by (unfold Y; field; lra).
    replace ((x1 - x0) * (9 / 4 * (N * B) * q ^ 4 * (q - 1) ^ 3 * sqrt u1)) with (9 / 4 * q ^ 4 * (Y * (q - 1) ^ 3)) in BC by (unfold Y; ring).
    assert (YH : 0 <= Y * (h / ell) ^ 3) by (apply Rmult_le_pos; auto). assert (YQ : 0 <= Y * (q - 1) ^ 3) by (apply Rmult_le_pos; auto).
    assert (BC' : 9 / 4 * q ^ 4 * (Y * (q - 1) ^ 3) <= 11 / 2 * (Y * (q - 1) ^ 3)) by (apply Rmult_le_compat_r; auto; lra).
    set (A := simpx_pts (pts (fun x => simpx_pts (pts (F x) us)) xs)) in *. replace (2 * A - 2 * Cc) with (2 * ((A - Bm) + (Bm - Cc))) by ring. rewrite Rabs_mult, (Rabs_pos_eq 2) by lra.
    assert (Z := Rabs_triang (A - Bm) (Bm - Cc)). rewrite Rmult_plus_distr_l. replace (Y * (23 * (h / ell) ^ 3)) with (23 * (Y * (h / ell) ^ 3)) by ring. replace (Y * (11 * (q - 1) ^ 3)) with (11 * (Y * (q - 1) ^ 3)) by ring. lra.
  Qed.
End Double.
