(** Error of the trapezoidal rule and of scipy's Simpson rule for integrals over the logarithm of the mass. *)
From Coq Require Import Reals List Bool Arith Lia Lra Psatz.
From Coquelicot Require Import Coquelicot.
From Verif Require Import Model.RBool Model.Quad Spec.MassIntegralSpec Proofs.Calc Proofs.SimpsonError2.
Local Open Scope R_scope.

Section Cell.
  Variables (f f1 f2 : R -> R) (K a b : R).
  Hypothesis AB : a <= b.
  Hypothesis D : forall x, a <= x <= b -> is_derive f x (f1 x) /\ is_derive f1 x (f2 x) /\ Rabs (f2 x) <= K.
  Lemma fcont : forall x, a <= x <= b -> continuous f x.
  Proof. intros x Hx. apply (ex_derive_continuous (K := R_AbsRing) (V := R_NormedModule)). exists (f1 x). now apply D. Qed.
  Lemma fint : forall x y, a <= x -> x <= y -> y <= b -> ex_RInt f x y.
  Proof. intros x y A B C. apply (ex_RInt_continuous (V := R_CompleteNormedModule)). rewrite Rmin_left, Rmax_right by auto. intros z Hz. apply fcont. lra. Qed.
  (** second-order Taylor remainder *)
  Lemma grow : forall x y, a <= x -> x <= y -> y <= b -> Rabs (f1 y - f1 x) <= K * (y - x).
  Proof.
    intros x y A B C. destruct (Req_dec x y) as [<-|N]; [rewrite Rminus_eq_0, Rabs_R0; assert (X := proj2 (proj2 (D x ltac:(lra)))); assert (Y := Rabs_pos (f2 x)); nra|].
    destruct (mvt f1 f2 x y ltac:(lra) ltac:(intros z Hz; apply D; lra)) as [c [Hc E]]. rewrite E, Rabs_mult, (Rabs_right (y - x)) by lra. apply Rmult_le_compat_r; [lra|]. apply D. lra.
  Qed.
  Lemma Kpos : 0 <= K.
  Proof. eapply Rle_trans; [apply Rabs_pos|apply (D a); lra]. Qed.
End Cell.

(** the trapezium over one cell: the error of (b - a)(f(a) + f(b))/2 is at most K (b - a)^3 / 12 *)
Lemma trapezium : forall (f f1 f2 : R -> R) K a b, a <= b -> (forall x, a <= x <= b -> is_derive f x (f1 x) /\ is_derive f1 x (f2 x) /\ Rabs (f2 x) <= K) ->
  Rabs ((b - a) * (f a + f b) / 2 - RInt f a b) <= K * (b - a) ^ 3 / 12.
Proof.
  intros f f1 f2 K a b AB D. destruct (Req_dec a b) as [<-|NE].
  { rewrite RInt_point, Rminus_eq_0. change (zero : R_CompleteNormedModule) with 0. rewrite Rmult_0_l. unfold Rdiv. rewrite Rmult_0_l, Rminus_0_r, Rabs_R0. simpl. lra. }
  assert (LT : a < b) by lra.
  assert (FC := fcont f f1 f2 K a b D). assert (FI := fint f f1 f2 K a b D).
  (* extend f continuously so that the integral can be differentiated at the ends *)
  set (g := fun t => f (Rmin (Rmax t a) b)).
  assert (GC : forall t, continuous g t).
  { intros t. unfold g. apply (continuous_comp (fun t => Rmin (Rmax t a) b) f).
    - apply continuity_pt_filterlim. assert (C1 : forall u, continuity_pt (fun t => Rmax t a) u).
      { intros u. apply (continuity_pt_ext (fun t => (t + a + Rabs (t - a)) / 2)).
        - intros v. unfold Rmax, Rabs. destruct (Rle_dec v a), (Rcase_abs (v - a)); lra.
        - unfold Rdiv. apply continuity_pt_mult; [|apply continuity_pt_const; intros ? ?; reflexivity]. apply continuity_pt_plus.
          + apply continuity_pt_plus; [apply continuity_pt_id|apply continuity_pt_const; intros ? ?; reflexivity].
          + apply (continuity_pt_comp (fun t => t - a) Rabs); [apply continuity_pt_minus; [apply continuity_pt_id|apply continuity_pt_const; intros ? ?; reflexivity]|apply Rcontinuity_abs]. }
      apply (continuity_pt_ext (fun t => (Rmax t a + b - Rabs (Rmax t a - b)) / 2)).
      + intros v. generalize (Rmax v a). intros w. unfold Rmin, Rabs. destruct (Rle_dec w b), (Rcase_abs (w - b)); lra.
      + unfold Rdiv. apply continuity_pt_mult; [|apply continuity_pt_const; intros ? ?; reflexivity]. apply continuity_pt_minus.
        * apply continuity_pt_plus; [apply C1|apply continuity_pt_const; intros ? ?; reflexivity].
        * apply (continuity_pt_comp (fun t => Rmax t a - b) Rabs); [apply continuity_pt_minus; [apply C1|apply continuity_pt_const; intros ? ?; reflexivity]|apply Rcontinuity_abs].
    - apply FC. unfold Rmin, Rmax. destruct (Rle_dec t a), (Rle_dec _ b); lra. }
  assert (GE : forall t, a <= t <= b -> g t = f t) by (intros t Ht; unfold g; rewrite Rmax_left, Rmin_left by lra; reflexivity).
  assert (IE : RInt f a b = RInt g a b).
  { apply RInt_ext. rewrite Rmin_left, Rmax_right by lra. intros t Ht. symmetry. apply GE. lra. }
  rewrite IE.
  assert (DI : forall t, is_derive (fun t => RInt g a t) t (g t)).
  { intros t. apply (is_derive_RInt (V := R_CompleteNormedModule) g (fun t => RInt g a t) a t); [|apply GC]. exists (mkposreal 1 ltac:(lra)). intros s _. apply (RInt_correct (V := R_CompleteNormedModule)). apply (ex_RInt_continuous (V := R_CompleteNormedModule)). intros; apply GC. }
  (* e(t) = (t - a)(f(a) + f(t))/2 - int; e' = (f(a) - f(t) + (t - a) f1(t))/2; |e'| <= K (t - a)^2 / 4 *)
  assert (E1 : forall t, a <= t <= b -> is_derive (fun t => (t - a) * (f a + f t) / 2 - RInt g a t) t ((f a - f t + (t - a) * f1 t) / 2)).
  { intros t Ht. assert (X := DI t). rewrite (GE t Ht) in X. destruct (D t Ht) as [Y _].
    replace ((f a - f t + (t - a) * f1 t) / 2) with (minus ((1 * (f a + f t) + (t - a) * f1 t) / 2) (f t)) by (unfold minus, plus, opp; simpl; field).
    apply (is_derive_minus (V := R_NormedModule)); [|exact X]. auto_derive; [exists (f1 t); exact Y|]. replace (Derive (fun x => f x) t) with (f1 t) by (symmetry; now apply is_derive_unique). field. }
  assert (E2 : forall t, a <= t <= b -> Rabs (f a - f t + (t - a) * f1 t) <= K * (t - a) ^ 2 / 2).
  { intros t Ht. set (w := fun s => f a - f s + (s - a) * f1 s).
    assert (DW : forall s, a <= s <= b -> is_derive w s ((s - a) * f2 s)).
    { intros s Hs. destruct (D s Hs) as [Y [Z _]]. unfold w. auto_derive; [split; [exists (f1 s); exact Y|split; [exists (f2 s); exact Z|auto]]|].
      replace (Derive (fun x => f x) s) with (f1 s) by (symmetry; now apply is_derive_unique). replace (Derive (fun x => f1 x) s) with (f2 s) by (symmetry; now apply is_derive_unique). ring. }
    assert (W0 : w a = 0) by (unfold w; ring). fold (w t).
    assert (U : w a + K * (a - a) ^ 2 / 2 <= w t + K * (t - a) ^ 2 / 2).
    { apply (mono_of_derive (fun s => w s + K * (s - a) ^ 2 / 2) (fun s => (s - a) * f2 s + K * (s - a))); [lra| |].
      - intros s Hs. apply (is_derive_plus (V := R_NormedModule)); [apply DW; lra|]. auto_derive; auto. field.
      - intros s Hs. destruct (D s ltac:(lra)) as [_ [_ B]]. apply Rabs_le_between in B. nra. }
    assert (V : K * (a - a) ^ 2 / 2 - w a <= K * (t - a) ^ 2 / 2 - w t).
    { apply (mono_of_derive (fun s => K * (s - a) ^ 2 / 2 - w s) (fun s => K * (s - a) - (s - a) * f2 s)); [lra| |].
      - intros s Hs. apply (is_derive_minus (V := R_NormedModule)); [auto_derive; auto; field|apply DW; lra].
      - intros s Hs. destruct (D s ltac:(lra)) as [_ [_ B]]. apply Rabs_le_between in B. nra. }
    rewrite W0 in *. replace (K * (a - a) ^ 2 / 2) with 0 in * by field. apply Rabs_le. lra. }
  set (e := fun t => (t - a) * (f a + f t) / 2 - RInt g a t) in *. fold (e b).
  assert (e0 : e a = 0). { unfold e. rewrite RInt_point. change (zero : R_CompleteNormedModule) with 0. field. }
  assert (U : e a + K * (a - a) ^ 3 / 12 <= e b + K * (b - a) ^ 3 / 12).
  { apply (mono_of_derive (fun s => e s + K * (s - a) ^ 3 / 12) (fun s => (f a - f s + (s - a) * f1 s) / 2 + K * (s - a) ^ 2 / 4)); [lra| |].
    - intros s Hs. apply (is_derive_plus (V := R_NormedModule)); [apply E1; lra|]. auto_derive; auto. field.
    - intros s Hs. assert (B := E2 s Hs). apply Rabs_le_between in B. lra. }
  assert (V : K * (a - a) ^ 3 / 12 - e a <= K * (b - a) ^ 3 / 12 - e b).
  { apply (mono_of_derive (fun s => K * (s - a) ^ 3 / 12 - e s) (fun s => K * (s - a) ^ 2 / 4 - (f a - f s + (s - a) * f1 s) / 2)); [lra| |].
    - intros s Hs. apply (is_derive_minus (V := R_NormedModule)); [auto_derive; auto; field|apply E1; lra].
    - intros s Hs. assert (B := E2 s Hs). apply Rabs_le_between in B. lra. }
  rewrite e0 in *. replace (K * (a - a) ^ 3 / 12) with 0 in * by field. apply Rabs_le. lra.
Qed.

(** ** sums over a grid *)
Lemma sum_over_S : forall k (f : nat -> R), sum_over (seq 0 (S k)) f = sum_over (seq 0 k) f + f k.
Proof. intros. unfold sum_over, lsum. rewrite seq_S, map_app, fold_right_app. simpl. set (l := map f (seq 0 k)). clearbody l. induction l; simpl; [ring|]. rewrite IHl. ring. Qed.

Section Grid.
  Variables (f f1 f2 : R -> R) (K lo hi h : R) (n : nat).
  Hypothesis D : forall x, lo <= x <= hi -> is_derive f x (f1 x) /\ is_derive f1 x (f2 x) /\ Rabs (f2 x) <= K.
  Hypothesis H0 : 0 <= h.
  Let x (i : nat) := lo + INR i * h.
  Hypothesis TOP : x (n - 1) = hi.
  Hypothesis N1 : (1 <= n)%nat.
  Lemma gx : forall i, (i <= n - 1)%nat -> lo <= x i <= hi.
  Proof.
    intros i Hi. split; [unfold x; assert (0 <= INR i) by apply pos_INR; nra|]. rewrite <- TOP. unfold x. apply Rplus_le_compat_l, Rmult_le_compat_r; auto. now apply le_INR.
  Qed.
  Lemma trap_err : forall k, (k <= n - 1)%nat -> Rabs (cumulative_trapezoid h (fun i => f (x i)) k - RInt f lo (x k)) <= K * h ^ 2 / 12 * (INR k * h).
  Proof.
    unfold cumulative_trapezoid. induction k as [|k IH]; intros Hk.
    - change (sum_over (seq 0 0) _) with 0. replace (x 0) with lo by (unfold x; simpl; ring). rewrite (RInt_point (V:=R_CompleteNormedModule)). change (zero : R_CompleteNormedModule) with 0. rewrite Rminus_0_r, Rabs_R0. change (INR 0) with 0. lra.
    - specialize (IH ltac:(lia)). rewrite sum_over_S. assert (A := gx k ltac:(lia)). assert (B := gx (S k) ltac:(lia)). assert (XS : x (S k) = x k + h) by (unfold x; rewrite S_INR; ring).
      assert (LO : lo <= hi) by (eapply Rle_trans; apply A).
      assert (FI := fint f f1 f2 K lo hi D). rewrite <- (RInt_Chasles (V:=R_CompleteNormedModule) f lo (x k) (x (S k))) by (apply FI; lra).
      match goal with |- Rabs (_ - plus ?p ?q) <= _ => change (plus p q) with (p + q) end.
      assert (T := trapezium f f1 f2 K (x k) (x (S k)) ltac:(lra) ltac:(intros; apply D; lra)). replace (x (S k) - x k) with h in T by lra.
      match type of IH with Rabs (?s - ?J) <= _ => set (sk := s) in *; set (J1 := J) in * end. set (J2 := RInt f (x k) (x (S k))) in *. rewrite S_INR.
      apply Rabs_le_between in T. apply Rabs_le_between in IH. apply Rabs_le. lra.
  Qed.
  Lemma simp_err : (3 <= n)%nat -> Rabs (scipy_simpson n h (fun i => f (x i)) - RInt f lo hi) <= 3 / 2 * K * h ^ 2 * (hi - lo).
  Proof.
    intros N. assert (LO : lo <= hi) by (eapply Rle_trans; apply (gx 0); lia). assert (FI := fint f f1 f2 K lo hi D). assert (HK := Kpos f f1 f2 K lo hi LO D).
    assert (rem : forall s t, lo <= s <= hi -> lo <= t <= hi -> Rabs (f s - f t - f1 t * (s - t)) <= K * (s - t) ^ 2).
    { intros s t S T. destruct (Rtotal_order s t) as [L|[<-|L]].
      - destruct (mvt f f1 s t L ltac:(intros; apply D; lra)) as [c [C E]]. assert (G := grow f f1 f2 K lo hi D c t ltac:(lra) ltac:(lra) ltac:(lra)).
        replace (f s - f t - f1 t * (s - t)) with ((f1 t - f1 c) * (t - s)) by lra. rewrite Rabs_mult, (Rabs_right (t - s)) by lra. apply Rle_trans with (K * (t - s) * (t - s)); [apply Rmult_le_compat_r; [lra|]; eapply Rle_trans; [exact G|]; apply Rmult_le_compat_l; lra|right; ring].
      - replace (f s - f s - f1 s * (s - s)) with 0 by ring. rewrite Rabs_R0. apply Rmult_le_pos; auto. apply pow2_ge_0.
      - destruct (mvt f f1 t s L ltac:(intros; apply D; lra)) as [c [C E]]. assert (G := grow f f1 f2 K lo hi D t c ltac:(lra) ltac:(lra) ltac:(lra)).
        replace (f s - f t - f1 t * (s - t)) with ((f1 c - f1 t) * (s - t)) by lra. rewrite Rabs_mult, (Rabs_right (s - t)) by lra. apply Rle_trans with (K * (s - t) * (s - t)); [apply Rmult_le_compat_r; [lra|]; eapply Rle_trans; [exact G|]; apply Rmult_le_compat_l; lra|right; ring]. }
    assert (X := simpson_err2 f f1 K lo hi HK (FI lo hi ltac:(lra) LO ltac:(lra)) rem h n H0 (Req_le _ _ TOP) N). fold x in X. cbv beta in X.
    change (lo + INR (n - 1) * h) with (x (n - 1)) in X. rewrite TOP in X. replace (INR (n - 1) * h) with (hi - lo) in X by (rewrite <- TOP; unfold x; ring). exact X.
  Qed.
End Grid.

(** ** from the logarithm to the mass *)
Lemma over_mass_log : forall F K m0 m1, 0 < m0 <= m1 -> curvature F K m0 m1 -> over_mass F m0 m1 = RInt (fun y => exp y * F (exp y)) (ln m0) (ln m1).
Proof.
  intros F K m0 m1 [P L] [G1 [G2 C]]. unfold over_mass. assert (LL : ln m0 <= ln m1) by (apply ln_le; lra).
  transitivity (RInt F (exp (ln m0)) (exp (ln m1))); [now rewrite !exp_ln by lra|]. symmetry.
  apply (RInt_comp (V := R_CompleteNormedModule) F exp exp (ln m0) (ln m1)).
  - rewrite Rmin_left, Rmax_right by auto. intros x Hx. destruct (C x Hx) as [D _].
    apply (continuous_ext_loc _ (fun m => (exp (ln m) * F (exp (ln m))) * / m)).
    + exists (mkposreal (exp x) (exp_pos x)). intros m Hm. assert (PM : 0 < m). { unfold ball in Hm. simpl in Hm. unfold AbsRing_ball, abs, minus, plus, opp in Hm. simpl in Hm. apply Rabs_lt_between in Hm. lra. }
      rewrite exp_ln by auto. apply (Rmult_eq_reg_r m); [|lra]. rewrite Rmult_assoc, Rinv_l by lra. ring.
    + apply (continuous_mult (fun m => exp (ln m) * F (exp (ln m))) (fun m => / m)).
      * apply (continuous_comp ln (fun y => exp y * F (exp y))).
        { apply (ex_derive_continuous (K := R_AbsRing) (V := R_NormedModule)). auto_derive. apply exp_pos. }
        rewrite ln_exp. apply (ex_derive_continuous (K := R_AbsRing) (V := R_NormedModule)). eexists; exact D.
      * apply (ex_derive_continuous (K := R_AbsRing) (V := R_NormedModule)). auto_derive. assert (Q := exp_pos x). lra.
  - intros x _. split; [auto_derive; auto; ring|]. apply (ex_derive_continuous (K := R_AbsRing) (V := R_NormedModule)). auto_derive. auto.
Qed.

Section Masses.
  Variables (F : R -> R) (K m0 dx : R) (n : nat) (m : nat -> R).
  Hypothesis P : 0 < m0.
  Hypothesis DX : 0 < dx.
  Hypothesis LM : log_masses n m m0 dx.
  Hypothesis N1 : (1 <= n)%nat.
  Let m1 := m (n - 1)%nat.
  Lemma top_ln : ln m0 + INR (n - 1) * dx = ln m1.
  Proof. unfold m1. rewrite LM by lia. rewrite ln_mult, ln_exp; auto. apply exp_pos. Qed.
  Lemma top_le : 0 < m0 <= m1.
  Proof.
    split; auto. unfold m1. rewrite LM by lia. assert (Q : 1 <= exp (INR (n - 1) * dx)). { assert (X := exp_ineq1_le (INR (n - 1) * dx)). assert (Y : 0 <= INR (n - 1)) by apply pos_INR. assert (0 <= INR (n - 1) * dx) by (apply Rmult_le_pos; lra). lra. } nra.
  Qed.
  Lemma node : forall i, (i < n)%nat -> exp (ln m0 + INR i * dx) = m i.
  Proof. intros i Hi. rewrite exp_plus, exp_ln, LM by auto. reflexivity. Qed.
  Lemma mass_trapezoid : curvature F K m0 m1 ->
    Rabs (cumulative_trapezoid dx (fun i => m i * F (m i)) (n - 1) - over_mass F m0 m1) <= K * dx ^ 2 / 12 * (ln m1 - ln m0).
  Proof.
    intros C. rewrite (over_mass_log F K) by (auto using top_le). destruct C as [G1 [G2 C]]. rewrite <- top_ln in C.
    assert (X := trap_err (fun y => exp y * F (exp y)) G1 G2 K (ln m0) (ln m0 + INR (n - 1) * dx) dx n C ltac:(lra) eq_refl N1 (n - 1)%nat ltac:(lia)).
    cbv beta in X. change ((fun i : nat => ln m0 + INR i * dx) (n - 1)%nat) with (ln m0 + INR (n - 1) * dx) in X. rewrite top_ln in X. replace (INR (n - 1) * dx) with (ln m1 - ln m0) in X by (rewrite <- top_ln; ring).
    replace (cumulative_trapezoid dx (fun i => m i * F (m i)) (n - 1)) with (cumulative_trapezoid dx (fun i => exp (ln m0 + INR i * dx) * F (exp (ln m0 + INR i * dx))) (n - 1)); [exact X|].
    unfold cumulative_trapezoid, sum_over. f_equal. apply map_ext_in. intros i Hi. apply in_seq in Hi. rewrite !node by lia. reflexivity.
  Qed.
  Lemma mass_simpson : (3 <= n)%nat -> curvature F K m0 m1 ->
    Rabs (scipy_simpson n dx (fun i => m i * F (m i)) - over_mass F m0 m1) <= 3 / 2 * K * dx ^ 2 * (ln m1 - ln m0).
  Proof.
    intros N C. rewrite (over_mass_log F K) by (auto using top_le). destruct C as [G1 [G2 C]]. rewrite <- top_ln in C.
    assert (X := simp_err (fun y => exp y * F (exp y)) G1 G2 K (ln m0) (ln m0 + INR (n - 1) * dx) dx n C ltac:(lra) eq_refl N1 N). rewrite top_ln in X.
    replace (scipy_simpson n dx (fun i => m i * F (m i))) with (scipy_simpson n dx (fun i => exp (ln m0 + INR i * dx) * F (exp (ln m0 + INR i * dx)))); [exact X|].
    unfold scipy_simpson, sum_over. do 2 f_equal. apply map_ext_in. intros i Hi. apply in_seq in Hi. rewrite !node by lia. reflexivity.
  Qed.
End Masses.
