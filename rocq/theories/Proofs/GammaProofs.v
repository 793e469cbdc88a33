(** Improper integrals: domination, Gamma kernel, and its sine and cosine transforms. *)
From Coq Require Import Reals Lra Lia.
From Coquelicot Require Import Coquelicot.
From Verif Require Import Spec.GammaSpec Proofs.Calc Proofs.BiasProofs.
Local Open Scope R_scope.
Notation imp := half_line_integral.

Lemma imp_iff : forall f v, (forall x, 0 < x -> continuous f x) ->
  (imp f v <-> forall eps, 0 < eps -> exists d M, 0 < d /\ 0 < M /\ d < M /\ forall a b, 0 < a < d -> M < b -> Rabs (RInt f a b - v) < eps).
Proof.
  intros f v C. assert (EX : forall a b, 0 < a -> 0 < b -> ex_RInt f a b). { intros a b A B. apply (ex_RInt_continuous (V:=R_CompleteNormedModule)). intros z Hz. apply C. apply Rlt_le_trans with (Rmin a b); [apply Rmin_pos; auto|tauto]. } split.
  - intros H eps He. specialize (H (ball v (mkposreal eps He)) (locally_ball _ _)). destruct H as [Q R [d HQ] [M HR] H]. 
    exists (Rmin d 1), (Rmax M 2). assert (A := cond_pos d). assert (B1 := Rmin_l d 1). assert (B2 := Rmin_r d 1). assert (C1 := Rmax_l M 2). assert (C2 := Rmax_r M 2).
    split; [apply Rmin_pos; lra|]. split; [lra|]. split; [lra|]. intros a b Ha Hb. destruct (H a b) as [y [Y1 Y2]].
    + apply HQ; [|lra]. unfold ball; simpl; unfold AbsRing_ball, abs, minus, plus, opp; simpl. rewrite Rabs_pos_eq; lra.
    + apply HR. lra.
    + simpl in Y1. rewrite (is_RInt_unique (V:=R_CompleteNormedModule) _ _ _ _ Y1). exact Y2.
  - intros H P [e HP]. destruct (H e (cond_pos e)) as [d [M [D [MM [_ K]]]]]. apply (Filter_prod _ _ _ (fun a => 0 < a < d) (fun b => M < b)).
    + exists (mkposreal d D). intros y Hy Hy2. unfold ball in Hy; simpl in Hy; unfold AbsRing_ball, abs, minus, plus, opp in Hy; simpl in Hy. rewrite Rabs_pos_eq in Hy; lra.
    + exists M. auto.
    + intros a b Ha Hb. exists (RInt f a b). split; [apply (RInt_correct (V:=R_CompleteNormedModule)), EX; lra|]. apply HP. apply K; auto.
Qed.
Lemma imp_scal : forall f k v, imp f v -> imp (fun x => k * f x) (k * v).
Proof. intros f k v H. exact (is_RInt_gen_scal f k v H). Qed.
Lemma imp_plus : forall f g u v, imp f u -> imp g v -> imp (fun x => f x + g x) (u + v).
Proof. intros f g u v H1 H2. exact (is_RInt_gen_plus f g u v H1 H2). Qed.
Lemma imp_minus : forall f g u v, imp f u -> imp g v -> imp (fun x => f x - g x) (u - v).
Proof. intros f g u v H1 H2. exact (is_RInt_gen_minus f g u v H1 H2). Qed.
Lemma prod_pos : forall P : R * R -> Prop, (forall a b, 0 < a -> a < 1 -> 1 < b -> P (a, b)) -> filter_prod (at_right 0) (Rbar_locally p_infty) P.
Proof.
  intros P H. apply (Filter_prod _ _ _ (fun a => 0 < a < 1) (fun b => 1 < b)).
  - exists (mkposreal 1 Rlt_0_1). intros y Hy Hy2. unfold ball in Hy; simpl in Hy; unfold AbsRing_ball, abs, minus, plus, opp in Hy; simpl in Hy. rewrite Rabs_pos_eq in Hy; lra.
  - exists 1. auto.
  - intros a b Ha Hb. apply H; lra.
Qed.
Lemma imp_ext : forall f g v, (forall x, 0 < x -> f x = g x) -> imp f v -> imp g v.
Proof.
  intros f g v H. refine (@is_RInt_gen_ext R_NormedModule (at_right 0) (Rbar_locally p_infty) _ _ f g v _). apply prod_pos. intros a b A B C x Hx. simpl in Hx. rewrite Rmin_left in Hx by lra. apply H. lra.
Qed.
Lemma imp_unique : forall f u v, imp f u -> imp f v -> u = v.
Proof. intros f u v H1 H2. rewrite <- (is_RInt_gen_unique (V:=R_CompleteNormedModule) f u H1). apply (is_RInt_gen_unique (V:=R_CompleteNormedModule) f v H2). Qed.
Lemma imp_bound : forall f g u v, (forall x, 0 < x -> Rabs (f x) <= g x) -> imp f u -> imp g v -> Rabs u <= v.
Proof.
  intros f g u v H. refine (@RInt_gen_norm R_CompleteNormedModule (at_right 0) (Rbar_locally p_infty) _ _ f g u v _ _).
  - apply prod_pos. intros; simpl; lra.
  - apply prod_pos. intros a b A B C x Hx. simpl in Hx. apply H. lra.
Qed.
(** fundamental theorem *)
Lemma imp_ftc : forall F f la lb, (forall x, 0 < x -> is_derive F x (f x)) -> (forall x, 0 < x -> continuous f x) ->
  filterlim F (at_right 0) (locally la) -> filterlim F (Rbar_locally p_infty) (locally lb) -> imp f (lb - la).
Proof.
  intros F f la lb D C A B. apply imp_ext with (Derive F). { intros x Hx. apply is_derive_unique. auto. }
  refine (@is_RInt_gen_Derive (at_right 0) (Rbar_locally p_infty) _ _ F la lb _ _ A B); apply prod_pos; intros a b Ha Hb Hc x Hx; simpl in Hx; rewrite Rmin_left in Hx by lra.
  - exists (f x). apply D. lra.
  - apply continuous_ext_loc with f. 2: apply C; lra. assert (P : 0 < x) by lra. exists (mkposreal x P). intros y Hy. unfold ball in Hy; simpl in Hy; unfold AbsRing_ball, abs, minus, plus, opp in Hy; simpl in Hy. symmetry. apply is_derive_unique. apply D. apply Rabs_def2 in Hy. lra.
Qed.
(** domination *)
Lemma imp_dom : forall f g v, (forall x, 0 < x -> continuous f x) -> (forall x, 0 < x -> continuous g x) -> (forall x, 0 < x -> Rabs (f x) <= g x) -> imp g v -> exists u, imp f u.
Proof.
  intros f g v Cf Cg B G. rewrite imp_iff in G by auto.
  assert (EX : forall h, (forall x, 0 < x -> continuous h x) -> forall a b, 0 < a -> 0 < b -> ex_RInt (V:=R_NormedModule) h a b). { intros h C a b A BB. apply (ex_RInt_continuous (V:=R_CompleteNormedModule)). intros z Hz. apply C. apply Rlt_le_trans with (Rmin a b); [apply Rmin_pos; auto|tauto]. }
  assert (CH : forall h, (forall x, 0 < x -> continuous h x) -> forall a b c, 0 < a -> 0 < b -> 0 < c -> RInt h a b + RInt h b c = RInt h a c). { intros h C a b c A BB CC. apply (RInt_Chasles (V:=R_CompleteNormedModule)); apply EX; auto. }
  assert (DOM : forall a b, 0 < a -> a <= b -> Rabs (RInt f a b) <= RInt g a b).
  { intros a b A L. apply (norm_RInt_le (V:=R_NormedModule) f g a b); auto; [intros x Hx; apply B; lra| |]; apply (RInt_correct (V:=R_CompleteNormedModule)), EX; auto; lra. }
  assert (CAU : exists y, filterlim (fun ab => RInt f (fst ab) (snd ab)) (filter_prod (at_right 0) (Rbar_locally p_infty)) (locally y)).
  { apply (filterlim_locally_cauchy (U:=R_CompleteSpace)). intros eps. assert (E4 : 0 < eps / 4) by (assert (Q := cond_pos eps); lra). destruct (G (eps / 4) E4) as [d [M [D [MM [DM K]]]]].
    exists (fun ab => 0 < fst ab < d /\ M < snd ab). split.
    - apply (Filter_prod _ _ _ (fun a => 0 < a < d) (fun b => M < b)); [|exists M; auto|simpl; auto].
      exists (mkposreal d D). intros y Hy Hy2. unfold ball in Hy; simpl in Hy; unfold AbsRing_ball, abs, minus, plus, opp in Hy; simpl in Hy. rewrite Rabs_pos_eq in Hy; lra.
    - assert (TAILL : forall a a', 0 < a < d -> 0 < a' < d -> a <= a' -> RInt g a a' < eps / 2).
      { intros a a' A A' L. assert (K1 := K a (M + 1) A ltac:(lra)). assert (K2 := K a' (M + 1) A' ltac:(lra)). assert (Q := CH g Cg a a' (M + 1) ltac:(lra) ltac:(lra) ltac:(lra)). apply Rabs_def2 in K1. apply Rabs_def2 in K2. lra. }
      assert (TAILR : forall b b', M < b -> M < b' -> b <= b' -> RInt g b b' < eps / 2).
      { intros b b' A A' L. assert (K1 := K (d / 2) b ltac:(lra) A). assert (K2 := K (d / 2) b' ltac:(lra) A'). assert (Q := CH g Cg (d / 2) b b' ltac:(lra) ltac:(lra) ltac:(lra)). apply Rabs_def2 in K1. apply Rabs_def2 in K2. lra. }
      assert (FL : forall a a', 0 < a < d -> 0 < a' < d -> Rabs (RInt f a a') < eps / 2).
      { intros a a' A A'. destruct (Rle_dec a a') as [L|L].
        - eapply Rle_lt_trans; [apply DOM; lra|]. apply TAILL; auto.
        - rewrite <- (opp_RInt_swap (V:=R_CompleteNormedModule) f a' a). 2: apply EX; auto; lra. unfold opp; simpl. rewrite Rabs_Ropp. eapply Rle_lt_trans; [apply DOM; lra|]. apply TAILL; auto; lra. }
      assert (FR : forall b b', M < b -> M < b' -> Rabs (RInt f b b') < eps / 2).
      { intros a a' A A'. destruct (Rle_dec a a') as [L|L].
        - eapply Rle_lt_trans; [apply DOM; lra|]. apply TAILR; auto.
        - rewrite <- (opp_RInt_swap (V:=R_CompleteNormedModule) f a' a). 2: apply EX; auto; lra. unfold opp; simpl. rewrite Rabs_Ropp. eapply Rle_lt_trans; [apply DOM; lra|]. apply TAILR; auto; lra. }
      intros [a b] [a' b'] [A1 A2] [A3 A4]. simpl in *. unfold ball; simpl; unfold AbsRing_ball, abs, minus, plus, opp; simpl.
      assert (Q1 := CH f Cf a' a b ltac:(lra) ltac:(lra) ltac:(lra)). assert (Q2 := CH f Cf a' b b' ltac:(lra) ltac:(lra) ltac:(lra)).
      assert (L1 := FL a' a A3 A1). assert (L2 := FR b b' A2 A4). replace (RInt f a' b' + - RInt f a b) with (RInt f a' a + RInt f b b') by lra. eapply Rle_lt_trans; [apply Rabs_triang|]. lra. }
  destruct CAU as [y Y]. exists y. rewrite imp_iff by auto. intros eps He.
  specialize (Y (ball y (mkposreal eps He)) (locally_ball _ _)). destruct Y as [Q R [d HQ] [M HR] H].
  exists (Rmin d 1), (Rmax M 2). assert (A := cond_pos d). assert (B1 := Rmin_l d 1). assert (B2 := Rmin_r d 1). assert (C1 := Rmax_l M 2). assert (C2 := Rmax_r M 2).
  split; [apply Rmin_pos; lra|]. split; [lra|]. split; [lra|]. intros a b Ha Hb. apply (H a b).
  - apply HQ; [|lra]. unfold ball; simpl; unfold AbsRing_ball, abs, minus, plus, opp; simpl. rewrite Rabs_pos_eq; lra.
  - apply HR. lra.
Qed.

(** *** the kernel x^(s-1) exp(-a x) *)
Definition ker (a s x : R) : R := Rpower x (s - 1) * exp (- a * x).
Lemma rp_derive : forall s x, 0 < x -> is_derive (fun x => Rpower x s) x (s * Rpower x (s - 1)).
Proof.
  intros s x Hx. unfold Rpower. auto_derive; auto. replace ((s - 1) * ln x) with (s * ln x + - ln x) by ring. rewrite exp_plus, exp_Ropp, exp_ln by auto. field. lra.
Qed.
Lemma ker_derive : forall a s x, 0 < x -> is_derive (fun x => Rpower x s * exp (- a * x)) x (s * ker a s x - a * ker a (s + 1) x).
Proof.
  intros a s x Hx. unfold ker, Rpower. auto_derive; auto. replace ((s - 1) * ln x) with (s * ln x + - ln x) by ring. replace ((s + 1 - 1) * ln x) with (s * ln x) by ring. rewrite exp_plus, exp_Ropp, exp_ln by auto. field. lra.
Qed.
Lemma ker_cont : forall a s x, 0 < x -> continuous (ker a s) x.
Proof.
  intros a s x Hx. apply (@ex_derive_continuous R_AbsRing R_NormedModule). exists ((s - 1) * ker a (s - 1) x - a * ker a (s - 1 + 1) x). now apply ker_derive.
Qed.
Lemma ker_pos : forall a s x, 0 < ker a s x.
Proof. intros. unfold ker. apply Rmult_lt_0_compat; apply exp_pos. Qed.
(** limits of x^s exp(-a x) times a bounded function *)
Lemma lim0 : forall s (g : R -> R) C, 0 < s -> 0 < C -> (forall x, 0 < x -> Rabs (g x) <= C * Rpower x s) -> filterlim g (at_right 0) (locally 0).
Proof.
  intros s g C Hs HC H P [e HP]. destruct (rpow_small s (e / C) Hs) as [d [D K]]. { apply Rdiv_lt_0_compat; [apply cond_pos|auto]. }
  exists (mkposreal d D). intros y Hy Hy2. apply HP. unfold ball in *; simpl in *; unfold AbsRing_ball, abs, minus, plus, opp in *; simpl in *. rewrite Rabs_pos_eq in Hy by lra. replace (g y + - 0) with (g y) by ring.
  eapply Rle_lt_trans; [apply H; auto|]. specialize (K y ltac:(lra)). apply (Rmult_lt_compat_l C) in K; auto. replace (C * (e / C)) with (pos e) in K by (field; lra). lra.
Qed.
Lemma limInf : forall a s (g : R -> R) C, 0 < a -> 0 < C -> (forall x, 1 < x -> Rabs (g x) <= C * (Rpower x s * exp (- a * x))) -> filterlim g (Rbar_locally p_infty) (locally 0).
Proof.
  intros a s g C Ha HC H P [e HP]. destruct (decay s (2 * a) (e / C) ltac:(lra)) as [M [D K]]. { apply Rdiv_lt_0_compat; [apply cond_pos|auto]. }
  exists (Rmax M 1). intros y Hy. assert (Q1 := Rmax_l M 1). assert (Q2 := Rmax_r M 1). apply HP. unfold ball in *; simpl in *; unfold AbsRing_ball, abs, minus, plus, opp in *; simpl in *. replace (g y + - 0) with (g y) by ring.
  eapply Rle_lt_trans; [apply H; lra|]. specialize (K y ltac:(lra)). replace (- (2 * a) * y / 2) with (- a * y) in K by field. apply (Rmult_lt_compat_l C) in K; auto. replace (C * (e / C)) with (pos e) in K by (field; lra). lra.
Qed.
(** the kernel is integrable *)
Lemma ker_bounded : forall a s, 0 < a -> 0 < s -> exists C, 0 < C /\ forall x, 0 < x -> Rpower x s * exp (- a * x) <= C.
Proof.
  intros a s Ha Hs. destruct (decay s (2 * a) 1 ltac:(lra) ltac:(lra)) as [M [D K]]. exists (Rpower M s + 1). assert (P : 0 < Rpower M s) by apply exp_pos. split; [lra|]. intros x Hx.
  assert (E1 : exp (- a * x) <= 1). { rewrite <- exp_0. left. apply exp_increasing. nra. } assert (E0 := exp_pos (- a * x)). assert (PX : 0 < Rpower x s) by apply exp_pos.
  destruct (Rle_dec M x) as [L|L].
  - specialize (K x L). replace (- (2 * a) * x / 2) with (- a * x) in K by field. lra.
  - assert (Rpower x s <= Rpower M s) by (apply Rle_Rpower_l; lra). nra.
Qed.
Lemma ker_imp : forall a s, 0 < a -> 0 < s -> exists v, imp (ker a s) v.
Proof.
  intros a s Ha Hs. destruct (ker_bounded a (2 * s) Ha ltac:(lra)) as [C [HC B]].
  set (F := fun x => Rpower x s / (1 + Rpower x s)). set (f := fun x => s * Rpower x (s - 1) / (1 + Rpower x s) ^ 2).
  assert (P : forall x, 0 < Rpower x s) by (intros; apply exp_pos).
  assert (DF : forall x, 0 < x -> is_derive F x (f x)).
  { intros x Hx. unfold F, f. assert (R := rp_derive s x Hx). assert (PX := P x). 
    evar_last. { apply is_derive_div; [exact R| |lra]. apply (is_derive_plus (fun _ => 1) (fun x => Rpower x s)); [apply (is_derive_const (K:=R_AbsRing) (V:=R_NormedModule))|exact R]. }
    unfold plus, zero; simpl. field. lra. }
  assert (CF : forall x, 0 < x -> continuous f x).
  { intros x Hx. apply (@ex_derive_continuous R_AbsRing R_NormedModule). unfold f, Rpower. assert (PX := P x). unfold Rpower in PX. auto_derive. repeat split; auto. nra. }
  assert (I : imp f (1 - 0)).
  { apply imp_ftc with F; auto.
    - apply lim0 with s 1; auto; [lra|]. intros x Hx. unfold F. assert (PX := P x). rewrite Rabs_pos_eq. 2: { apply Rlt_le, Rdiv_lt_0_compat; lra. } apply Rmult_le_reg_r with (1 + Rpower x s); [lra|]. unfold Rdiv. rewrite Rmult_assoc, Rinv_l by lra. nra.
    - intros Q [e HQ]. destruct (rpow_small s e Hs (cond_pos e)) as [d [D K]]. exists (/ d). intros x Hx. assert (0 < / d) by now apply Rinv_0_lt_compat. apply HQ. unfold ball; simpl; unfold AbsRing_ball, abs, minus, plus, opp; simpl.
      assert (PX := P x). unfold F. replace (Rpower x s / (1 + Rpower x s) + - (1)) with (- (1 / (1 + Rpower x s))) by (field; lra). rewrite Rabs_Ropp, Rabs_pos_eq. 2: { apply Rlt_le, Rdiv_lt_0_compat; lra. }
      specialize (K (/ x)). assert (IX : / x <= d). { rewrite <- (Rinv_inv d). apply Rlt_le, Rinv_lt_contravar; auto. apply Rmult_lt_0_compat; lra. } specialize (K ltac:(split; [apply Rinv_0_lt_compat; lra|auto])).
      replace (Rpower (/ x) s) with (/ Rpower x s) in K. 2: { unfold Rpower. rewrite ln_Rinv, <- exp_Ropp by lra. f_equal. ring. }
      eapply Rlt_trans; [|exact K]. unfold Rdiv. rewrite Rmult_1_l. apply Rinv_lt_contravar; [nra|lra]. }
  apply imp_dom with (fun x => (2 + 2 * C) / s * f x) ((2 + 2 * C) / s * (1 - 0)).
  - intros; now apply ker_cont.
  - intros x Hx. apply (continuous_scal_r (K:=R_AbsRing) (V:=R_NormedModule) ((2 + 2 * C) / s) f x). auto.
  - intros x Hx. rewrite Rabs_pos_eq by (left; apply ker_pos). unfold ker, f. assert (PX := P x). assert (P1 : 0 < Rpower x (s - 1)) by apply exp_pos.
    assert (B1 : Rpower x s * Rpower x s * exp (- a * x) <= C). { replace (Rpower x s * Rpower x s) with (Rpower x (2 * s)); [now apply B|]. rewrite <- Rpower_plus. f_equal. ring. }
    assert (E1 : exp (- a * x) <= 1). { rewrite <- exp_0. left. apply exp_increasing. nra. } assert (E0 := exp_pos (- a * x)).
    assert (Q : (1 + Rpower x s) ^ 2 * exp (- a * x) <= 2 + 2 * C). { assert ((1 + Rpower x s) ^ 2 <= 2 + 2 * (Rpower x s * Rpower x s)) by (assert (W := pow2_ge_0 (Rpower x s - 1)); nra). apply Rle_trans with ((2 + 2 * (Rpower x s * Rpower x s)) * exp (- a * x)); [apply Rmult_le_compat_r; lra|]. rewrite Rmult_plus_distr_r, Rmult_assoc. lra. }
    assert (Z : 0 < (1 + Rpower x s) ^ 2) by (apply pow_lt; lra).
    replace ((2 + 2 * C) / s * (s * Rpower x (s - 1) / (1 + Rpower x s) ^ 2)) with (Rpower x (s - 1) * ((2 + 2 * C) / (1 + Rpower x s) ^ 2)) by (field; lra).
    apply Rmult_le_compat_l; [lra|]. apply Rmult_le_reg_r with ((1 + Rpower x s) ^ 2); auto. unfold Rdiv. rewrite (Rmult_assoc (2 + 2 * C)), Rinv_l by lra. lra.
  - now apply imp_scal.
Qed.

(** scaling of Euler's integral *)
Lemma ker_scale : forall a s v, 0 < a -> imp (ker 1 s) v -> imp (ker a s) (Rpower a (- s) * v).
Proof.
  intros a s v Ha H. assert (K : imp (fun y => scal a (ker 1 s (a * y + 0))) v).
  { intros P HP. destruct (H P HP) as [Q R HQ HR HH]. apply (Filter_prod _ _ _ (fun x => Q (a * x + 0)) (fun x => R (a * x + 0))).
    - destruct HQ as [d D]. assert (E : 0 < d / a) by (apply Rdiv_lt_0_compat; [apply cond_pos|auto]). exists (mkposreal _ E). intros y Hy Hy2. apply D; [|nra]. unfold ball in *; simpl in *; unfold AbsRing_ball, abs, minus, plus, opp in *; simpl in *.
      rewrite Rabs_pos_eq in Hy by lra. rewrite Rabs_pos_eq by nra. assert (a * y < a * (d / a)) by (apply Rmult_lt_compat_l; lra). replace (a * (d / a)) with (pos d) in H0 by (field; lra). lra.
    - destruct HR as [M D]. exists (M / a). intros y Hy. apply D. assert (a * (M / a) < a * y) by (apply Rmult_lt_compat_l; lra). replace (a * (M / a)) with M in H0 by (field; lra). lra.
    - intros x y Hx Hy. destruct (HH _ _ Hx Hy) as [w [W1 W2]]. exists w. split; auto. now apply (is_RInt_comp_lin (V:=R_NormedModule)). }
  apply imp_ext with (fun y => Rpower a (- s) * scal a (ker 1 s (a * y + 0))); [|now apply imp_scal].
  intros x Hx. unfold scal; simpl; unfold mult; simpl. unfold ker. rewrite Rplus_0_r. unfold Rpower. rewrite ln_mult by auto. rewrite <- (exp_ln a Ha) at 2. replace (- (1) * (a * x)) with (- a * x) by ring. rewrite <- !Rmult_assoc. rewrite <- !exp_plus. f_equal. f_equal. ring.
Qed.

(** *** the sine and cosine transforms of the kernel *)
Definition kc (a s K x : R) : R := ker a s x * cos (K * x).
Definition ks (a s K x : R) : R := ker a s x * sin (K * x).
Lemma kc_cont : forall a s K x, 0 < x -> continuous (kc a s K) x.
Proof.
  intros a s K x Hx. apply (continuous_mult (K:=R_AbsRing) (ker a s) (fun x => cos (K * x)) x); [now apply ker_cont|]. apply (@ex_derive_continuous R_AbsRing R_NormedModule). auto_derive. auto.
Qed.
Lemma ks_cont : forall a s K x, 0 < x -> continuous (ks a s K) x.
Proof.
  intros a s K x Hx. apply (continuous_mult (K:=R_AbsRing) (ker a s) (fun x => sin (K * x)) x); [now apply ker_cont|]. apply (@ex_derive_continuous R_AbsRing R_NormedModule). auto_derive. auto.
Qed.
Lemma ker_succ : forall a s x, 0 < x -> ker a (s + 1) x = x * ker a s x.
Proof. intros a s x Hx. unfold ker. replace (s + 1 - 1) with (1 + (s - 1)) by ring. rewrite Rpower_plus, Rpower_1 by auto. ring. Qed.
Lemma kc_imp : forall a s K, 0 < a -> 0 < s -> exists v, imp (kc a s K) v.
Proof.
  intros a s K Ha Hs. destruct (ker_imp a s Ha Hs) as [v V]. apply imp_dom with (ker a s) v; auto; [intros; now apply kc_cont|intros; now apply ker_cont|].
  intros x Hx. unfold kc. rewrite Rabs_mult, (Rabs_pos_eq (ker a s x)) by (left; apply ker_pos). rewrite <- (Rmult_1_r (ker a s x)) at 2. apply Rmult_le_compat_l; [left; apply ker_pos|]. apply Rabs_le. apply COS_bound.
Qed.
(** the sine kernel only needs s > -1 *)
Lemma ks_bound : forall a s K x, 0 < x -> Rabs (ks a s K x) <= Rabs K * ker a (s + 1) x.
Proof.
  intros a s K x Hx. unfold ks. rewrite Rabs_mult, (Rabs_pos_eq (ker a s x)) by (left; apply ker_pos). rewrite ker_succ by auto. assert (S := sin_abs_le (K * x)). rewrite Rabs_mult, (Rabs_pos_eq x) in S by lra.
  apply (Rmult_le_compat_l (ker a s x)) in S; [|left; apply ker_pos]. lra.
Qed.
Lemma ks_imp : forall a s K, 0 < a -> - 1 < s -> exists v, imp (ks a s K) v.
Proof.
  intros a s K Ha Hs. destruct (ker_imp a (s + 1) Ha ltac:(lra)) as [v V]. apply imp_dom with (fun x => Rabs K * ker a (s + 1) x) (Rabs K * v); [intros; now apply ks_cont| | |now apply imp_scal].
  - intros x Hx. apply (continuous_scal_r (K:=R_AbsRing) (V:=R_NormedModule) (Rabs K) (ker a (s + 1)) x). now apply ker_cont.
  - intros x Hx. now apply ks_bound.
Qed.
(** integration by parts *)
Lemma kc_parts : forall a s K C S1 C1, 0 < a -> 0 < s -> imp (kc a s K) C -> imp (kc a (s + 1) K) C1 -> imp (ks a (s + 1) K) S1 -> s * C = a * C1 + K * S1.
Proof.
  intros a s K C S1 C1 Ha Hs H H1 H2. set (f := fun x => s * kc a s K x - (a * kc a (s + 1) K x + K * ks a (s + 1) K x)).
  assert (A : imp f (s * C - (a * C1 + K * S1))). { apply imp_minus; [now apply imp_scal|]. apply imp_plus; now apply imp_scal. }
  assert (B : imp f (0 - 0)).
  { apply imp_ftc with (fun x => Rpower x s * exp (- a * x) * cos (K * x)).
    - intros x Hx. assert (D := ker_derive a s x Hx). evar_last. { apply (is_derive_mult (fun x => Rpower x s * exp (- a * x)) (fun x => cos (K * x))); [exact D| |intros; apply Rmult_comm]. auto_derive; auto. }
      unfold f, kc, ks, plus, mult; simpl. replace (ker a (s + 1) x) with (Rpower x s * exp (- a * x)); [ring|]. unfold ker. do 2 f_equal. ring.
    - intros x Hx. unfold f. apply (continuous_minus (V:=R_NormedModule) (fun x => s * kc a s K x) (fun x => a * kc a (s + 1) K x + K * ks a (s + 1) K x)); [|apply (continuous_plus (V:=R_NormedModule) (fun x => a * kc a (s + 1) K x) (fun x => K * ks a (s + 1) K x))];
        [apply (continuous_scal_r (K:=R_AbsRing) (V:=R_NormedModule) s (kc a s K) x); now apply kc_cont|apply (continuous_scal_r (K:=R_AbsRing) (V:=R_NormedModule) a (kc a (s + 1) K) x); now apply kc_cont|apply (continuous_scal_r (K:=R_AbsRing) (V:=R_NormedModule) K (ks a (s + 1) K) x); now apply ks_cont].
    - apply lim0 with s 1; auto; [lra|]. intros x Hx. rewrite !Rabs_mult, (Rabs_pos_eq (Rpower x s)), (Rabs_pos_eq (exp _)) by (left; apply exp_pos). assert (Q := COS_bound (K * x)). apply Rabs_le in Q.
      assert (E1 : exp (- a * x) <= 1). { rewrite <- exp_0. left. apply exp_increasing. nra. } assert (E0 := exp_pos (- a * x)). assert (P0 : 0 < Rpower x s) by apply exp_pos. assert (Z := Rabs_pos (cos (K * x))).
      rewrite Rmult_assoc. rewrite (Rmult_comm 1). apply Rmult_le_compat_l; [lra|]. nra.
    - apply limInf with a s 1; auto; [lra|]. intros x Hx. rewrite Rabs_mult, (Rabs_pos_eq (Rpower x s * _)) by (apply Rmult_le_pos; left; apply exp_pos). assert (Q := COS_bound (K * x)). apply Rabs_le in Q. rewrite (Rmult_comm 1). apply Rmult_le_compat_l; [apply Rmult_le_pos; left; apply exp_pos|auto]. }
  assert (E := imp_unique _ _ _ A B). lra.
Qed.
Lemma ks_parts : forall a s K S S1 C1, 0 < a -> - 1 < s -> imp (ks a s K) S -> imp (kc a (s + 1) K) C1 -> imp (ks a (s + 1) K) S1 -> s * S = a * S1 - K * C1.
Proof.
  intros a s K S S1 C1 Ha Hs H H1 H2. set (f := fun x => s * ks a s K x - (a * ks a (s + 1) K x - K * kc a (s + 1) K x)).
  assert (A : imp f (s * S - (a * S1 - K * C1))). { apply imp_minus; [now apply imp_scal|]. apply imp_minus; now apply imp_scal. }
  assert (B : imp f (0 - 0)).
  { apply imp_ftc with (fun x => Rpower x s * exp (- a * x) * sin (K * x)).
    - intros x Hx. assert (D := ker_derive a s x Hx). evar_last. { apply (is_derive_mult (fun x => Rpower x s * exp (- a * x)) (fun x => sin (K * x))); [exact D| |intros; apply Rmult_comm]. auto_derive; auto. }
      unfold f, kc, ks, plus, mult; simpl. replace (ker a (s + 1) x) with (Rpower x s * exp (- a * x)); [ring|]. unfold ker. do 2 f_equal. ring.
    - intros x Hx. unfold f. apply (continuous_minus (V:=R_NormedModule) (fun x => s * ks a s K x) (fun x => a * ks a (s + 1) K x - K * kc a (s + 1) K x)); [|apply (continuous_minus (V:=R_NormedModule) (fun x => a * ks a (s + 1) K x) (fun x => K * kc a (s + 1) K x))];
        [apply (continuous_scal_r (K:=R_AbsRing) (V:=R_NormedModule) s (ks a s K) x); now apply ks_cont|apply (continuous_scal_r (K:=R_AbsRing) (V:=R_NormedModule) a (ks a (s + 1) K) x); now apply ks_cont|apply (continuous_scal_r (K:=R_AbsRing) (V:=R_NormedModule) K (kc a (s + 1) K) x); now apply kc_cont].
    - apply lim0 with (s + 1) (Rabs K + 1); [lra|assert (Q := Rabs_pos K); lra|]. intros x Hx. assert (Q := sin_abs_le (K * x)). rewrite !Rabs_mult, (Rabs_pos_eq (Rpower x s)), (Rabs_pos_eq (exp _)) by (left; apply exp_pos). rewrite Rabs_mult, (Rabs_pos_eq x) in Q by lra.
      assert (E1 : exp (- a * x) <= 1). { rewrite <- exp_0. left. apply exp_increasing. nra. } assert (E0 := exp_pos (- a * x)). assert (P0 : 0 < Rpower x s) by apply exp_pos. assert (Z := Rabs_pos (sin (K * x))). assert (ZK := Rabs_pos K).
      rewrite Rpower_plus, Rpower_1 by auto. apply Rle_trans with (Rpower x s * 1 * (Rabs K * x)).
      + apply Rmult_le_compat; auto; [apply Rmult_le_pos; lra|]. apply Rmult_le_compat_l; lra.
      + assert (0 < Rpower x s * x) by (apply Rmult_lt_0_compat; auto). nra.
    - apply limInf with a s 1; auto; [lra|]. intros x Hx. rewrite Rabs_mult, (Rabs_pos_eq (Rpower x s * _)) by (apply Rmult_le_pos; left; apply exp_pos). assert (Q := SIN_bound (K * x)). apply Rabs_le in Q. rewrite (Rmult_comm 1). apply Rmult_le_compat_l; [apply Rmult_le_pos; left; apply exp_pos|auto]. }
  assert (E := imp_unique _ _ _ A B). lra.
Qed.

(** *** the transforms as functions of the wavenumber *)
Lemma cos_taylor : forall K h x, Rabs (cos ((K + h) * x) - cos (K * x) + h * x * sin (K * x)) <= h ^ 2 * x ^ 2.
Proof.
  intros K h x. replace ((K + h) * x) with (K * x + h * x) by ring. rewrite cos_plus. set (y := h * x).
  replace (cos (K * x) * cos y - sin (K * x) * sin y - cos (K * x) + y * sin (K * x)) with (- (cos (K * x) * (1 - cos y)) + sin (K * x) * (y - sin y)) by ring.
  assert (A : 0 <= 1 - cos y <= y ^ 2 / 2). { split; [assert (Q := COS_bound y); lra|]. destruct (Rle_dec 0 y) as [L|L]; [assert (Q := cos_ge y L); lra|]. assert (Q := cos_ge (- y) ltac:(lra)). rewrite cos_neg in Q. replace ((- y) ^ 2) with (y ^ 2) in Q by ring. lra. }
  assert (B : Rabs (y - sin y) <= y ^ 2 / 2).
  { assert (P : forall z, 0 <= z -> Rabs (z - sin z) <= z ^ 2 / 2).
    { intros z Hz. assert (Q := sin_le_id z Hz). rewrite Rabs_pos_eq by lra. 
      assert (H : 0 ^ 2 / 2 - (0 - sin 0) <= z ^ 2 / 2 - (z - sin z)). { apply (mono_of_derive (fun z => z ^ 2 / 2 - (z - sin z)) (fun z => z - (1 - cos z))); auto.
        - intros t Ht. auto_derive; auto. field.
        - intros t Ht. destruct (Rle_dec t 1) as [T|T]; [assert (W := cos_ge t ltac:(lra)); nra|]. 
          destruct (Rle_dec 2 t); [assert (W := COS_bound t); lra|]. assert (W := cos_ge t ltac:(lra)). assert (Z : t <= 2) by lra. nra. }
      rewrite sin_0 in H. lra. }
    destruct (Rle_dec 0 y) as [L|L]; [now apply P|]. specialize (P (- y) ltac:(lra)). rewrite sin_neg in P. replace (- y - - sin y) with (- (y - sin y)) in P by ring. rewrite Rabs_Ropp in P. replace ((- y) ^ 2) with (y ^ 2) in P by ring. auto. }
  eapply Rle_trans; [apply Rabs_triang|]. rewrite Rabs_Ropp, !Rabs_mult. rewrite (Rabs_pos_eq (1 - cos y)) by lra.
  assert (C1 : Rabs (cos (K * x)) <= 1) by (apply Rabs_le, COS_bound). assert (S1 : Rabs (sin (K * x)) <= 1) by (apply Rabs_le, SIN_bound). assert (C0 := Rabs_pos (cos (K * x))). assert (S0 := Rabs_pos (sin (K * x))). assert (B0 := Rabs_pos (y - sin y)).
  replace (h ^ 2 * x ^ 2) with (1 * (y ^ 2 / 2) + 1 * (y ^ 2 / 2)) by (unfold y; field). apply Rplus_le_compat; apply Rmult_le_compat; lra.
Qed.
Lemma sin_taylor : forall K h x, Rabs (sin ((K + h) * x) - sin (K * x) - h * x * cos (K * x)) <= h ^ 2 * x ^ 2.
Proof.
  intros K h x. destruct (Req_dec x 0) as [->|X]. { rewrite !Rmult_0_r, sin_0. rewrite Rmult_0_l. replace (0 - 0 - 0) with 0 by ring. rewrite Rabs_R0. simpl. lra. }
  assert (Q := cos_taylor (K - PI / 2 / x) h x). replace ((K - PI / 2 / x + h) * x) with ((K + h) * x - PI / 2) in Q by (field; auto). replace ((K - PI / 2 / x) * x) with (K * x - PI / 2) in Q by (field; auto).
  assert (E1 : forall z, cos (z - PI / 2) = sin z) by (intros z; rewrite cos_minus, cos_PI2, sin_PI2; ring). assert (E2 : forall z, sin (z - PI / 2) = - cos z) by (intros z; rewrite sin_minus, cos_PI2, sin_PI2; ring).
  rewrite !E1, E2 in Q. replace (sin ((K + h) * x) - sin (K * x) - h * x * cos (K * x)) with (sin ((K + h) * x) - sin (K * x) + h * x * - cos (K * x)) by ring. exact Q.
Qed.
Lemma quad_derive : forall (F : R -> R) K l C, (forall h, Rabs (F (K + h) - F K - h * l) <= C * h ^ 2) -> is_derive F K l.
Proof.
  intros F K l C H. apply is_derive_Reals. intros eps He. assert (P : 0 < eps / (Rabs C + 1)) by (apply Rdiv_lt_0_compat; auto; assert (Q := Rabs_pos C); lra). exists (mkposreal _ P). intros h Hh HL. simpl in HL.
  specialize (H h). replace ((F (K + h) - F K) / h - l) with ((F (K + h) - F K - h * l) / h) by (field; auto). unfold Rdiv. rewrite Rabs_mult, Rabs_inv. assert (HP : 0 < Rabs h) by now apply Rabs_pos_lt.
  apply Rmult_lt_reg_r with (Rabs h); auto. rewrite Rmult_assoc, Rinv_l by lra. rewrite Rmult_1_r. eapply Rle_lt_trans; [exact H|]. replace (h ^ 2) with (Rabs h * Rabs h) by (rewrite <- Rabs_mult, Rabs_pos_eq; nra).
  rewrite <- Rmult_assoc. apply Rmult_lt_compat_r; auto. assert (Z := Rle_abs C). assert (Q := Rabs_pos C). apply (Rmult_lt_compat_l (Rabs C + 1)) in HL; [|lra]. replace ((Rabs C + 1) * (eps / (Rabs C + 1))) with eps in HL by (field; lra). nra.
Qed.
Section Transforms.
  Variables (a s : R).
  Hypotheses (Ha : 0 < a).
  Lemma ks_derive : forall S C1, - 1 < s -> (forall K, imp (ks a s K) (S K)) -> (forall K, imp (kc a (s + 1) K) (C1 K)) -> forall K, is_derive S K (C1 K).
  Proof.
    intros S C1 Hs HS HC K. destruct (ker_imp a (s + 2) Ha ltac:(lra)) as [v V]. apply quad_derive with v. intros h. rewrite (Rmult_comm v).
    apply (imp_bound (fun x => ks a s (K + h) x - ks a s K x - h * kc a (s + 1) K x) (fun x => h ^ 2 * ker a (s + 2) x)); [| |now apply imp_scal].
    - intros x Hx. unfold ks, kc. replace (s + 2) with (s + 1 + 1) by ring. rewrite !ker_succ by auto. replace (ker a s x * sin ((K + h) * x) - ker a s x * sin (K * x) - h * (x * ker a s x * cos (K * x))) with (ker a s x * (sin ((K + h) * x) - sin (K * x) - h * x * cos (K * x))) by ring.
      rewrite Rabs_mult, (Rabs_pos_eq (ker a s x)) by (left; apply ker_pos). assert (Q := sin_taylor K h x). apply (Rmult_le_compat_l (ker a s x)) in Q; [|left; apply ker_pos]. eapply Rle_trans; [exact Q|]. right. ring.
    - apply imp_minus; [apply imp_minus; auto|now apply imp_scal].
  Qed.
  Lemma kc_derive : forall C S1, 0 < s -> (forall K, imp (kc a s K) (C K)) -> (forall K, imp (ks a (s + 1) K) (S1 K)) -> forall K, is_derive C K (- S1 K).
  Proof.
    intros C S1 Hs HC HS K. destruct (ker_imp a (s + 2) Ha ltac:(lra)) as [v V]. apply quad_derive with v. intros h. rewrite (Rmult_comm v).
    replace (C (K + h) - C K - h * - S1 K) with (C (K + h) - C K + h * S1 K) by ring.
    apply (imp_bound (fun x => kc a s (K + h) x - kc a s K x + h * ks a (s + 1) K x) (fun x => h ^ 2 * ker a (s + 2) x)); [| |now apply imp_scal].
    - intros x Hx. unfold ks, kc. replace (s + 2) with (s + 1 + 1) by ring. rewrite !ker_succ by auto. replace (ker a s x * cos ((K + h) * x) - ker a s x * cos (K * x) + h * (x * ker a s x * sin (K * x))) with (ker a s x * (cos ((K + h) * x) - cos (K * x) + h * x * sin (K * x))) by ring.
      rewrite Rabs_mult, (Rabs_pos_eq (ker a s x)) by (left; apply ker_pos). assert (Q := cos_taylor K h x). apply (Rmult_le_compat_l (ker a s x)) in Q; [|left; apply ker_pos]. eapply Rle_trans; [exact Q|]. right. ring.
    - apply imp_plus; [apply imp_minus; auto|now apply imp_scal].
  Qed.
End Transforms.

Lemma ks_fun : forall a s, 0 < a -> - 1 < s -> exists C, forall K, imp (ks a s K) (C K).
Proof.
  intros a t Ha Ht. exists (fun K => RInt_gen (V:=R_CompleteNormedModule) (ks a t K) (at_right 0) (Rbar_locally p_infty)). intros K. refine (@RInt_gen_correct R_CompleteNormedModule (at_right 0) (Rbar_locally p_infty) _ _ (ks a t K) _). destruct (ks_imp a t K Ha Ht) as [v V]. exists v. exact V.
Qed.
(** constant derivative zero *)
Lemma derive0_const : forall (F : R -> R), (forall x, is_derive F x 0) -> forall x y, F x = F y.
Proof.
  intros F H x y. destruct (MVT_gen F x y (fun _ => 0)) as [c [_ E]].
  - intros; apply H.
  - intros z _. apply continuity_pt_filterlim. apply (@ex_derive_continuous R_AbsRing R_NormedModule). exists 0. apply H.
  - lra.
Qed.
(** the closed forms: (a - iK)^(-s) Gamma(s) *)
Lemma transforms : forall a s G, 0 < a -> 0 < s -> imp (ker 1 s) G -> forall K,
  imp (kc a s K) (G * Rpower (a ^ 2 + K ^ 2) (- s / 2) * cos (s * atan (K / a))) /\ imp (ks a s K) (G * Rpower (a ^ 2 + K ^ 2) (- s / 2) * sin (s * atan (K / a))).
Proof.
  intros a s G Ha Hs HG.
  assert (EC : forall t, 0 < t -> exists C, forall K, imp (kc a t K) (C K)). { intros t Ht. exists (fun K => RInt_gen (V:=R_CompleteNormedModule) (kc a t K) (at_right 0) (Rbar_locally p_infty)). intros K. refine (@RInt_gen_correct R_CompleteNormedModule (at_right 0) (Rbar_locally p_infty) _ _ (kc a t K) _). destruct (kc_imp a t K Ha Ht) as [v V]. exists v. exact V. }
  assert (ES : forall t, 0 < t -> exists C, forall K, imp (ks a t K) (C K)). { intros t Ht. exists (fun K => RInt_gen (V:=R_CompleteNormedModule) (ks a t K) (at_right 0) (Rbar_locally p_infty)). intros K. refine (@RInt_gen_correct R_CompleteNormedModule (at_right 0) (Rbar_locally p_infty) _ _ (ks a t K) _). destruct (ks_imp a t K Ha ltac:(lra)) as [v V]. exists v. exact V. }
  destruct (EC s Hs) as [C HC]. destruct (ES s Hs) as [S HS]. destruct (EC (s + 1) ltac:(lra)) as [C1 HC1]. destruct (ES (s + 1) ltac:(lra)) as [S1 HS1].
  assert (R : forall K, 0 < a ^ 2 + K ^ 2) by (intros; nra).
  assert (P1 : forall K, s * C K = a * C1 K + K * S1 K) by (intros; apply kc_parts with (a := a) (s := s) (K := K); auto). assert (P2 : forall K, s * S K = a * S1 K - K * C1 K) by (intros; apply ks_parts with (a := a) (s := s) (K := K); auto; lra).
  assert (Q1 : forall K, C1 K = s * (a * C K - K * S K) / (a ^ 2 + K ^ 2)). { intros K. apply Rmult_eq_reg_r with (a ^ 2 + K ^ 2); [|specialize (R K); lra]. unfold Rdiv. rewrite Rmult_assoc, Rinv_l by (specialize (R K); lra). specialize (P1 K). specialize (P2 K). replace (s * (a * C K - K * S K)) with (a * (s * C K) - K * (s * S K)) by ring. rewrite P1, P2. ring. }
  assert (Q2 : forall K, S1 K = s * (a * S K + K * C K) / (a ^ 2 + K ^ 2)). { intros K. apply Rmult_eq_reg_r with (a ^ 2 + K ^ 2); [|specialize (R K); lra]. unfold Rdiv. rewrite Rmult_assoc, Rinv_l by (specialize (R K); lra). specialize (P1 K). specialize (P2 K). replace (s * (a * S K + K * C K)) with (a * (s * S K) + K * (s * C K)) by ring. rewrite P1, P2. ring. }
  assert (DC := kc_derive a s Ha C S1 Hs HC HS1). assert (DS := ks_derive a s Ha S C1 ltac:(lra) HS HC1).
  assert (DA : forall K, is_derive (fun K => atan (K / a)) K (a / (a ^ 2 + K ^ 2))). { intros K. auto_derive; auto. unfold Rsqr. specialize (R K). field. simpl in R |- *. repeat split; lra. }
  assert (DP : forall K, is_derive (fun K => Rpower (a ^ 2 + K ^ 2) (s / 2)) K (s * K / (a ^ 2 + K ^ 2) * Rpower (a ^ 2 + K ^ 2) (s / 2))). { intros K. specialize (R K). unfold Rpower. auto_derive; [simpl in R; nra|]. replace (a * (a * 1) + K * (K * 1)) with (a ^ 2 + K ^ 2) by ring. field. lra. }
  set (p := fun K => Rpower (a ^ 2 + K ^ 2) (s / 2)). set (w := fun K => s * atan (K / a)).
  set (A := fun K => p K * (C K * cos (w K) + S K * sin (w K))). set (B := fun K => p K * (S K * cos (w K) - C K * sin (w K))).
  assert (Dw : forall K, is_derive w K (s * (a / (a ^ 2 + K ^ 2)))). { intros K. unfold w. apply (is_derive_scal (fun K => atan (K / a))). apply DA. }
  assert (Dcos : forall K, is_derive (fun K => cos (w K)) K (- sin (w K) * (s * (a / (a ^ 2 + K ^ 2))))). { intros K. evar_last. { apply (is_derive_comp cos w); [|apply Dw]. auto_derive; auto. } unfold scal; simpl; unfold mult; simpl. ring. }
  assert (Dsin : forall K, is_derive (fun K => sin (w K)) K (cos (w K) * (s * (a / (a ^ 2 + K ^ 2))))). { intros K. evar_last. { apply (is_derive_comp sin w); [|apply Dw]. auto_derive; auto. } unfold scal; simpl; unfold mult; simpl. ring. }
  assert (DAA : forall K, is_derive A K 0).
  { intros K. specialize (R K). evar_last. { apply (is_derive_mult p (fun K => C K * cos (w K) + S K * sin (w K))); [apply DP| |intros; apply Rmult_comm]. apply (is_derive_plus (fun K => C K * cos (w K)) (fun K => S K * sin (w K))); [apply (is_derive_mult C (fun K => cos (w K)))|apply (is_derive_mult S (fun K => sin (w K)))]; auto; intros; apply Rmult_comm. }
    rewrite Q1, Q2. unfold plus, mult; simpl. unfold p. simpl. field. simpl in R. lra. }
  assert (DBB : forall K, is_derive B K 0).
  { intros K. specialize (R K). evar_last. { apply (is_derive_mult p (fun K => S K * cos (w K) - C K * sin (w K))); [apply DP| |intros; apply Rmult_comm]. apply (is_derive_minus (fun K => S K * cos (w K)) (fun K => C K * sin (w K))); [apply (is_derive_mult S (fun K => cos (w K)))|apply (is_derive_mult C (fun K => sin (w K)))]; auto; intros; apply Rmult_comm. }
    rewrite Q1, Q2. unfold minus, plus, mult, opp; simpl. unfold p. simpl. field. simpl in R. lra. }
  assert (W0 : w 0 = 0) by (unfold w; unfold Rdiv; rewrite Rmult_0_l, atan_0; ring).
  assert (C0 : C 0 = Rpower a (- s) * G). { apply (imp_unique (kc a s 0)); auto. apply imp_ext with (ker a s); [|now apply ker_scale]. intros x Hx. unfold kc. rewrite Rmult_0_l, cos_0. ring. }
  assert (S0 : S 0 = 0). { apply (imp_unique (ks a s 0)); auto. apply imp_ext with (fun x => 0 * ker a s x). - intros x Hx. unfold ks. rewrite (Rmult_0_l x), sin_0. ring. - assert (Z := imp_scal _ 0 _ (ker_scale a s G Ha HG)). rewrite (Rmult_0_l (Rpower a (- s) * G)) in Z. exact Z. }
  assert (p0 : p 0 = Rpower a s). { unfold p. replace (a ^ 2 + 0 ^ 2) with (a * a) by ring. rewrite <- Rpower_mult_distr by auto. rewrite <- Rpower_plus. f_equal. field. }
  assert (A0 : forall K, A K = G). { intros K. rewrite (derive0_const A DAA K 0). unfold A. rewrite W0, S0, cos_0, C0, p0. replace (Rpower a s * (Rpower a (- s) * G * 1 + 0 * sin 0)) with (Rpower a s * Rpower a (- s) * G) by ring. rewrite <- Rpower_plus. replace (s + - s) with 0 by ring. rewrite Rpower_O by auto. ring. }
  assert (B0 : forall K, B K = 0). { intros K. rewrite (derive0_const B DBB K 0). unfold B. rewrite W0, S0, sin_0. ring. }
  assert (PP : forall K, p K * Rpower (a ^ 2 + K ^ 2) (- s / 2) = 1). { intros K. unfold p. rewrite <- Rpower_plus. replace (s / 2 + - s / 2) with 0 by field. apply Rpower_O. apply R. }
  intros K. specialize (A0 K). specialize (B0 K). specialize (PP K). set (q := Rpower (a ^ 2 + K ^ 2) (- s / 2)) in *. unfold A in A0. unfold B in B0. fold (w K). assert (T := sin2_cos2 (w K)). unfold Rsqr in T. split.
  - replace (G * q * cos (w K)) with (C K); auto. rewrite <- A0. assert (E : q * (p K * (S K * cos (w K) - C K * sin (w K))) = 0) by (rewrite B0; ring). replace (q * (p K * (S K * cos (w K) - C K * sin (w K)))) with (p K * q * (S K * cos (w K) - C K * sin (w K))) in E by ring. rewrite PP in E.
    replace (p K * (C K * cos (w K) + S K * sin (w K)) * q * cos (w K)) with (p K * q * (C K * (cos (w K) * cos (w K)) + S K * cos (w K) * sin (w K))) by ring. rewrite PP.
    replace (S K * cos (w K)) with (C K * sin (w K)) by lra. replace (C K * (cos (w K) * cos (w K)) + C K * sin (w K) * sin (w K)) with (C K * (sin (w K) * sin (w K) + cos (w K) * cos (w K))) by ring. rewrite T. ring.
  - replace (G * q * sin (w K)) with (S K); auto. rewrite <- A0. assert (E : q * (p K * (S K * cos (w K) - C K * sin (w K))) = 0) by (rewrite B0; ring). replace (q * (p K * (S K * cos (w K) - C K * sin (w K)))) with (p K * q * (S K * cos (w K) - C K * sin (w K))) in E by ring. rewrite PP in E.
    replace (p K * (C K * cos (w K) + S K * sin (w K)) * q * sin (w K)) with (p K * q * ((C K * sin (w K)) * cos (w K) + S K * (sin (w K) * sin (w K)))) by ring. rewrite PP.
    replace (C K * sin (w K)) with (S K * cos (w K)) by lra. replace (S K * cos (w K) * cos (w K) + S K * (sin (w K) * sin (w K))) with (S K * (sin (w K) * sin (w K) + cos (w K) * cos (w K))) by ring. rewrite T. ring.
Qed.
