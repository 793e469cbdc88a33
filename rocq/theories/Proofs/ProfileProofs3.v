From Coq Require Import Reals Lra Lia Bool Psatz String List.
From Coquelicot Require Import Coquelicot.
From Verif Require Import Model.RBool Model.SpecialFn Model.Profiles Spec.ProfileSpec Proofs.Calc Proofs.HODProofs Proofs.ExclusionProofs Proofs.ProfileProofs Proofs.ProfileConv Proofs.ProfileProofs2.
Import ListNotations.
Local Open Scope R_scope.

(** limits at infinity of the truncated transforms *)
Lemma lim_sq : forall f g, (exists M, forall x, M < x -> Rabs (f x) <= g x) -> is_lim g p_infty 0 -> is_lim f p_infty 0.
Proof.
  intros f g [M H] G. apply (is_lim_le_le_loc (fun x => - g x) g).
  - exists M. intros x Hx. specialize (H x Hx). apply Rabs_le_between in H. lra.
  - replace (Finite 0) with (Rbar_opp 0) by (simpl; f_equal; ring). now apply is_lim_opp.
  - auto.
Qed.
Lemma lim_aff : forall K, 0 < K -> is_lim (fun c => (1 + c) * K) p_infty p_infty.
Proof.
  intros K HK. apply is_lim_ext with (fun c => K * c + K); [intros; ring|].
  eapply is_lim_plus; [|apply (is_lim_const K)|].
  - apply (is_lim_scal_l _ K p_infty p_infty). apply is_lim_id.
  - simpl. destruct (Rle_dec 0 K); [|lra]. destruct (Rle_lt_or_eq_dec 0 K r); [|lra]. reflexivity.
Qed.
Lemma lim_comp_aff : forall (S : R -> R) l K, 0 < K -> is_lim S p_infty l -> is_lim (fun c => S ((1 + c) * K)) p_infty l.
Proof.
  intros S l K HK H. apply (is_lim_comp S (fun c => (1 + c) * K) p_infty l p_infty); auto; [now apply lim_aff|]. exists 0. intros; discriminate.
Qed.
Lemma lim_bounded_over : forall (b : R -> R) B, (forall x, Rabs (b x) <= B) -> is_lim (fun c => b c / (1 + c)) p_infty 0.
Proof.
  intros b B H. apply lim_sq with (fun c => B * / (c + 1)).
  - exists 0. intros x Hx. unfold Rdiv. rewrite Rabs_mult, (Rabs_pos_eq (/ (1 + x))) by (left; apply Rinv_0_lt_compat; lra).
    rewrite (Rplus_comm x 1). apply Rmult_le_compat_r; auto. left; apply Rinv_0_lt_compat; lra.
  - replace (Finite 0) with (Finite (B * 0)) by (f_equal; ring). apply (is_lim_scal_l _ B p_infty 0). apply lim_inv_aff.
Qed.
Lemma abs_sin : forall x, Rabs (sin x) <= 1.
Proof. intros. apply Rabs_le. apply SIN_bound. Qed.
Lemma abs_cos : forall x, Rabs (cos x) <= 1.
Proof. intros. apply Rabs_le. apply COS_bound. Qed.

Section Inf.
  Variables Si Ci : R -> R.
  Hypothesis HI : sici_at_infinity Si Ci.
  Lemma nfw_p_lim : forall K, 0 < K -> is_lim (fun c => nfw_p Si Ci K c) p_infty (nfwinf_p Si Ci K).
  Proof.
    intros K HK. destruct HI as [A B]. unfold nfw_p. cbv zeta.
    apply is_lim_ext_loc with (fun c => (sin K * Si ((1 + c) * K) + (- / K * (sin (c * K) / (1 + c)) + cos K * Ci ((1 + c) * K))) + (- sin K * Si K - cos K * Ci K)).
    { exists 0. intros c Hc. field. split; lra. }
    replace (nfwinf_p Si Ci K) with ((sin K * (PI / 2) + (- / K * 0 + cos K * 0)) + (- sin K * Si K - cos K * Ci K)) by (unfold nfwinf_p; replace 0.5 with (1/2) by lra; field; lra).
    apply is_lim_plus'; [|apply is_lim_const]. apply is_lim_plus'; [|apply is_lim_plus'].
    - apply (is_lim_scal_l _ (sin K) p_infty (PI/2)). now apply lim_comp_aff.
    - apply (is_lim_scal_l _ (- / K) p_infty 0). apply (lim_bounded_over (fun c => sin (c * K)) 1). intros; apply abs_sin.
    - apply (is_lim_scal_l _ (cos K) p_infty 0). now apply lim_comp_aff.
  Qed.
  Lemma hern_p_lim : forall K, 0 < K -> is_lim (fun c => hern_p Si Ci K c) p_infty (herninf_p Si Ci K).
  Proof.
    intros K HK. destruct HI as [A B]. unfold hern_p. cbv zeta.
    apply is_lim_ext_loc with (fun c => (- / 2 * (cos (c * K) / (1 + c)) + - (/ (2 * K)) * ((sin (c * K) / (1 + c)) / (1 + c))
       + (K / 2 * sin K * Ci ((1 + c) * K) + - (K / 2 * cos K) * Si ((1 + c) * K))) + (- / 2 * (K * Ci K * sin K - K * cos K * Si K - 1))).
    { exists 0. intros c Hc. replace (K + c * K) with ((1 + c) * K) by ring. replace 0.5 with (1/2) by lra. field. split; lra. }
    replace (herninf_p Si Ci K) with ((- / 2 * 0 + - (/ (2 * K)) * 0
       + (K / 2 * sin K * 0 + - (K / 2 * cos K) * (PI / 2))) + (- / 2 * (K * Ci K * sin K - K * cos K * Si K - 1)))
      by (unfold herninf_p; replace 0.25 with (1/4) by lra; field; lra).
    apply is_lim_plus'; [|apply is_lim_const]. apply is_lim_plus'; apply is_lim_plus'.
    - apply (is_lim_scal_l _ (- / 2) p_infty 0). apply (lim_bounded_over (fun c => cos (c * K)) 1). intros; apply abs_cos.
    - apply (is_lim_scal_l _ (- (/ (2 * K))) p_infty 0). 
      apply lim_sq with (fun c => 1 * / (c + 1)).
      + exists 0. intros x Hx. assert (P : 0 < / (1 + x)) by (apply Rinv_0_lt_compat; lra). assert (Q : / (1 + x) <= 1) by (rewrite <- Rinv_1; apply Rinv_le_contravar; lra).
        unfold Rdiv. rewrite !Rabs_mult, !(Rabs_pos_eq (/ (1 + x))) by lra. rewrite (Rplus_comm x 1). apply Rmult_le_compat_r; [lra|].
        assert (S := abs_sin (x * K)). assert (0 <= Rabs (sin (x*K))) by apply Rabs_pos. nra.
      + replace (Finite 0) with (Finite (1 * 0)) by (f_equal; ring). apply (is_lim_scal_l _ 1 p_infty 0). apply lim_inv_aff.
    - apply (is_lim_scal_l _ (K / 2 * sin K) p_infty 0). now apply lim_comp_aff.
    - apply (is_lim_scal_l _ (- (K / 2 * cos K)) p_infty (PI/2)). now apply lim_comp_aff.
  Qed.
End Inf.

(** HernquistInf at small wavenumber *)
Section Small.
  Variables Si Ci : R -> R.
  Hypothesis HS : sine_cosine_integrals Si Ci.
  Lemma Ci_small : forall K, 0 < K < 1 -> Rabs (Ci K) <= Rabs (Ci 1) + 2 / sqrt K.
  Proof.
    intros K HK.
    assert (D : forall t, K <= t <= 1 -> is_derive (fun t => Ci t - ln t) t (cos t / t - / t)).
    { intros t Ht. apply (is_derive_minus (V:=R_NormedModule) Ci ln t (cos t / t) (/ t)); [apply HS; lra|]. auto_derive; [lra|]. field; lra. }
    assert (D' : forall t, K <= t <= 1 -> is_derive (fun t => Ci t + ln t) t (cos t / t + / t)).
    { intros t Ht. apply (is_derive_plus (V:=R_NormedModule) Ci ln t (cos t / t) (/ t)); [apply HS; lra|]. auto_derive; [lra|]. field; lra. }
    assert (A : Ci 1 - ln 1 <= Ci K - ln K).
    { destruct (mvt (fun t => Ci t - ln t) (fun t => cos t / t - / t) K 1 ltac:(lra) D) as [t [Ht E]].
      assert (C := COS_bound t). assert (0 < / t) by (apply Rinv_0_lt_compat; lra).
      assert (cos t / t - / t <= 0) by (unfold Rdiv; nra). nra. }
    assert (B : Ci K + ln K <= Ci 1 + ln 1).
    { destruct (mvt (fun t => Ci t + ln t) (fun t => cos t / t + / t) K 1 ltac:(lra) D') as [t [Ht E]].
      assert (C := COS_bound t). assert (0 < / t) by (apply Rinv_0_lt_compat; lra).
      assert (0 <= cos t / t + / t) by (unfold Rdiv; nra). nra. }
    rewrite ln_1 in *.
    assert (S : 0 < sqrt K) by (apply sqrt_lt_R0; lra).
    assert (L : - ln K <= 2 / sqrt K).
    { replace (- ln K) with (2 * ln (/ sqrt K)).
      - assert (X := exp_ineq1_le (ln (/ sqrt K))). rewrite exp_ln in X by (apply Rinv_0_lt_compat; auto). unfold Rdiv. lra.
      - rewrite ln_Rinv by auto. replace K with (sqrt K * sqrt K) at 2 by (apply sqrt_sqrt; lra). rewrite ln_mult by auto. ring. }
    assert (0 <= 2 / sqrt K) by (apply Rlt_le, Rdiv_lt_0_compat; lra).
    apply Rabs_le. assert (X := Rabs_le_between (Ci 1) (Rabs (Ci 1))). assert (Y := proj1 X (Rle_refl _)). lra.
  Qed.
  Lemma Si_small : forall K, 0 < K < 1 -> Rabs (Si K) <= Rabs (Si 1) + 1.
  Proof.
    intros K HK.
    assert (D : forall t, K <= t <= 1 -> is_derive Si t (sin t / t)) by (intros; apply HS; lra).
    destruct (mvt Si (fun t => sin t / t) K 1 ltac:(lra) D) as [t [Ht E]].
    assert (0 < t) by lra.
    assert (A : Rabs (sin t / t) <= 1).
    { unfold Rdiv. rewrite Rabs_mult, (Rabs_pos_eq (/ t)) by (left; apply Rinv_0_lt_compat; lra).
      assert (S := sin_abs_le t). rewrite (Rabs_pos_eq t) in S by lra. apply Rmult_le_reg_r with t; [lra|].
      replace (Rabs (sin t) * / t * t) with (Rabs (sin t)) by (field; lra). lra. }
    replace (Si K) with (Si 1 - (sin t / t) * (1 - K)) by lra.
    unfold Rminus at 1. eapply Rle_trans; [apply Rabs_triang|]. rewrite Rabs_Ropp, Rabs_mult, (Rabs_pos_eq (1 - K)) by lra.
    assert (0 <= Rabs (sin t / t)) by apply Rabs_pos. nra.
  Qed.
  (* K (2 Ci sin K + cos K (pi - 2 Si)) is small *)
  Lemma herninf_p_small : forall eps, 0 < eps -> exists K0, 0 < K0 /\ forall K, 0 < K < K0 -> Rabs (herninf_p Si Ci K - 1/2) < eps.
  Proof.
    intros eps He. assert (P := PI_RGT_0).
    set (M := 2 * Rabs (Ci 1) + 4 + PI + 2 * (Rabs (Si 1) + 1)).
    assert (HM : 0 < M) by (unfold M; assert (0 <= Rabs (Ci 1)) by apply Rabs_pos; assert (0 <= Rabs (Si 1)) by apply Rabs_pos; lra).
    exists (Rmin 1 ((eps / M)^2)). split.
    { apply Rmin_pos; [lra|]. apply pow_lt. now apply Rdiv_lt_0_compat. }
    intros K [H0 HK]. assert (K1 : K < 1) by (eapply Rlt_le_trans; [exact HK|apply Rmin_l]). assert (K2 : K < (eps/M)^2) by (eapply Rlt_le_trans; [exact HK|apply Rmin_r]).
    set (q := sqrt K). assert (Q : 0 < q) by (apply sqrt_lt_R0; lra). assert (QQ : q * q = K) by (apply sqrt_sqrt; lra).
    assert (q1 : q < 1) by nra.
    assert (QE : q < eps / M).
    { assert (E : 0 < eps / M) by now apply Rdiv_lt_0_compat. simpl in K2. rewrite Rmult_1_r in K2. nra. }
    assert (C := Ci_small K ltac:(lra)). assert (S := Si_small K ltac:(lra)). fold q in C.
    set (T := 2 * Ci K * sin K + cos K * (PI - 2 * Si K)).
    assert (BT : Rabs (K * T) <= M * q).
    { rewrite Rabs_mult, (Rabs_pos_eq K) by lra. unfold T.
      assert (B1 : Rabs (2 * Ci K * sin K + cos K * (PI - 2 * Si K)) <= 2 * (Rabs (Ci 1) + 2 / q) + (PI + 2 * (Rabs (Si 1) + 1))).
      { eapply Rle_trans; [apply Rabs_triang|]. rewrite !Rabs_mult. rewrite (Rabs_pos_eq 2) by lra.
        assert (X1 := abs_sin K). assert (X2 := abs_cos K). assert (0 <= Rabs (Ci K)) by apply Rabs_pos. assert (0 <= Rabs (sin K)) by apply Rabs_pos. assert (0 <= Rabs (cos K)) by apply Rabs_pos.
        assert (X3 : Rabs (PI - 2 * Si K) <= PI + 2 * Rabs (Si K)).
        { unfold Rminus. eapply Rle_trans; [apply Rabs_triang|]. rewrite Rabs_Ropp, Rabs_mult, (Rabs_pos_eq PI), (Rabs_pos_eq 2) by lra. lra. }
        assert (0 <= Rabs (PI - 2 * Si K)) by apply Rabs_pos.
        apply Rplus_le_compat; nra. }
      apply Rle_trans with (K * (2 * (Rabs (Ci 1) + 2 / q) + (PI + 2 * (Rabs (Si 1) + 1)))); [apply Rmult_le_compat_l; lra|].
      rewrite <- QQ. replace (q * q * (2 * (Rabs (Ci 1) + 2 / q) + (PI + 2 * (Rabs (Si 1) + 1)))) with (q * (q * (2 * Rabs (Ci 1) + PI + 2 * (Rabs (Si 1) + 1)) + 4)) by (field; lra).
      rewrite (Rmult_comm M q). apply Rmult_le_compat_l; [lra|]. unfold M.
      assert (0 <= Rabs (Ci 1)) by apply Rabs_pos; assert (0 <= Rabs (Si 1)) by apply Rabs_pos. nra. }
    assert (MQ : M * q < eps). { replace eps with (M * (eps / M)) by (field; lra). now apply Rmult_lt_compat_l. }
    replace (herninf_p Si Ci K - 1/2) with (- (1/4) * (K * T)) by (unfold herninf_p, T; replace 0.25 with (1/4) by lra; field).
    rewrite Rabs_mult, Rabs_Ropp, (Rabs_pos_eq (1/4)) by lra. assert (0 <= Rabs (K * T)) by apply Rabs_pos. lra.
  Qed.
End Small.

(** Einasto *)
Lemma npow_pos : forall x a, 0 < x -> npow x a = Rpower x a.
Proof. intros. unfold npow. destruct (Reqb x 0) eqn:E; auto. apply Reqb_spec in E. lra. Qed.
Lemma is_derive_eq_ : forall (f : R -> R) x v w, is_derive f x v -> v = w -> is_derive f x w.
Proof. intros; now subst. Qed.
Section Ein.
  Variables (a : R). Hypothesis Ha : 0 < a.
  Definition pw (x : R) : R := if Rle_dec x 0 then 0 else Rpower x a.
  Lemma pw_pos : forall x, 0 < x -> pw x = Rpower x a.
  Proof. intros. unfold pw. destruct (Rle_dec x 0); lra. Qed.
  Lemma pw_npow : forall x, 0 <= x -> npow x a = pw x.
  Proof.
    intros. destruct (Req_dec x 0) as [->|N].
    - unfold npow, pw. destruct (Reqb 0 0) eqn:E; [|apply Reqb_false in E; lra]. destruct (Rle_dec 0 0); lra.
    - rewrite npow_pos, pw_pos by lra. reflexivity.
  Qed.
  Lemma pos_loc : forall (P : R -> Prop) x, 0 < x -> (forall y, 0 < y -> P y) -> locally x P.
  Proof.
    intros P x Hx H. exists (mkposreal x Hx). intros y Hy. unfold ball in Hy; simpl in Hy. unfold AbsRing_ball, abs, minus, plus, opp in Hy; simpl in Hy.
    apply Rabs_def2 in Hy. apply H. lra.
  Qed.
  Lemma pw_cont : forall x, 0 <= x -> continuous pw x.
  Proof.
    intros x Hx. destruct (Req_dec x 0) as [->|N].
    - unfold continuous. replace (pw 0) with 0 by (unfold pw; destruct (Rle_dec 0 0); lra).
      apply filterlim_locally. intros eps. exists (mkposreal (Rpower eps (/ a)) (exp_pos _)). intros y Hy.
      unfold ball in *; simpl in *. unfold AbsRing_ball, abs, minus, plus, opp in *; simpl in *. rewrite Ropp_0, Rplus_0_r in *.
      unfold pw. destruct (Rle_dec y 0); [rewrite Rabs_R0; apply cond_pos|]. rewrite Rabs_pos_eq by (left; apply exp_pos). rewrite Rabs_pos_eq in Hy by lra.
      apply Rlt_le_trans with (Rpower (Rpower eps (/a)) a).
      + apply Rlt_Rpower_l; lra.
      + rewrite Rpower_mult. replace (/ a * a) with 1 by (field; lra). rewrite Rpower_1 by apply cond_pos. lra.
    - apply (continuous_ext_loc _ (fun x => Rpower x a)).
      + apply pos_loc; [lra|]. intros y Hy. now rewrite pw_pos.
      + cont (fun x => Rpower x a). unfold Rpower. auto_derive. lra.
  Qed.
  Variable G : R -> R.
  Hypothesis Hd : forall y, 0 < y -> is_derive G y (Rpower y (3 / a - 1) * exp (- y)).
  Hypothesis Hl : filterlim G (at_right 0) (locally 0).
  Definition Gp (y : R) : R := if Rle_dec y 0 then 0 else G y.
  Lemma Gp_cont : forall y, 0 <= y -> continuous Gp y.
  Proof.
    intros y Hy. destruct (Req_dec y 0) as [->|N].
    - unfold continuous. replace (Gp 0) with 0 by (unfold Gp; destruct (Rle_dec 0 0); lra).
      apply filterlim_locally. intros eps. destruct (proj1 (filterlim_locally (F:=at_right 0) G 0) Hl eps) as [d Hd'].
      exists d. intros z Hz. unfold Gp. destruct (Rle_dec z 0); [apply ball_center|]. apply Hd'; auto. lra.
    - apply (continuous_ext_loc _ G).
      + apply pos_loc; [lra|]. intros z Hz. unfold Gp. destruct (Rle_dec z 0); lra.
      + cont G. eexists. apply Hd. lra.
  Qed.
  Lemma two_a : 0 < 2 / a.
  Proof. apply Rdiv_lt_0_compat; lra. Qed.
  Definition EC : R := exp (2 / a) * Rpower (2 / a) (- 3 / a) / a.
  Definition EF (x : R) : R := EC * Gp (2 / a * pw x).
  Lemma EF_derive : forall x, 0 < x -> is_derive EF x (exp (- 2 / a * (pw x - 1)) * x ^ 2).
  Proof.
    intros x Hx. assert (T := two_a). assert (PP : 0 < Rpower x a) by apply exp_pos. assert (Q : 0 < 2 / a * Rpower x a) by now apply Rmult_lt_0_compat.
    apply (is_derive_ext_loc (fun x => EC * G (2 / a * Rpower x a))).
    { apply pos_loc; auto. intros y Hy. unfold EF, Gp. rewrite pw_pos by auto. assert (0 < 2 / a * Rpower y a) by (apply Rmult_lt_0_compat; auto; apply exp_pos).
      destruct (Rle_dec (2 / a * Rpower y a) 0); lra. }
    assert (D := Hd _ Q).
    assert (DR : is_derive (fun x => 2 / a * Rpower x a) x (2 / a * (a * / x * Rpower x a))).
    { unfold Rpower. auto_derive; [auto|]. field. lra. }
    assert (DC := is_derive_comp G (fun x => 2 / a * Rpower x a) x _ _ D DR).
    assert (DS := is_derive_scal _ _ EC _ DC). cbv beta in DS.
    eapply is_derive_eq_; [exact DS|]. unfold scal; simpl; unfold mult; simpl.
    rewrite pw_pos by auto.
    assert (E1 : Rpower (2 / a * Rpower x a) (3 / a - 1) = Rpower (2 / a) (3 / a) / (2 / a) * (x ^ 3 / Rpower x a)).
    { rewrite <- Rpower_mult_distr by auto. rewrite Rpower_mult. unfold Rminus. rewrite Rpower_plus, Rpower_Ropp, Rpower_1 by auto.
      replace (a * (3 / a + - (1))) with (INR 3 + - a) by (simpl; field; lra). rewrite Rpower_plus, Rpower_Ropp, Rpower_pow by auto. field. repeat split; lra. }
    rewrite E1. unfold EC. replace (- 3 / a) with (- (3 / a)) by (field; lra). rewrite Rpower_Ropp.
    assert (0 < Rpower (2 / a) (3 / a)) by apply exp_pos.
    replace (exp (-2 / a * (Rpower x a - 1))) with (exp (2 / a) * exp (- (2 / a * Rpower x a))) by (rewrite <- exp_plus; f_equal; field; lra).
    req. field. repeat split; lra.
  Qed.
  Lemma EF_mass : forall c, 0 <= c -> mass_integral (einasto_f a) c (EF c).
  Proof.
    intros c Hc. unfold mass_integral. assert (T := two_a).
    assert (E0 : EF 0 = 0). { unfold EF, Gp, pw. destruct (Rle_dec 0 0); [|lra]. rewrite Rmult_0_r. destruct (Rle_dec 0 0); [ring|lra]. }
    replace (EF c) with (EF c - EF 0) by lra.
    apply rext with (fun x => exp (- 2 / a * (pw x - 1)) * x ^ 2); [auto| |].
    { intros x Hx. unfold einasto_f. rewrite pw_npow by lra. reflexivity. }
    apply ftc_open; auto.
    - intros; apply EF_derive; lra.
    - intros x Hx. unfold EF. apply (continuous_mult (K:=R_AbsRing)); [apply continuous_const|].
      apply (continuous_comp (fun x => 2 / a * pw x) Gp).
      + apply (continuous_mult (K:=R_AbsRing)); [apply continuous_const|]. apply pw_cont; lra.
      + apply Gp_cont. apply Rmult_le_pos; [lra|]. unfold pw. destruct (Rle_dec x 0); [lra|left; apply exp_pos].
    - intros x Hx. apply (continuous_mult (K:=R_AbsRing)); [|cont (fun x => x^2); auto_derive; auto].
      apply (continuous_comp (fun x => - 2 / a * (pw x - 1)) exp).
      + apply (continuous_mult (K:=R_AbsRing)); [apply continuous_const|]. apply (continuous_minus (V:=R_NormedModule)); [apply pw_cont; lra|apply continuous_const].
      + cont exp. auto_derive. auto.
  Qed.
End Ein.
Lemma einasto_mass : forall (ginc : R -> R -> R) a c, 0 < a -> 0 <= c ->
  (forall y, 0 < y -> is_derive (ginc (3 / a)) y (Rpower y (3 / a - 1) * exp (- y))) ->
  ginc (3 / a) 0 = 0 -> filterlim (ginc (3 / a)) (at_right 0) (locally 0) ->
  mass_integral (einasto_f a) c (einasto_h ginc a c).
Proof.
  intros ginc a c Ha Hc Hd H0 Hl. replace (einasto_h ginc a c) with (EF a (ginc (3/a)) c); [now apply EF_mass|].
  unfold EF, EC, einasto_h, Gp. rewrite pw_npow by auto. destruct (Rle_dec (2 / a * pw a c) 0) as [L|L].
  - assert (0 <= pw a c) by (unfold pw; destruct (Rle_dec c 0); [lra|left; apply exp_pos]).
    assert (T := two_a a Ha). replace (2 / a * pw a c) with 0 by nra. rewrite H0. field. lra.
  - field. lra.
Qed.
