(** C46-C50: halo bias models (bias.py). *)
From Coq Require Import Reals Lra Lia Bool Psatz String List.
From Coquelicot Require Import Coquelicot.
From Verif Require Import Model.RBool Model.SpecialFn Model.Profiles Model.Bias Spec.BiasSpec Proofs.Calc Proofs.HODProofs Proofs.ProfileProofs Proofs.ProfileConv Proofs.ProfileProofs2 Proofs.ProfileProofs3 Proofs.BiasProofs.
Import ListNotations.
Local Open Scope R_scope.

(** ** the three multiplicity functions as instances of the common form *)
Lemma sqrt_rpower : forall x, 0 < x -> sqrt x = Rpower x (1/2).
Proof. intros. rewrite <- Rpower_sqrt by auto. f_equal. lra. Qed.
Lemma ps_is_G : forall nu, 0 < nu -> ps_multiplicity nu = G (1/2) 1 0 (1/2) 1 nu.
Proof.
  intros. unfold ps_multiplicity, G. rewrite sqrt_rpower by auto. rewrite Ropp_0, (Rpower_O (1 * nu)) by lra.
  replace (- (1) * nu / 2) with (- nu / 2) by field. field.
Qed.
Lemma st_is_G : forall q p nu, 0 < q -> 0 < nu -> st_multiplicity q p nu = G (sqrt q) q p (1/2) q nu.
Proof. intros. unfold st_multiplicity, G. rewrite sqrt_mult by lra. rewrite (sqrt_rpower nu) by auto. ring. Qed.
Lemma tinker_is_G : forall beta gamma phi eta nu, 0 < beta -> 0 < nu ->
  tinker_multiplicity beta gamma phi eta nu = G 1 (beta ^ 2) phi (eta + 1/2) gamma nu.
Proof.
  intros. unfold tinker_multiplicity, G. assert (S : 0 < sqrt nu) by now apply sqrt_lt_R0.
  replace (Rpower (beta * sqrt nu) (-2 * phi)) with (Rpower (beta ^ 2 * nu) (- phi)).
  - replace (Rpower (sqrt nu) (2 * eta + 1)) with (Rpower nu (eta + 1/2)); [ring|].
    rewrite (sqrt_rpower nu) by auto. rewrite Rpower_mult. f_equal. field.
  - replace (beta ^ 2 * nu) with (Rpower (beta * sqrt nu) 2).
    + rewrite Rpower_mult. f_equal. ring.
    + replace 2 with (INR 2) at 1 by (simpl; lra). rewrite Rpower_pow by now apply Rmult_lt_0_compat.
      rewrite Rpow_mult_distr. rewrite pow2_sqrt by lra. reflexivity.
Qed.
Lemma pbs_of_G : forall (g : R -> R) K A p e t delta_c nu b, 0 < K -> 0 < A -> 0 < nu -> (forall x, 0 < x -> g x = G K A p e t x) ->
  b = 1 - 2 / delta_c * sl A p e t nu -> pbs_bias g delta_c nu b.
Proof.
  intros g K A p e t dc nu b HK HA Hn E Hb. exists (sl A p e t nu). split; auto.
  apply (is_derive_ext (fun l => ln (G K A p e t (exp l)))); [|now apply G_logderive].
  intros l. rewrite E; auto. apply exp_pos.
Qed.

(** ** C46 *)
Theorem c46_mo96_is_peak_background : forall delta_c nu, delta_c <> 0 -> 0 < nu ->
  pbs_bias ps_multiplicity delta_c nu (mo96 delta_c nu).
Proof.
  intros. apply (pbs_of_G _ (1/2) 1 0 (1/2) 1); auto; try lra; [intros; now apply ps_is_G|].
  unfold mo96, sl, Rdiv. rewrite Rmult_0_l. field. auto.
Qed.
Theorem c46_st99_is_peak_background : forall q p delta_c nu, delta_c <> 0 -> 0 < q -> 0 < nu ->
  pbs_bias (st_multiplicity q p) delta_c nu (st99 q p delta_c nu).
Proof.
  intros. apply (pbs_of_G _ (sqrt q) q p (1/2) q); auto; [now apply sqrt_lt_R0|intros; now apply st_is_G|].
  unfold st99, sl. assert (0 < Rpower (q * nu) p) by apply exp_pos. field. split; auto; lra.
Qed.
Theorem c46_tinker10_is_peak_background : forall spl P delta_halo delta_c z nu,
  let beta := param0 spl P "beta" delta_halo * zfactor P z (beta_exp P) in
  let gamma := param0 spl P "gamma" delta_halo * zfactor P z (gamma_exp P) in
  let phi := param0 spl P "phi" delta_halo * zfactor P z (phi_exp P) in
  let eta := param0 spl P "eta" delta_halo * zfactor P z (eta_exp P) in
  delta_c <> 0 -> 0 < param0 spl P "beta" delta_halo -> 0 < nu ->
  pbs_bias (tinker_multiplicity beta gamma phi eta) delta_c nu (tinker10pb spl P delta_halo delta_c z nu).
Proof.
  intros. assert (0 < beta) by (apply Rmult_lt_0_compat; auto; apply exp_pos).
  apply (pbs_of_G _ 1 (beta ^ 2) phi (eta + 1/2) gamma); auto; [lra|now apply pow_lt|intros; now apply tinker_is_G|].
  unfold tinker10pb, pb_form, sl. fold beta gamma phi eta. assert (0 < Rpower (beta ^ 2 * nu) phi) by apply exp_pos. field. split; auto; lra.
Qed.
(** the peak-background split determines the bias *)
Theorem c46_peak_background_unique : forall g delta_c nu b1 b2, pbs_bias g delta_c nu b1 -> pbs_bias g delta_c nu b2 -> b1 = b2.
Proof.
  intros g dc nu b1 b2 [s1 [D1 E1]] [s2 [D2 E2]]. apply is_derive_unique in D1. apply is_derive_unique in D2. rewrite D1 in D2. subst. reflexivity.
Qed.
(** non-vacuity: the default Tinker10 table at Delta = 200 *)
Definition tinker_defaults : pbparams :=
  mkPB (fun n _ => if String.eqb n "beta" then 0.589 else if String.eqb n "gamma" then 0.864 else if String.eqb n "phi" then -0.729 else -0.243) 0.2 (-0.08) 0.27 (-0.01) 3.
Example c46_nonvacuous : forall spl, 0 < param0 spl tinker_defaults "beta" 200.
Proof. intros. unfold param0. replace (in_table 200) with true; simpl; [lra|]. unfold in_table. simpl. unfold Reqb. destruct (Req_EM_T 200 200); auto; lra. Qed.

(** ** C47 *)
Theorem c47_excess_bias_boundary_term : forall g b delta_c lo hi, delta_c <> 0 -> 0 < lo <= hi ->
  (forall nu, 0 < nu -> 0 < g nu) -> (forall nu, 0 < nu -> continuous (fun x => (b x - 1) * (g x / x)) nu) ->
  (forall nu, 0 < nu -> pbs_bias g delta_c nu (b nu)) -> 
  is_RInt (fun nu => (b nu - 1) * (g nu / nu)) lo hi (2 / delta_c * (g lo - g hi)).
Proof.
  intros g b dc lo hi Hd Hab Hg Hc HP.
  replace (2 / dc * (g lo - g hi)) with (- (2 / dc) * g hi - - (2 / dc) * g lo) by ring.
  apply (ftc (fun nu => - (2 / dc) * g nu)); [lra| |intros; apply Hc; lra].
  intros x Hx. destruct (HP x ltac:(lra)) as [s [D E]].
  assert (D1 : is_derive (fun l => g (exp l)) (ln x) (g x * s)).
  { apply (is_derive_ext (fun l => exp (ln (g (exp l))))); [intros; apply exp_ln; apply Hg; apply exp_pos|].
    assert (X := is_derive_comp exp (fun l => ln (g (exp l))) (ln x) _ _ (is_derive_exp _) D).
    eapply is_derive_eq_; [exact X|]. unfold scal; simpl; unfold mult; simpl. rewrite !exp_ln by (try apply Hg; try apply exp_pos; lra). req; ring. }
  assert (DL : is_derive ln x (/ x)) by (auto_derive; [lra|req; field; lra]).
  assert (D2 := is_derive_comp (fun l => g (exp l)) ln x _ _ D1 DL).
  assert (D3 : is_derive g x (/ x * (g x * s))).
  { apply (is_derive_ext_loc (fun y => g (exp (ln y)))); [|exact D2].
    exists (mkposreal x ltac:(lra)). intros y Hy. rewrite exp_ln; auto. unfold ball in Hy; simpl in Hy; unfold AbsRing_ball, abs, minus, plus, opp in Hy; simpl in Hy. apply Rabs_def2 in Hy. lra. }
  eapply is_derive_eq_; [exact (is_derive_scal g x _ _ D3)|]. unfold scal; simpl; unfold mult; simpl. rewrite E. req. field. split; lra.
Qed.
Lemma zero_ext : forall f g, (forall x, 0 < x -> f x = g x) -> integrates_to_zero f -> integrates_to_zero g.
Proof.
  intros f g E Z eps He. destruct (Z eps He) as [a0 [b0 [H1 H2]]]. exists a0, b0. split; auto. intros a b Ha Hb.
  destruct (H2 a b Ha Hb) as [v [I V]]. exists v. split; auto. eapply is_RInt_ext; [|exact I]. intros x Hx. apply E.
  rewrite Rmin_left in Hx by lra. lra.
Qed.
Theorem c47_matter_unbiased_mo96 : forall delta_c, delta_c <> 0 ->
  integrates_to_zero (fun nu => (mo96 delta_c nu - 1) * (ps_multiplicity nu / nu)).
Proof.
  intros dc Hd. apply (zero_ext (fun nu => - (1 / dc) * (sl 1 0 (1/2) 1 nu * (G 1 1 0 (1/2) 1 nu / nu)))); [|apply G_total; lra].
  intros nu Hn. rewrite ps_is_G by auto. unfold mo96, sl, G, Rdiv. rewrite (Rmult_0_l (/ (1 + _))). field. lra.
Qed.
Theorem c47_matter_unbiased_st99 : forall q p delta_c, delta_c <> 0 -> 0 < q -> p < 1/2 ->
  integrates_to_zero (fun nu => (st99 q p delta_c nu - 1) * (st_multiplicity q p nu / nu)).
Proof.
  intros q p dc Hd Hq Hp. apply (zero_ext (fun nu => - (2 / dc) * sqrt q * (sl q p (1/2) q nu * (G 1 q p (1/2) q nu / nu)))); [|apply G_total; lra].
  intros nu Hn. rewrite st_is_G by auto. unfold st99, sl, G. assert (0 < Rpower (q * nu) p) by apply exp_pos. field. split; [|split]; lra.
Qed.
Theorem c47_matter_unbiased_tinker : forall beta gamma phi eta delta_c, delta_c <> 0 -> 0 < beta -> 0 < gamma -> - (1/2) < eta -> phi < eta + 1/2 ->
  integrates_to_zero (fun nu => (pb_form beta gamma phi eta delta_c nu - 1) * (tinker_multiplicity beta gamma phi eta nu / nu)).
Proof.
  intros beta gamma phi eta dc Hd Hb Hg He Hp. 
  assert (B2 : 0 < beta ^ 2) by now apply pow_lt.
  apply (zero_ext (fun nu => - (2 / dc) * (sl (beta ^ 2) phi (eta + 1/2) gamma nu * (G 1 (beta ^ 2) phi (eta + 1/2) gamma nu / nu)))); [|apply G_total; lra].
  intros nu Hn. rewrite tinker_is_G by auto. unfold pb_form, sl, G. assert (0 < Rpower (beta ^ 2 * nu) phi) by apply exp_pos. field. split; [|split]; lra.
Qed.
(** the default parameters are in range *)
Example c47_nonvacuous : 0.3 < 1/2 /\ - (1/2) < -0.243 /\ -0.729 < -0.243 + 1/2.
Proof. lra. Qed.

(** ** C48 *)
Theorem c48_mo96_increasing : forall delta_c nu1 nu2, 0 < delta_c -> nu1 < nu2 -> mo96 delta_c nu1 < mo96 delta_c nu2.
Proof. intros. unfold mo96. apply Rplus_lt_compat_l. apply Rmult_lt_compat_r; [now apply Rinv_0_lt_compat|lra]. Qed.
Theorem c48_mo96_positive_iff : forall delta_c, 0 < delta_c -> ((forall nu, 0 < nu -> 0 < mo96 delta_c nu) <-> 1 <= delta_c).
Proof.
  intros dc Hd. assert (F : forall nu, mo96 dc nu = (dc - 1 + nu) / dc) by (intros; unfold mo96; field; lra). split.
  - intros H. destruct (Rle_lt_dec 1 dc); auto. exfalso. specialize (H ((1 - dc) / 2) ltac:(lra)). rewrite F in H.
    assert (X : 0 < (dc - 1 + (1 - dc) / 2) / dc * dc) by now apply Rmult_lt_0_compat. replace ((dc - 1 + (1 - dc) / 2) / dc * dc) with (dc - 1 + (1 - dc) / 2) in X by (field; lra). lra.
  - intros H nu Hn. rewrite F. apply Rdiv_lt_0_compat; lra.
Qed.
Theorem c48_jing98_sign_of_mo96 : forall a b c n_eff delta_c nu,
  (0 < jing98 a b c n_eff delta_c nu <-> 0 < mo96 delta_c nu) /\ (jing98 a b c n_eff delta_c nu = 0 <-> mo96 delta_c nu = 0).
Proof.
  intros. unfold jing98. fold (mo96 delta_c nu). assert (P : 0 < Rpower (a / nu ^ 2 + 1) (b - c * n_eff)) by apply exp_pos.
  set (X := Rpower _ _) in *. clearbody X. generalize (mo96 delta_c nu). intros m. split; split; intros; nra.
Qed.
Theorem c48_st99_positive : forall q p delta_c nu, 0 <= p -> 0 < q -> 1 <= delta_c -> 0 < nu -> 0 < st99 q p delta_c nu.
Proof.
  intros q p dc nu Hp Hq Hd Hn. unfold st99. assert (P : 0 < Rpower (q * nu) p) by apply exp_pos.
  replace (1 + (q * nu - 1) / dc + 2 * p / dc / (1 + Rpower (q * nu) p)) with ((dc - 1 + q * nu + 2 * p / (1 + Rpower (q * nu) p)) / dc) by (field; lra).
  apply Rdiv_lt_0_compat; [|lra]. assert (0 < q * nu) by now apply Rmult_lt_0_compat.
  assert (0 <= 2 * p / (1 + Rpower (q * nu) p)) by (apply Rmult_le_pos; [lra|left; apply Rinv_0_lt_compat; lra]). lra.
Qed.
Lemma st99_derive : forall q p dc nu, dc <> 0 -> 0 < q -> 0 < nu ->
  is_derive (st99 q p dc) nu (q / dc * (1 - 2 * p ^ 2 * Rpower (q * nu) (p - 1) / (1 + Rpower (q * nu) p) ^ 2)).
Proof.
  intros q p dc nu Hd Hq Hn. assert (P : 0 < q * nu) by now apply Rmult_lt_0_compat.
  unfold st99, Rpower. assert (X : 0 < exp (p * ln (q * nu))) by apply exp_pos. auto_derive; [repeat split; auto; lra|].
  replace ((p - 1) * ln (q * nu)) with (p * ln (q * nu) + - ln (q * nu)) by ring. rewrite exp_plus, exp_Ropp, exp_ln by auto.
  set (E := exp (p * ln (q * nu))) in *. clearbody E. field. repeat split; auto; lra.
Qed.
Theorem c48_st99_increasing : forall q p delta_c nu1 nu2, 0 < delta_c -> 0 < q -> 0 <= p <= 1 -> 1 <= q * nu1 -> nu1 < nu2 ->
  st99 q p delta_c nu1 < st99 q p delta_c nu2.
Proof.
  intros q p dc n1 n2 Hd Hq Hp H1 H12. assert (N1 : 0 < n1) by nra.
  apply (smono_of_derive (st99 q p dc) (fun nu => q / dc * (1 - 2 * p ^ 2 * Rpower (q * nu) (p - 1) / (1 + Rpower (q * nu) p) ^ 2))); auto.
  - intros x Hx. apply st99_derive; lra.
  - intros x Hx. assert (1 <= q * x) by nra. apply Rmult_lt_0_compat; [apply Rdiv_lt_0_compat; lra|].
    assert (A : 1 <= Rpower (q * x) p) by (rewrite <- (Rpower_O (q * x)) by lra; apply Rle_Rpower; lra).
    assert (B : Rpower (q * x) (p - 1) <= 1) by (apply Rle_trans with (Rpower (q * x) 0); [apply Rle_Rpower; lra|rewrite Rpower_O; lra]).
    assert (B0 : 0 < Rpower (q * x) (p - 1)) by apply exp_pos.
    set (u := Rpower (q * x) p) in *. set (v := Rpower (q * x) (p - 1)) in *. clearbody u v.
    assert (4 <= (1 + u) ^ 2) by nra. assert (2 * p ^ 2 * v <= 2) by nra.
    assert (2 * p ^ 2 * v / (1 + u) ^ 2 < 1); [|lra]. apply Rmult_lt_reg_r with ((1 + u) ^ 2); [lra|]. unfold Rdiv. rewrite Rmult_assoc, Rinv_l by lra. lra.
Qed.
(** finding: for 0 < p < 1 (the default is 0.3) the ST99 bias DEcreases with peak height at small nu *)
Theorem c48_st99_rises_everywhere_refuted : forall q p delta_c, 0 < delta_c -> 0 < q -> 0 < p < 1 ->
  forall nu1 nu2, 0 < nu1 < nu2 -> q * nu2 <= Rpower (p ^ 2 / 2) (/ (1 - p)) -> st99 q p delta_c nu2 < st99 q p delta_c nu1.
Proof.
  intros q p dc Hd Hq Hp n1 n2 H12 H2.
  apply Ropp_lt_cancel.
  apply (smono_of_derive (fun nu => - st99 q p dc nu) (fun nu => - (q / dc * (1 - 2 * p ^ 2 * Rpower (q * nu) (p - 1) / (1 + Rpower (q * nu) p) ^ 2)))); [lra| |].
  - intros x Hx. apply (is_derive_opp (st99 q p dc)). apply st99_derive; lra.
  - intros x Hx. assert (Q : 0 < q * x) by (apply Rmult_lt_0_compat; lra).
    assert (L : q * x < Rpower (p ^ 2 / 2) (/ (1 - p))) by (apply Rlt_le_trans with (q * n2); [apply Rmult_lt_compat_l|]; lra).
    assert (pp : 0 < p ^ 2 / 2 < 1) by nra.
    assert (P1 : Rpower (p ^ 2 / 2) (/ (1 - p)) < 1).
    { unfold Rpower. apply Rlt_le_trans with (exp 0); [apply exp_increasing|rewrite exp_0; lra]. assert (LP : ln (p^2/2) < 0) by (rewrite <- ln_1; apply ln_increasing; lra).
      assert (IP : 0 < / (1 - p)) by (apply Rinv_0_lt_compat; lra). nra. }
    assert (A : Rpower (q * x) p < 1).
    { unfold Rpower. apply Rlt_le_trans with (exp 0); [apply exp_increasing|rewrite exp_0; lra]. assert (ln (q * x) < 0) by (rewrite <- ln_1; apply ln_increasing; lra). nra. }
    assert (A0 : 0 < Rpower (q * x) p) by apply exp_pos.
    assert (B : 2 < p ^ 2 * Rpower (q * x) (p - 1)).
    { apply (ln_increasing _ _ Q) in L. unfold Rpower in L. rewrite ln_exp in L.
      assert (Y : ln (2 / p ^ 2) < (p - 1) * ln (q * x)).
      { replace (2 / p ^ 2) with (/ (p ^ 2 / 2)) by (field; nra). rewrite ln_Rinv by lra.
        apply (Rmult_lt_compat_l (1 - p)) in L; [|lra]. rewrite <- Rmult_assoc, Rinv_r, Rmult_1_l in L by lra. lra. }
      apply exp_increasing in Y. rewrite exp_ln in Y by (apply Rdiv_lt_0_compat; nra). fold (Rpower (q * x) (p - 1)) in Y.
      apply (Rmult_lt_compat_l (p ^ 2)) in Y; [|nra]. replace (p ^ 2 * (2 / p ^ 2)) with 2 in Y by (field; nra). lra. }
    set (u := Rpower (q * x) p) in *. set (v := Rpower (q * x) (p - 1)) in *. clearbody u v.
    assert (W : 1 < 2 * p ^ 2 * v / (1 + u) ^ 2). { apply Rmult_lt_reg_r with ((1 + u) ^ 2); [nra|]. unfold Rdiv. rewrite Rmult_assoc, Rinv_l by nra. nra. }
    assert (0 < q / dc) by (apply Rdiv_lt_0_compat; lra). nra.
Qed.
Theorem c48_smt01_positive : forall a b c delta_c nu, 0 < a -> 0 <= b -> 0 <= c <= 1 -> 1 <= delta_c * sqrt a -> 0 < nu -> 0 < smt01 a b c delta_c nu.
Proof.
  intros a b c dc nu Ha Hb Hc Hd Hn. unfold smt01. cbv zeta. assert (S : 0 < sqrt a) by now apply sqrt_lt_R0.
  assert (P : 0 < a * nu) by now apply Rmult_lt_0_compat. assert (U : 0 < Rpower (a * nu) c) by apply exp_pos. assert (V : 0 < Rpower (a * nu) (1 - c)) by apply exp_pos.
  set (u := Rpower (a * nu) c) in *. set (v := Rpower (a * nu) (1 - c)) in *. clearbody u v. set (s := sqrt a) in *. clearbody s.
  assert (W : 0 <= b * (1 - c) * (1 - c / 2)) by (apply Rmult_le_pos; [apply Rmult_le_pos|]; lra).
  assert (F : u / (u + b * (1 - c) * (1 - c / 2)) <= 1) by (apply Rmult_le_reg_r with (u + b * (1 - c) * (1 - c / 2)); [lra|]; unfold Rdiv; rewrite Rmult_assoc, Rinv_l by lra; lra).
  assert (0 < s * (a * nu)) by now apply Rmult_lt_0_compat. assert (0 <= s * b * v) by (apply Rmult_le_pos; [apply Rmult_le_pos|]; lra).
  set (N := s * (a * nu) + s * b * v - _). assert (HN : -1 < N) by (unfold N; lra). clearbody N.
  replace (1 + N / (dc * s)) with ((dc * s + N) / (dc * s)) by (field; split; nra). apply Rdiv_lt_0_compat; lra.
Qed.
Theorem c48_pillepich10_minimum : forall B0 B1 B2 nu, 0 < B2 -> 0 <= nu -> B0 - B1 ^ 2 / (4 * B2) <= pillepich10 B0 B1 B2 nu.
Proof.
  intros B0 B1 B2 nu H Hn. unfold pillepich10. assert (E : sqrt nu * sqrt nu = nu) by now apply sqrt_sqrt. set (s := sqrt nu) in *. clearbody s. rewrite <- E.
  replace (B0 + B1 * s + B2 * (s * s)) with (B0 - B1 ^ 2 / (4 * B2) + B2 * (s + B1 / (2 * B2)) ^ 2) by (field; lra).
  assert (0 <= B2 * (s + B1 / (2 * B2)) ^ 2) by (apply Rmult_le_pos; [lra|apply pow2_ge_0]). lra.
Qed.
(** with the default coefficients the minimum is attained at a positive peak height and is positive *)
Theorem c48_pillepich10_default_minimum : forall nu, 0 <= nu -> 0.6 < pillepich10 0.647 (-0.320) 0.568 nu.
Proof. intros. eapply Rlt_le_trans; [|apply c48_pillepich10_minimum; lra]. lra. Qed.
Theorem c48_pillepich10_minimum_attained : forall B0 B1 B2, B1 <= 0 -> 0 < B2 -> pillepich10 B0 B1 B2 ((B1 / (2 * B2)) ^ 2) = B0 - B1 ^ 2 / (4 * B2).
Proof.
  intros B0 B1 B2 H1 H2. unfold pillepich10. replace ((B1 / (2 * B2)) ^ 2) with (Rsqr (- B1 / (2 * B2))) at 1 by (unfold Rsqr; field; lra).
  rewrite sqrt_Rsqr by (apply Rmult_le_pos; [lra|left; apply Rinv_0_lt_compat; lra]). field. lra.
Qed.
Theorem c48_seljak04_positive : forall a b c d e f g x, 0 < a -> 0 <= b -> 0 <= d -> 0 <= e -> 0 <= f -> 0 < x -> a < seljak04 a b c d e f g x \/ (b = 0 /\ d = 0 /\ f = 0).
Proof.
  intros a b c d e f g x Ha Hb Hd He Hf Hx. unfold seljak04. assert (P : 0 < Rpower x c) by apply exp_pos. assert (Q : 0 < Rpower x g) by apply exp_pos.
  assert (I : 0 < / (e * x + 1)) by (apply Rinv_0_lt_compat; nra). unfold Rdiv. 
  destruct (Req_dec b 0); destruct (Req_dec d 0); destruct (Req_dec f 0); auto; left.
  all: assert (0 <= b * Rpower x c) by nra; assert (0 <= d * / (e * x + 1)) by nra; assert (0 <= f * Rpower x g) by nra.
  all: try (assert (0 < b * Rpower x c) by (apply Rmult_lt_0_compat; lra); lra).
  all: try (assert (0 < d * / (e * x + 1)) by (apply Rmult_lt_0_compat; lra); lra).
  all: try (assert (0 < f * Rpower x g) by (apply Rmult_lt_0_compat; lra); lra).
Qed.
Theorem c48_seljak04cosmo_fiducial : forall base a1 a2 x, seljak04cosmo base a1 a2 0.3 1 0.9 0.7 x = base.
Proof. intros. unfold seljak04cosmo. cbv zeta. ring_simplify (0.3 - 0.3 + 1 - 1) (0.9 - 0.9 + 0.7 - 0.7). ring. Qed.
(** the cosmological correction is frozen for haloes a factor ten below the nonlinear mass *)
Theorem c48_seljak04cosmo_frozen : forall base a1 a2 Om0 n s8 h x, 0 < x <= 1/10 ->
  seljak04cosmo base a1 a2 Om0 n s8 h x - base = seljak04cosmo base a1 a2 Om0 n s8 h (1/10) - base.
Proof.
  intros base a1 a2 Om0 n s8 h x Hx. unfold seljak04cosmo. cbv zeta.
  assert (K : forall y, 0 < y <= 1/10 -> (if Rltb (log10 y) (-1) then -1 else log10 y) = -1).
  { intros y Hy. destruct (Rltb (log10 y) (-1)) eqn:E; auto. apply Rltb_false in E.
    assert (log10 y <= -1); [|lra]. assert (L : 0 < ln 10) by (rewrite <- ln_1; apply ln_increasing; lra).
    unfold log10. apply Rmult_le_reg_r with (ln 10); auto. unfold Rdiv. rewrite Rmult_assoc, Rinv_l, Rmult_1_r by lra.
    replace (-1 * ln 10) with (ln (/ 10)) by (rewrite ln_Rinv by lra; ring). apply ln_le; lra. }
  rewrite !K by lra. ring.
Qed.
(** above a tenth of the nonlinear mass: moving Om0 or n changes the bias at the same rate, a1 log10(m/mstar), and sigma_8 or h at the rate
    a2 log10(m/mstar); so for positive a1, a2 all four raise the bias of haloes above mstar, lower it below, and leave m = mstar alone *)
Theorem c48_seljak04cosmo_response : forall base a1 a2 Om0 n s8 h Om0' n' s8' h' x, 1 / 10 <= x ->
  seljak04cosmo base a1 a2 Om0' n' s8' h' x - seljak04cosmo base a1 a2 Om0 n s8 h x
  = (a1 * ((Om0' - Om0) + (n' - n)) + a2 * ((s8' - s8) + (h' - h))) * (ln x / ln 10).
Proof.
  intros base a1 a2 Om0 n s8 h Om0' n' s8' h' x Hx. unfold seljak04cosmo. cbv zeta.
  assert (L : 0 < ln 10) by (rewrite <- ln_1; apply ln_increasing; lra).
  assert (K : (if Rltb (log10 x) (-1) then -1 else log10 x) = ln x / ln 10).
  { destruct (Rltb (log10 x) (-1)) eqn:E; auto. apply Rltb_spec in E.
    assert (-1 <= log10 x); [|lra]. unfold log10. apply Rmult_le_reg_r with (ln 10); auto.
    unfold Rdiv. rewrite Rmult_assoc, Rinv_l, Rmult_1_r by lra.
    replace (-1 * ln 10) with (ln (/ 10)) by (rewrite ln_Rinv by lra; ring). apply ln_le; lra. }
  rewrite !K. ring.
Qed.
Example c48_seljak04cosmo_response_nonvacuous : seljak04cosmo 1 0.4 0.3 0.31 0.96 0.8 0.7 10 - seljak04cosmo 1 0.4 0.3 0.3 0.96 0.8 0.7 10 = 0.004.
Proof.
  rewrite c48_seljak04cosmo_response by lra. assert (L : 0 < ln 10) by (rewrite <- ln_1; apply ln_increasing; lra).
  unfold Rdiv. rewrite Rinv_r by lra. lra.
Qed.
Theorem c48_unity : forall nu, unity_bias nu = 1.
Proof. reflexivity. Qed.
(** Tinker10 *)
Lemma exp_m1 : forall x, 1 <= x -> exp (- x) < 0.445.
Proof.
  intros x Hx. apply Rle_lt_trans with (exp (-1)); [apply exp_le_; lra|].
  assert (A : 3/2 <= exp (1/2)) by (assert (H := exp_ineq1_le (1/2)); lra).
  assert (B : exp (-1) = / (exp (1/2) * exp (1/2))) by (rewrite <- exp_plus, <- exp_Ropp; f_equal; field).
  rewrite B. apply Rle_lt_trans with (/ (9/4)); [|lra]. apply Rinv_le_contravar; nra.
Qed.
Theorem c48_tinker10_positive : forall B b c delta_halo delta_c nu, 100 <= delta_halo <= 10000 -> 1 <= delta_c -> 0 <= B -> 0 <= c -> 0 < nu ->
  0 < tinker10 B b c delta_halo delta_c nu.
Proof.
  intros B b c dh dc nu2 Hdh Hdc HB Hc Hnu. unfold tinker10. cbv zeta.
  assert (L : 0 < ln 10) by (rewrite <- ln_1; apply ln_increasing; lra).
  assert (Y : 2 <= log10 dh <= 4).
  { unfold log10. split; apply Rmult_le_reg_r with (ln 10); auto; unfold Rdiv; rewrite Rmult_assoc, Rinv_l, Rmult_1_r by lra.
    - replace (2 * ln 10) with (ln (10 * 10)) by (rewrite ln_mult by lra; ring). apply ln_le; lra.
    - replace (4 * ln 10) with (ln (10 * 10 * (10 * 10))) by (rewrite !ln_mult by lra; ring). apply ln_le; lra. }
  set (y := log10 dh) in *. clearbody y.
  assert (Q : 1 <= (4 / y) ^ 4).
  { assert (1 <= 4 / y). { apply Rmult_le_reg_r with y; [lra|]. unfold Rdiv. rewrite Rmult_assoc, Rinv_l by lra. lra. }
    apply pow_R1_Rle; auto. }
  assert (E1 := exp_m1 _ Q). assert (E0 : 0 < exp (- (4 / y) ^ 4)) by apply exp_pos. set (E := exp (- (4 / y) ^ 4)) in *. clearbody E.
  set (nu := sqrt nu2) in *. assert (N : 0 < nu) by now apply sqrt_lt_R0. clearbody nu.
  set (a := 0.44 * y - 0.88). assert (HA : 0 <= a) by (unfold a; lra). clearbody a.
  assert (P1 : 0 < Rpower nu a) by apply exp_pos. assert (P2 : 0 < Rpower dc a) by apply exp_pos. assert (P3 : 0 < Rpower nu b) by apply exp_pos. assert (P4 : 0 < Rpower nu c) by apply exp_pos.
  set (C := 0.019 + 0.107 * y + 0.19 * E). set (A := 1 + 0.24 * y * E).
  assert (HA2 : 1 <= A < 1 + 0.107 * y) by (unfold A; nra). assert (HC : 0.019 + 0.107 * y <= C) by (unfold C; lra). clearbody A C.
  assert (HB2 : 0 <= B * Rpower nu b) by nra.
  set (F := Rpower nu a / (Rpower nu a + Rpower dc a)). replace (A * Rpower nu a / (Rpower nu a + Rpower dc a)) with (A * F) by (unfold F; field; lra).
  assert (F0 : 0 < F < 1). { unfold F. split; [apply Rdiv_lt_0_compat; lra|]. apply Rmult_lt_reg_r with (Rpower nu a + Rpower dc a); [lra|]. unfold Rdiv. rewrite Rmult_assoc, Rinv_l by lra. lra. }
  destruct (Rle_lt_dec nu dc) as [H|H].
  - assert (F1 : F <= 1/2). { assert (Rpower nu a <= Rpower dc a) by (apply Rle_Rpower_l; lra). unfold F. apply Rmult_le_reg_r with (Rpower nu a + Rpower dc a); [lra|]. unfold Rdiv. rewrite Rmult_assoc, Rinv_l by lra. lra. }
    assert (0 < C * Rpower nu c) by (apply Rmult_lt_0_compat; lra). nra.
  - assert (P5 : 1 <= Rpower nu c) by (rewrite <- (Rpower_O nu) by lra; apply Rle_Rpower; lra). nra.
Qed.
(** the default parameters and delta_c = 1.686, Delta = 200 qualify *)
Example c48_nonvacuous : 100 <= 200 <= 10000 /\ 1 <= 1.686 /\ 1 <= 1.686 * sqrt 0.707.
Proof.
  repeat split; try lra. assert (0.8 <= sqrt 0.707). { rewrite <- (sqrt_Rsqr 0.8) by lra. apply sqrt_le_1_alt. unfold Rsqr. lra. } lra.
Qed.
(** for an overdensity below 100 the Tinker10 bias is negative at small enough peak height *)
Theorem c48_tinker10_positive_refuted : forall B b c delta_halo delta_c, 1 < delta_halo < 100 -> 0 < delta_c -> 0 < b -> 0 < c ->
  exists nu, 0 < nu /\ tinker10 B b c delta_halo delta_c nu < 0.
Proof.
  intros B b c dh dc Hdh Hdc Hb Hc.
  assert (L : 0 < ln 10) by (rewrite <- ln_1; apply ln_increasing; lra).
  assert (Y : 0 < log10 dh < 2).
  { unfold log10. split; [apply Rdiv_lt_0_compat; auto; rewrite <- ln_1; apply ln_increasing; lra|].
    apply Rmult_lt_reg_r with (ln 10); auto; unfold Rdiv; rewrite Rmult_assoc, Rinv_l, Rmult_1_r by lra.
    replace (2 * ln 10) with (ln (10 * 10)) by (rewrite ln_mult by lra; ring). apply ln_increasing; lra. }
  unfold tinker10. cbv zeta. set (y := log10 dh) in *. clearbody y.
  assert (E0 : 0 < exp (- (4 / y) ^ 4)) by apply exp_pos. set (E := exp (- (4 / y) ^ 4)) in *. clearbody E.
  set (a := 0.44 * y - 0.88). assert (HA : 0 < - a) by (unfold a; lra). clearbody a.
  set (C := 0.019 + 0.107 * y + 0.19 * E). set (A := 1 + 0.24 * y * E). assert (HA1 : 0 < A - 1) by (unfold A; nra). assert (HC : 0 < C) by (unfold C; nra). clearbody A C.
  set (e := (A - 1) / 4). assert (He : 0 < e) by (unfold e; lra).
  set (D := Rpower dc a). assert (HD : 0 < D) by apply exp_pos.
  destruct (rpow_small (- a) (e / (A * D)) HA) as [d1 [D1 H1]]; [apply Rdiv_lt_0_compat; auto; apply Rmult_lt_0_compat; lra|].
  destruct (rpow_small b (e / (Rabs B + 1)) Hb) as [d2 [D2 H2]]; [apply Rdiv_lt_0_compat; auto; assert (X := Rabs_pos B); lra|].
  destruct (rpow_small c (e / C) Hc) as [d3 [D3 H3]]; [apply Rdiv_lt_0_compat; auto|].
  set (n := Rmin d1 (Rmin d2 d3)). assert (N : 0 < n) by (unfold n; repeat apply Rmin_pos; auto).
  exists (n * n). split; [now apply Rmult_lt_0_compat|]. rewrite sqrt_square by lra.
  assert (N1 : n <= d1) by apply Rmin_l. assert (N2 : n <= d2) by (eapply Rle_trans; [apply Rmin_r|apply Rmin_l]). assert (N3 : n <= d3) by (eapply Rle_trans; [apply Rmin_r|apply Rmin_r]).
  specialize (H1 n ltac:(lra)). specialize (H2 n ltac:(lra)). specialize (H3 n ltac:(lra)). clearbody n.
  assert (P1 : 0 < Rpower n a) by apply exp_pos. assert (P3 : 0 < Rpower n b) by apply exp_pos. assert (P4 : 0 < Rpower n c) by apply exp_pos.
  assert (I : Rpower n (- a) = / Rpower n a) by (apply Rpower_Ropp). rewrite I in H1.
  (* A F = A - A D /(n^a + D) and D/(n^a+D) < D/n^a *)
  assert (F : A * Rpower n a / (Rpower n a + D) = A - A * D / (Rpower n a + D)) by (field; lra). rewrite F.
  assert (G1 : A * D / (Rpower n a + D) < e).
  { apply Rlt_trans with (A * D * / Rpower n a).
    - apply Rmult_lt_compat_l; [apply Rmult_lt_0_compat; lra|]. apply Rinv_lt_contravar; [apply Rmult_lt_0_compat; lra|lra].
    - apply (Rmult_lt_compat_l (A * D)) in H1; [|apply Rmult_lt_0_compat; lra]. replace (A * D * (e / (A * D))) with e in H1 by (field; split; lra). exact H1. }
  assert (G2 : B * Rpower n b <= e).
  { apply Rle_trans with (Rabs B * Rpower n b); [apply Rmult_le_compat_r; [lra|apply Rle_abs]|].
    assert (X := Rabs_pos B). apply (Rmult_lt_compat_l (Rabs B + 1)) in H2; [|lra]. replace ((Rabs B + 1) * (e / (Rabs B + 1))) with e in H2 by (field; lra). nra. }
  assert (G3 : C * Rpower n c < e). { apply (Rmult_lt_compat_l C) in H3; auto. replace (C * (e / C)) with e in H3 by (field; lra). exact H3. }
  unfold e in *. lra.
Qed.

(** ** C49 *)
Theorem c49_flat_above_max_z : forall spl P delta_halo delta_c z1 z2 nu, max_z P <= z1 -> max_z P <= z2 ->
  tinker10pb spl P delta_halo delta_c z1 nu = tinker10pb spl P delta_halo delta_c z2 nu.
Proof. intros. unfold tinker10pb, zfactor. rewrite !Rmin_right by auto. reflexivity. Qed.
Theorem c49_tabulated : forall spl P d delta_c nu, 0 <= max_z P -> In d [200; 300; 400; 600; 800; 1200; 1600; 2400; 3200] ->
  tinker10pb spl P d delta_c 0 nu = pb_form (p_tab P "beta" d) (p_tab P "gamma" d) (p_tab P "phi" d) (p_tab P "eta" d) delta_c nu.
Proof.
  intros spl P d dc nu Hz Hd. unfold tinker10pb, zfactor, param0.
  assert (T : in_table d = true). { unfold in_table. apply existsb_exists. exists d. split; [exact Hd|]. unfold Reqb. destruct (Req_EM_T d d); auto. }
  rewrite T, Rmin_left, Rplus_0_r by auto. unfold Rpower. rewrite ln_1, !Rmult_0_r, exp_0, !Rmult_1_r. reflexivity.
Qed.
Theorem c49_framework_ignores_redshift : forall spl P delta_halo delta_c z nu,
  framework_tinker10pb spl P delta_halo delta_c z nu = tinker10pb spl P delta_halo delta_c 0 nu.
Proof. reflexivity. Qed.
(** finding: a framework at z > 0 does not use the redshift-evolved Tinker10PBSplit bias *)
Theorem c49_framework_evolves_refuted : forall spl P delta_halo delta_c z,
  0 < z -> 0 < max_z P -> gamma_exp P <> 0 -> param0 spl P "gamma" delta_halo <> 0 -> 0 < delta_c ->
  exists nu, 0 < nu /\ framework_tinker10pb spl P delta_halo delta_c z nu <> tinker10pb spl P delta_halo delta_c z nu.
Proof.
  intros spl P dh dc z Hz Hm Hg Hp Hd. unfold framework_tinker10pb, tinker10pb, pb_form.
  set (g0 := param0 spl P "gamma" dh * zfactor P 0 (gamma_exp P)). set (g1 := param0 spl P "gamma" dh * zfactor P z (gamma_exp P)).
  assert (NE : g0 <> g1).
  { unfold g0, g1. intros E. apply Rmult_eq_reg_l in E; auto. unfold zfactor, Rpower in E. apply exp_inv in E.
    apply Rmult_eq_reg_l in E; auto. rewrite (Rmin_left 0) in E by lra. assert (0 < Rmin z (max_z P)) by (now apply Rmin_pos). apply ln_inv in E; lra. }
  set (f0 := param0 spl P "phi" dh * zfactor P 0 (phi_exp P)). set (f1 := param0 spl P "phi" dh * zfactor P z (phi_exp P)).
  set (e0 := param0 spl P "eta" dh * zfactor P 0 (eta_exp P)). set (e1 := param0 spl P "eta" dh * zfactor P z (eta_exp P)).
  set (b0 := param0 spl P "beta" dh * zfactor P 0 (beta_exp P)). set (b1 := param0 spl P "beta" dh * zfactor P z (beta_exp P)).
  clearbody g0 g1 f0 f1 e0 e1 b0 b1.
  set (M := 2 * Rabs (e0 - e1) + 2 * Rabs f0 + 2 * Rabs f1).
  assert (HM : 0 <= M) by (unfold M; assert (X1 := Rabs_pos (e0 - e1)); assert (X2 := Rabs_pos f0); assert (X3 := Rabs_pos f1); lra).
  assert (G0 : 0 < Rabs (g0 - g1)) by (apply Rabs_pos_lt; lra).
  exists ((M + 1) / Rabs (g0 - g1)). set (nu := (M + 1) / Rabs (g0 - g1)). assert (N : 0 < nu) by (apply Rdiv_lt_0_compat; lra). split; auto.
  assert (U0 : 0 < Rpower (b0 ^ 2 * nu) f0) by apply exp_pos. assert (U1 : 0 < Rpower (b1 ^ 2 * nu) f1) by apply exp_pos.
  set (u0 := Rpower (b0 ^ 2 * nu) f0) in *. set (u1 := Rpower (b1 ^ 2 * nu) f1) in *. clearbody u0 u1.
  intros E. apply (f_equal (Rmult dc)) in E.
  replace (dc * (1 + (g0 * nu - (1 + 2 * e0)) / dc + 2 * f0 / dc / (1 + u0))) with (dc + (g0 * nu - (1 + 2 * e0)) + 2 * (f0 * / (1 + u0))) in E by (field; split; lra).
  replace (dc * (1 + (g1 * nu - (1 + 2 * e1)) / dc + 2 * f1 / dc / (1 + u1))) with (dc + (g1 * nu - (1 + 2 * e1)) + 2 * (f1 * / (1 + u1))) in E by (field; split; lra).
  assert (B : forall f u, 0 < u -> Rabs (f * / (1 + u)) <= Rabs f).
  { intros f u Hu. rewrite Rabs_mult. assert (0 < / (1 + u)) by (apply Rinv_0_lt_compat; lra). rewrite (Rabs_pos_eq (/ (1 + u))) by lra.
    assert (/ (1 + u) <= 1) by (rewrite <- Rinv_1; apply Rinv_le_contravar; lra). assert (X := Rabs_pos f). nra. }
  assert (B0 := B f0 u0 U0). assert (B1 := B f1 u1 U1). set (q0 := f0 * / (1 + u0)) in *. set (q1 := f1 * / (1 + u1)) in *. clearbody q0 q1.
  assert (K : (g0 - g1) * nu = 2 * (e0 - e1) - 2 * q0 + 2 * q1) by lra.
  assert (K1 : Rabs ((g0 - g1) * nu) <= M).
  { rewrite K. unfold M. eapply Rle_trans; [apply Rabs_triang|]. eapply Rle_trans; [apply Rplus_le_compat_r; apply Rabs_triang|].
    rewrite Rabs_Ropp, !Rabs_mult, (Rabs_pos_eq 2) by lra. lra. }
  rewrite Rabs_mult, (Rabs_pos_eq nu) in K1 by lra. unfold nu in K1. replace (Rabs (g0 - g1) * ((M + 1) / Rabs (g0 - g1))) with (M + 1) in K1 by (field; lra). lra.
Qed.
Example c49_nonvacuous : forall spl, 0 < max_z tinker_defaults /\ gamma_exp tinker_defaults <> 0 /\ param0 spl tinker_defaults "gamma" 200 <> 0.
Proof. intros. repeat split; simpl; try lra. unfold param0. replace (in_table 200) with true; simpl; [lra|]. unfold in_table. simpl. unfold Reqb. destruct (Req_EM_T 200 200); auto; lra. Qed.

(** ** C50 *)
Lemma sd05_pos : forall a b c d xi, 0 < Rpower (1 + a * xi) b / Rpower (1 + c * xi) d.
Proof. intros. apply Rdiv_lt_0_compat; apply exp_pos. Qed.
Theorem c50_zero : forall a b c d, tinkersd05 a b c d 0 = 1.
Proof. intros. unfold tinkersd05. rewrite !Rmult_0_r, Rplus_0_r. unfold Rpower. rewrite ln_1, !Rmult_0_r, exp_0. replace (1 / 1) with 1 by field. apply sqrt_1. Qed.
Theorem c50_positive : forall a b c d xi, 0 < tinkersd05 a b c d xi.
Proof. intros. apply sqrt_lt_R0, sd05_pos. Qed.
(** the documented relation b(r)^2 = (1 + a xi)^b / (1 + c xi)^d *)
Theorem c50_square : forall a b c d xi, 0 <= a -> 0 <= c -> 0 <= xi -> tinkersd05 a b c d xi ^ 2 * Rpower (1 + c * xi) d = Rpower (1 + a * xi) b.
Proof.
  intros. unfold tinkersd05. rewrite pow2_sqrt by (left; apply sd05_pos). assert (0 < Rpower (1 + c * xi) d) by apply exp_pos. field. lra.
Qed.
Definition sdlog (a b c d xi : R) := (b * ln (1 + a * xi) - d * ln (1 + c * xi)) / 2.
Lemma sd05_exp : forall a b c d xi, tinkersd05 a b c d xi = exp (sdlog a b c d xi).
Proof.
  intros. unfold tinkersd05, sdlog. assert (E : exp ((b * ln (1 + a * xi) - d * ln (1 + c * xi)) / 2) = sqrt (Rsqr (exp ((b * ln (1 + a * xi) - d * ln (1 + c * xi)) / 2)))).
  { symmetry. apply sqrt_Rsqr. left. apply exp_pos. }
  rewrite E. f_equal. unfold Rsqr. rewrite <- exp_plus. unfold Rpower, Rdiv. rewrite <- exp_Ropp, <- exp_plus. f_equal. field.
Qed.
Lemma sdlog_derive : forall a b c d xi, 0 < 1 + a * xi -> 0 < 1 + c * xi ->
  is_derive (sdlog a b c d) xi (((a * b - c * d) - a * c * (d - b) * xi) / (2 * (1 + a * xi) * (1 + c * xi))).
Proof. intros. unfold sdlog. auto_derive; [repeat split; lra|]. field. split; lra. Qed.
(** the scale-dependent bias rises with xi up to xi0 = (ab-cd)/(ac(d-b)), falls beyond it: so it exceeds one for
    moderate correlations and is largest at xi0 *)
Theorem c50_rises_then_falls : forall a b c d, 0 < a -> 0 < c -> b < d -> 
  let xi0 := (a * b - c * d) / (a * c * (d - b)) in
  (forall x y, 0 <= x < y -> y <= xi0 -> tinkersd05 a b c d x < tinkersd05 a b c d y) /\
  (forall x y, 0 <= x < y -> xi0 <= x -> tinkersd05 a b c d y < tinkersd05 a b c d x).
Proof.
  intros a b c d Ha Hc Hbd xi0. assert (K : 0 < a * c * (d - b)) by (apply Rmult_lt_0_compat; [apply Rmult_lt_0_compat|]; lra).
  assert (Z : a * b - c * d = a * c * (d - b) * xi0) by (unfold xi0; field; repeat split; lra).
  set (k := a * c * (d - b)) in *. clearbody xi0.
  assert (D : forall x, 0 <= x -> 0 < 1 + a * x /\ 0 < 1 + c * x) by (intros; nra).
  split; intros x y Hxy H0; rewrite !sd05_exp; apply exp_increasing.
  - apply (smono_of_derive (sdlog a b c d) (fun xi => ((a * b - c * d) - k * xi) / (2 * (1 + a * xi) * (1 + c * xi)))); [lra| |].
    + intros t Ht. apply sdlog_derive; apply D; lra.
    + intros t Ht. destruct (D t ltac:(lra)). apply Rdiv_lt_0_compat; [rewrite Z; nra|apply Rmult_lt_0_compat; lra].
  - apply Ropp_lt_cancel. apply (smono_of_derive (fun t => - sdlog a b c d t) (fun xi => - (((a * b - c * d) - k * xi) / (2 * (1 + a * xi) * (1 + c * xi))))); [lra| |].
    + intros t Ht. apply (is_derive_opp (sdlog a b c d)). apply sdlog_derive; apply D; lra.
    + intros t Ht. destruct (D t ltac:(lra)). rewrite Z. replace (- ((k * xi0 - k * t) / (2 * (1 + a * t) * (1 + c * t)))) with (k * (t - xi0) / (2 * (1 + a * t) * (1 + c * t))) by (field; lra).
      apply Rdiv_lt_0_compat; [apply Rmult_lt_0_compat; lra|apply Rmult_lt_0_compat; lra].
Qed.
(** large scales: the bias tends to one as xi tends to zero *)
Theorem c50_large_scale_limit : forall a b c d, is_lim (tinkersd05 a b c d) 0 1.
Proof.
  intros a b c d. apply (is_lim_ext (fun x => exp (sdlog a b c d x))); [intros; symmetry; apply sd05_exp|].
  assert (C : continuous (fun x => exp (sdlog a b c d x)) 0).
  { apply (ex_derive_continuous (fun x => exp (sdlog a b c d x))). eexists. apply (is_derive_comp exp); [apply is_derive_exp|]. apply sdlog_derive; rewrite Rmult_0_r; lra. }
  assert (E : exp (sdlog a b c d 0) = 1) by (rewrite <- sd05_exp; apply c50_zero). rewrite <- E. apply (is_lim_continuity (fun x => exp (sdlog a b c d x)) 0). apply continuity_pt_filterlim. exact C.
Qed.
Example c50_nonvacuous : 1.49 < 2.09 /\ 0 < (1.17 * 1.49 - 0.69 * 2.09) / (1.17 * 0.69 * (2.09 - 1.49)).
Proof. split; [lra|apply Rdiv_lt_0_compat; lra]. Qed.

Print Assumptions c46_tinker10_is_peak_background.
Print Assumptions c47_excess_bias_boundary_term.
Print Assumptions c47_matter_unbiased_tinker.
Print Assumptions c48_tinker10_positive_refuted.
Print Assumptions c48_st99_rises_everywhere_refuted.
Print Assumptions c49_framework_evolves_refuted.
Print Assumptions c50_rises_then_falls.
