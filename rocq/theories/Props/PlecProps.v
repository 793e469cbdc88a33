(** C107: the power law with exponential cut-off. *)
From Coq Require Import Reals String List Bool Lra Lia.
From Coquelicot Require Import Coquelicot.
From Verif Require Import Model.RBool Model.Profiles Spec.GammaSpec Spec.ProfileSpec Proofs.Calc Proofs.BiasProofs Proofs.ProfileProofs2 Proofs.GammaProofs.
Local Open Scope R_scope.

Lemma plec_ker : forall a b x, 0 < x -> plec_f a b x = ker a (1 - b) x.
Proof.
  intros a b x Hx. unfold plec_f, npow, ker. replace (Reqb x 0) with false. 2: { symmetry. destruct (Reqb x 0) eqn:E; auto. apply Reqb_spec in E. lra. }
  replace (1 - b - 1) with (- b) by ring. rewrite Rpower_Ropp. unfold Rdiv. rewrite Rmult_1_l. reflexivity.
Qed.
Lemma ker_pow : forall a s x n, 0 < x -> x ^ n * ker a s x = ker a (s + INR n) x.
Proof.
  intros a s x n Hx. unfold ker. rewrite <- Rpower_pow by auto. rewrite <- Rmult_assoc, <- Rpower_plus. do 2 f_equal. ring.
Qed.
Lemma gamma_ker : forall g s, euler_gamma g -> 0 < s -> imp (ker 1 s) (g s).
Proof. intros g s [H _] Hs. apply imp_ext with (2 := H s Hs). intros x Hx. unfold ker. do 2 f_equal. ring. Qed.

Lemma sqrt_scale : forall a k, 0 < a -> sqrt (1 + (k / a)²) = sqrt (a ^ 2 + k ^ 2) / a.
Proof.
  intros a k Ha. replace (a ^ 2 + k ^ 2) with (a ^ 2 * (1 + (k / a)²)) by (unfold Rsqr; field; lra). assert (0 <= (k / a)²) by apply Rle_0_sqr. rewrite sqrt_mult, sqrt_pow2 by (try apply pow2_ge_0; lra). field. lra.
Qed.
(** the normalisation is the total mass: int_0^inf f(x) x^2 dx, for every cut-off a > 0 and slope b < 3 *)
Theorem c107_total_mass : forall g a b, euler_gamma g -> 0 < a -> b < 3 -> half_line_integral (fun x => plec_f a b x * x ^ 2) (plec_h g a b).
Proof.
  intros g a b G Ha Hb. apply imp_ext with (ker a (3 - b)).
  - intros x Hx. rewrite plec_ker by auto. rewrite Rmult_comm, ker_pow by auto. f_equal. simpl. ring.
  - unfold plec_h. rewrite Rmult_comm. replace (b - 3) with (- (3 - b)) by ring. apply ker_scale; auto. apply gamma_ker; auto. lra.
Qed.
(** the transform is the 3-D Fourier transform of the density: int_0^inf x f(x) sin(K x)/K dx, for every b < 3, the special case b = 2
    included *)
Theorem c107_transform : forall g a b K, euler_gamma g -> 0 < a -> b < 3 -> 0 < K -> half_line_integral (fun x => x * plec_f a b x * (sin (K * x) / K)) (plec_p g a b K).
Proof.
  intros g a b K G Ha Hb HK. assert (R : 0 < a ^ 2 + K ^ 2) by nra.
  assert (X : forall v, imp (ks a (2 - b) K) v -> half_line_integral (fun x => x * plec_f a b x * (sin (K * x) / K)) (/ K * v)).
  { intros v V. apply imp_ext with (fun x => / K * ks a (2 - b) K x); [|now apply imp_scal]. intros x Hx. rewrite plec_ker by auto. unfold ks. replace (2 - b) with (1 - b + 1) by ring. rewrite ker_succ by auto. field. lra. }
  assert (W : forall v w, v = w -> half_line_integral (fun x => x * plec_f a b x * (sin (K * x) / K)) v -> half_line_integral (fun x => x * plec_f a b x * (sin (K * x) / K)) w) by (intros v w ->; auto).
  unfold plec_p. destruct (Reqb b 2) eqn:E.
  - apply Reqb_spec in E. subst b. apply W with (/ K * atan (K / a)); [field; lra|]. apply X. replace (2 - 2) with 0 by ring.
    destruct (ks_imp a 0 K Ha ltac:(lra)) as [v0 V0].
    assert (EX := ks_fun a 0 Ha ltac:(lra)).
    destruct EX as [T HT]. assert (G1 : g 1 = 1).
    { apply (imp_unique (ker 1 1)); [apply gamma_ker; auto; lra|]. apply imp_ext with (fun x => exp (- x)). { intros x Hx. unfold ker. replace (1 - 1) with 0 by ring. rewrite Rpower_O by auto. rewrite Rmult_1_l. f_equal. ring. }
      assert (Q : imp (fun x => exp (- x)) (0 - - (1))); [|replace (0 - - (1)) with 1 in Q by ring; exact Q]. apply imp_ftc with (fun x => - exp (- x)).
      - intros x Hx. auto_derive; auto. ring.
      - intros x Hx. apply (@ex_derive_continuous R_AbsRing R_NormedModule). auto_derive. auto.
      - apply filterlim_within_ext with (fun x => - exp (- x)); auto. eapply filterlim_filter_le_1; [apply filter_le_within|]. replace (- (1)) with (- exp (- 0)) by (rewrite Ropp_0, exp_0; ring). 
        apply (@ex_derive_continuous R_AbsRing R_NormedModule (fun x => - exp (- x)) 0). auto_derive. auto.
      - apply limInf with 1 0 1; try lra. intros x Hx. rewrite Rabs_Ropp, (Rabs_pos_eq (exp _)) by (left; apply exp_pos). rewrite Rpower_O by lra. right. rewrite !Rmult_1_l. f_equal. ring. }
    assert (D : forall k, is_derive T k (a / (a ^ 2 + k ^ 2))).
    { intros k. assert (Rk : 0 < a ^ 2 + k ^ 2) by nra. assert (HC : forall k, imp (kc a (0 + 1) k) (g 1 * Rpower (a ^ 2 + k ^ 2) (- (1) / 2) * cos (1 * atan (k / a)))). { intros k0. rewrite Rplus_0_l. exact (proj1 (transforms a 1 (g 1) Ha Rlt_0_1 (gamma_ker g 1 G Rlt_0_1) k0)). }
      assert (DD := ks_derive a 0 Ha T _ ltac:(lra) HT HC k). cbv beta in DD. replace (a / (a ^ 2 + k ^ 2)) with (g 1 * Rpower (a ^ 2 + k ^ 2) (- (1) / 2) * cos (1 * atan (k / a))); auto.
      rewrite G1, !Rmult_1_l, cos_atan. replace (- (1) / 2) with (- (/ 2)) by field. rewrite Rpower_Ropp, Rpower_sqrt by auto.
      assert (Q : sqrt (1 + (k / a)²) = sqrt (a ^ 2 + k ^ 2) / a). { now apply sqrt_scale. }
      rewrite Q. assert (S := sqrt_sqrt (a ^ 2 + k ^ 2) ltac:(lra)). assert (SP : 0 < sqrt (a ^ 2 + k ^ 2)) by now apply sqrt_lt_R0. rewrite <- S at 3. field. lra. }
    replace (atan (K / a)) with (T K); auto. assert (Z : T K - atan (K / a) = T 0 - atan (0 / a)).
    { apply (derive0_const (fun k => T k - atan (k / a))). intros k. replace 0 with (a / (a ^ 2 + k ^ 2) - a / (a ^ 2 + k ^ 2)) by ring. apply (is_derive_minus T (fun k => atan (k / a))); auto. auto_derive; auto. unfold Rsqr. assert (0 < a ^ 2 + k ^ 2) by nra. simpl in H |- *. field. lra. }
    assert (T0 : T 0 = 0). { apply (imp_unique (ks a 0 0)); auto. destruct (ks_imp a 0 0 Ha ltac:(lra)) as [w Hw]. assert (Y := imp_scal _ 0 _ Hw). rewrite Rmult_0_l in Y. apply imp_ext with (2 := Y). intros x Hx. unfold ks. rewrite (Rmult_0_l x), sin_0. ring. }
    unfold Rdiv in Z at 2. rewrite T0, Rmult_0_l, atan_0 in Z. lra.
  - assert (N : b <> 2). { intros ->. assert (Q : Reqb 2 2 = true) by (apply Reqb_spec; reflexivity). congruence. }
    set (s := 2 - b). assert (S0 : s <> 0) by (unfold s; lra). assert (S1 : - 1 < s) by (unfold s; lra).
    apply W with (/ K * (g s * Rpower (a ^ 2 + K ^ 2) (- s / 2) * sin (s * atan (K / a)))).
    { unfold s. replace (sin ((b - 2) * atan (K / a))) with (- sin ((2 - b) * atan (K / a))) by (rewrite <- sin_neg; f_equal; ring). replace (- (2 - b) / 2) with (b / 2 - 1) by field. field. lra. }
    apply X. fold s. destruct (Rlt_dec 0 s) as [P|P].
    + exact (proj2 (transforms a s (g s) Ha P (gamma_ker g s G P) K)).
    + assert (T := transforms a (s + 1) (g (s + 1)) Ha ltac:(lra) (gamma_ker g (s + 1) G ltac:(lra)) K). destruct T as [TC TS]. destruct (ks_imp a s K Ha S1) as [v V].
      assert (PP := ks_parts a s K _ _ _ Ha S1 V TC TS). replace (g s * Rpower (a ^ 2 + K ^ 2) (- s / 2) * sin (s * atan (K / a))) with v; auto.
      apply Rmult_eq_reg_l with s; auto. rewrite PP. destruct G as [_ GR]. rewrite (GR s S0). set (w := atan (K / a)). set (q := sqrt (a ^ 2 + K ^ 2)). assert (QP : 0 < q) by now apply sqrt_lt_R0.
      assert (Q : sqrt (1 + (K / a)²) = q / a). { now apply sqrt_scale. }
      assert (CA : a = q * cos w). { unfold w. rewrite cos_atan, Q. field. lra. } assert (SA : K = q * sin w). { unfold w. rewrite sin_atan, Q. field. lra. }
      replace (Rpower (a ^ 2 + K ^ 2) (- s / 2)) with (q * Rpower (a ^ 2 + K ^ 2) (- (s + 1) / 2)). 2: { unfold q. rewrite <- Rpower_sqrt by auto. rewrite <- Rpower_plus. f_equal. field. }
      replace (s * w) with ((s + 1) * w - w) by ring. rewrite sin_minus. set (P0 := Rpower (a ^ 2 + K ^ 2) (- (s + 1) / 2)). clearbody P0. clearbody q. rewrite CA at 1. rewrite SA at 1. ring.
Qed.
Print Assumptions c107_total_mass.
Print Assumptions c107_transform.

(** Euler's Gamma exists, so the hypotheses are met *)
Fixpoint gam_n (G : R -> R) (n : nat) (s : R) : R :=
  if Rlt_dec 0 s then G s else match n with O => 0 | S k => gam_n G k (s + 1) / s end.
Lemma gam_n_fuel : forall G n s, 0 < INR n + s -> gam_n G n s = gam_n G (S n) s.
Proof.
  induction n as [|n IH]; intros s H.
  - simpl in *. destruct (Rlt_dec 0 s); [reflexivity|exfalso; lra].
  - rewrite S_INR in H. change (gam_n G (S (S n)) s) with (if Rlt_dec 0 s then G s else gam_n G (S n) (s + 1) / s).
    change (gam_n G (S n) s) with (if Rlt_dec 0 s then G s else gam_n G n (s + 1) / s). destruct (Rlt_dec 0 s); [reflexivity|]. now rewrite IH by lra.
Qed.
Lemma gam_n_enough : forall G n m s, 0 < INR n + s -> 0 < INR m + s -> gam_n G n s = gam_n G m s.
Proof.
  intros G. assert (A : forall n s d, 0 < INR n + s -> gam_n G n s = gam_n G (n + d) s).
  { intros n s d H. induction d as [|d IH]; [now rewrite Nat.add_0_r|]. rewrite Nat.add_succ_r, <- gam_n_fuel; auto. rewrite plus_INR. assert (P := pos_INR d). lra. }
  intros n m s H1 H2. destruct (Nat.le_ge_cases n m) as [L|L].
  - rewrite (A n s (m - n)%nat H1). f_equal. lia.
  - rewrite (A m s (n - m)%nat H2). f_equal. lia.
Qed.
Lemma euler_gamma_pos : forall s, 0 < s -> exists v, imp (fun x => Rpower x (s - 1) * exp (- x)) v.
Proof. intros s Hs. destruct (ker_imp 1 s Rlt_0_1 Hs) as [v V]. exists v. apply imp_ext with (2 := V). intros x Hx. unfold ker. do 2 f_equal. ring. Qed.
Theorem c107_gamma_exists : exists g, euler_gamma g.
Proof.
  set (G := fun s => RInt_gen (V:=R_CompleteNormedModule) (fun x => Rpower x (s - 1) * exp (- x)) (at_right 0) (Rbar_locally p_infty)).
  assert (HG : forall s, 0 < s -> imp (fun x => Rpower x (s - 1) * exp (- x)) (G s)).
  { intros s Hs. destruct (euler_gamma_pos s Hs) as [v V]. unfold G. rewrite (is_RInt_gen_unique (V:=R_CompleteNormedModule) _ _ V). exact V. }
  assert (K : forall s, 0 < s -> imp (ker 1 s) (G s)). { intros s Hs. apply imp_ext with (2 := HG s Hs). intros x Hx. unfold ker. do 2 f_equal. ring. }
  set (N := fun s : R => Z.to_nat (up (Rabs s))).
  assert (NB : forall s, 0 < INR (N s) + s). { intros s. unfold N. assert (A := archimed (Rabs s)). assert (P := Rabs_pos s). assert (Z0 : (0 <= up (Rabs s))%Z) by (apply le_IZR; lra). rewrite INR_IZR_INZ, Z2Nat.id by auto. assert (L := Rle_abs (- s)). rewrite Rabs_Ropp in L. lra. }
  exists (fun s => gam_n G (N s) s). split.
  - intros s Hs. assert (E : gam_n G (N s) s = G s). { destruct (N s); simpl; destruct (Rlt_dec 0 s); try reflexivity; contradiction. } rewrite E. now apply HG.
  - intros s Hs. destruct (Rlt_dec 0 s) as [P|P].
    + assert (E : gam_n G (N s) s = G s). { destruct (N s); simpl; destruct (Rlt_dec 0 s); try reflexivity; contradiction. }
      assert (E' : gam_n G (N (s + 1)) (s + 1) = G (s + 1)). { destruct (N (s + 1)); simpl; destruct (Rlt_dec 0 (s + 1)); try reflexivity; lra. }
      rewrite E, E'. destruct (kc_imp 1 s 0 Rlt_0_1 P) as [C HC].
      assert (C0 : forall t, 0 < t -> imp (kc 1 t 0) (G t)). { intros t Ht. apply imp_ext with (2 := K t Ht). intros x Hx. unfold kc. rewrite Rmult_0_l, cos_0. ring. }
      destruct (ks_imp 1 (s + 1) 0 Rlt_0_1 ltac:(lra)) as [w Hw].
      assert (Q := kc_parts 1 s 0 _ _ _ Rlt_0_1 P (C0 s P) (C0 (s + 1) ltac:(lra)) Hw). lra.
    + assert (E : gam_n G (N s) s = gam_n G (N (s + 1)) (s + 1) / s).
      { assert (B := NB (s + 1)). rewrite (gam_n_enough G (N s) (S (N (s + 1))) s (NB s)) by (rewrite S_INR; lra). change (gam_n G (S (N (s + 1))) s) with (if Rlt_dec 0 s then G s else gam_n G (N (s + 1)) (s + 1) / s). destruct (Rlt_dec 0 s); [contradiction|reflexivity]. }
      rewrite E. field. auto.
Qed.
Print Assumptions c107_gamma_exists.

Lemma plec_h_pos : forall g a b, euler_gamma g -> 0 < a -> b < 3 -> 0 < plec_h g a b.
Proof.
  intros g a b G Ha Hb. unfold plec_h. apply Rmult_lt_0_compat; [|apply exp_pos].
  assert (I := gamma_ker g (3 - b) G ltac:(lra)). rewrite imp_iff in I by (intros; now apply ker_cont).
  set (d0 := RInt (ker 1 (3 - b)) 1 2). assert (EX : forall u v, 0 < u -> 0 < v -> ex_RInt (ker 1 (3 - b)) u v).
  { intros u v A B. apply (ex_RInt_continuous (V:=R_CompleteNormedModule)). intros z Hz. apply ker_cont. apply Rlt_le_trans with (Rmin u v); [apply Rmin_pos; auto|tauto]. }
  assert (D0 : 0 < d0). { apply RInt_gt_0; try lra. - intros; apply ker_pos. - intros x Hx. apply ker_cont. lra. }
  destruct (Rlt_dec 0 (g (3 - b))) as [P|P]; auto. exfalso. destruct (I d0 D0) as [d [M [Dp [Mp [_ H]]]]].
  set (lo := Rmin (d / 2) 1). set (hi := Rmax (M + 1) 2).
  assert (L1 := Rmin_l (d / 2) 1). assert (L2 := Rmin_r (d / 2) 1). assert (H1 := Rmax_l (M + 1) 2). assert (H2 := Rmax_r (M + 1) 2). assert (LP : 0 < lo) by (apply Rmin_pos; lra). fold lo in L1, L2. fold hi in H1, H2.
  specialize (H lo hi ltac:(lra) ltac:(lra)).
  assert (NN : forall u v, 0 < u <= v -> 0 <= RInt (ker 1 (3 - b)) u v). { intros u v Huv. apply RInt_ge_0; try lra; [apply EX; lra|]. intros; left; apply ker_pos. }
  assert (S1 : RInt (ker 1 (3 - b)) lo hi = RInt (ker 1 (3 - b)) lo 1 + (d0 + RInt (ker 1 (3 - b)) 2 hi)).
  { unfold d0. assert (Q1 := RInt_Chasles (ker 1 (3 - b)) 1 2 hi (EX 1 2 ltac:(lra) ltac:(lra)) (EX 2 hi ltac:(lra) ltac:(lra))). assert (Q2 := RInt_Chasles (ker 1 (3 - b)) lo 1 hi (EX lo 1 LP ltac:(lra)) (EX 1 hi ltac:(lra) ltac:(lra))). unfold plus in Q1, Q2; simpl in Q1, Q2. lra. }
  assert (N1 := NN lo 1 ltac:(lra)). assert (N2 := NN 2 hi ltac:(lra)). apply Rabs_def2 in H. lra.
Qed.

(** the Fourier transform is normalised: at most 1, and 1 - (3-b)(4-b) (k r_s / a)^2 / 6 at least, so it tends to 1 at large scales *)
Theorem c107_u_bounds : forall g a b o k m c coord, euler_gamma g -> 0 < a -> b < 3 -> inst_ok o -> 0 < cm_at_z o m -> 0 < k ->
  exists v r_s, rs_from_m (PowerLawWithExpCut g a b) o m (Some (cm_at_z o m)) None = Ok r_s /\ 0 < r_s /\
    u (PowerLawWithExpCut g a b) o k m (Some "m"%string) c coord = Ok v /\ 1 - (3 - b) * (4 - b) * (k * r_s / a) ^ 2 / 6 <= v <= 1.
Proof.
  intros g a b o k m c coord G Ha Hb Ho Hc Hk. set (s := PowerLawWithExpCut g a b). destruct (rs_ok o s m (cm_at_z o m) Hc) as [rs [R [P _]]].
  exists (plec_p g a b (k * rs) / plec_h g a b), rs. split; auto. split; auto. split.
  { unfold u. change (s_inf s) with true. cbv iota. unfold get_k_variables. change (cm_relation s o m) with (cm_at_z o m). rewrite R. reflexivity. }
  set (K := k * rs). assert (HK : 0 < K) by now apply Rmult_lt_0_compat. assert (HP := plec_h_pos g a b G Ha Hb).
  assert (T := c107_transform g a b K G Ha Hb HK). assert (M := c107_total_mass g a b G Ha Hb).
  assert (FP : forall x, 0 < x -> 0 < plec_f a b x) by (intros; rewrite plec_ker by auto; apply ker_pos).
  assert (H4 : half_line_integral (fun x => plec_f a b x * x ^ 4) ((3 - b) * (4 - b) / a ^ 2 * plec_h g a b)).
  { replace ((3 - b) * (4 - b) / a ^ 2 * plec_h g a b) with (plec_h g a (b - 2)).
    - assert (Q := c107_total_mass g a (b - 2) G Ha ltac:(lra)). apply imp_ext with (2 := Q). intros x Hx. rewrite !plec_ker by auto. rewrite !(Rmult_comm (ker _ _ _)), !ker_pow by auto. f_equal. simpl. ring.
    - unfold plec_h. destruct G as [_ GR]. replace (3 - (b - 2)) with (3 - b + 1 + 1) by ring. rewrite !GR by lra. replace (b - 2 - 3) with (b - 3 + - INR 2) by (simpl; ring). rewrite Rpower_plus, (Rpower_Ropp a (INR 2)), Rpower_pow by auto. field. lra. }
  split.
  - assert (D := imp_minus _ _ _ _ M T). assert (L := Rle_abs (plec_h g a b - plec_p g a b K)).
    assert (B' : plec_h g a b - plec_p g a b K <= K ^ 2 / 6 * ((3 - b) * (4 - b) / a ^ 2 * plec_h g a b)).
    { eapply Rle_trans; [exact L|]. refine (imp_bound _ _ _ _ _ D (imp_scal _ (K ^ 2 / 6) _ H4)). intros x Hx. assert (Y : 0 < K * x) by now apply Rmult_lt_0_compat. assert (S1 := sin_le_id (K * x) ltac:(lra)). assert (S2 := sin_ge_cubic (K * x) ltac:(lra)). assert (F := FP x Hx).
      replace (plec_f a b x * x ^ 2 - x * plec_f a b x * (sin (K * x) / K)) with (plec_f a b x * x / K * (K * x - sin (K * x))) by (field; lra).
      assert (W : 0 < plec_f a b x * x / K) by (apply Rdiv_lt_0_compat; auto; now apply Rmult_lt_0_compat).
      rewrite Rabs_pos_eq by (apply Rmult_le_pos; lra). replace (K ^ 2 / 6 * (plec_f a b x * x ^ 4)) with (plec_f a b x * x / K * ((K * x) ^ 3 / 6)) by (field; lra). apply Rmult_le_compat_l; lra. }
    fold K. apply Rmult_le_reg_r with (plec_h g a b); auto. replace (plec_p g a b K / plec_h g a b * plec_h g a b) with (plec_p g a b K) by (field; lra).
    replace ((1 - (3 - b) * (4 - b) * (K / a) ^ 2 / 6) * plec_h g a b) with (plec_h g a b - K ^ 2 / 6 * ((3 - b) * (4 - b) / a ^ 2 * plec_h g a b)) by (field; lra). lra.
  - assert (B : Rabs (plec_p g a b K) <= plec_h g a b).
    { refine (imp_bound _ _ _ _ _ T M). intros x Hx. assert (Y : 0 < K * x) by now apply Rmult_lt_0_compat. assert (F := FP x Hx). assert (S := sin_abs_le (K * x)). rewrite (Rabs_pos_eq (K * x)) in S by lra.
      replace (x * plec_f a b x * (sin (K * x) / K)) with (plec_f a b x * x / K * sin (K * x)) by (field; lra). assert (W : 0 < plec_f a b x * x / K) by (apply Rdiv_lt_0_compat; auto; now apply Rmult_lt_0_compat).
      rewrite Rabs_mult, (Rabs_pos_eq (_ / K)) by lra. replace (plec_f a b x * x ^ 2) with (plec_f a b x * x / K * (K * x)) by (field; lra). apply Rmult_le_compat_l; lra. }
    assert (L := Rle_abs (plec_p g a b K)). apply Rmult_le_reg_r with (plec_h g a b); auto. unfold Rdiv. rewrite Rmult_assoc, Rinv_l by lra. lra.
Qed.
Print Assumptions c107_u_bounds.

(** the mass-normalised density integrates to one over all space (x = r / r_s) *)
Theorem c107_density_integrates_to_one : forall g a b o m c, euler_gamma g -> 0 < a -> b < 3 -> inst_ok o -> 0 < c ->
  exists r_s, rs_from_m (PowerLawWithExpCut g a b) o m (Some c) None = Ok r_s /\ 0 < r_s /\ exists rh, (forall x, rho (PowerLawWithExpCut g a b) o x m (Some "m"%string) (Some c) "x" = Ok (rh x)) /\
    half_line_integral (fun x => 4 * PI * (r_s * x) ^ 2 * rh x * r_s) 1.
Proof.
  intros g a b o m c G Ha Hb Ho Hc. set (s := PowerLawWithExpCut g a b). destruct (rs_ok o s m c Hc) as [rs [R [P _]]]. assert (HP := plec_h_pos g a b G Ha Hb). assert (PP := PI_RGT_0).
  exists rs. split; auto. split; auto. exists (fun x => plec_f a b x * (1 / (4 * PI * rs ^ 3 * plec_h g a b))). split.
  - intros x. unfold rho, get_r_variables. rewrite R. reflexivity.
  - assert (Q := imp_scal _ (/ plec_h g a b) _ (c107_total_mass g a b G Ha Hb)). rewrite Rinv_l in Q by lra. apply imp_ext with (2 := Q). intros x Hx. field. repeat split; lra.
Qed.
Print Assumptions c107_density_integrates_to_one.

(** finding: the cumulative distribution is 1 at every radius, whereas the mass inside any x is short of the total by a fixed positive
    amount, however small the inner cut-off of the integral *)
Theorem c107_cdf_is_one_refuted : forall g a b o m c x, euler_gamma g -> 0 < a -> b < 3 -> inst_ok o -> 0 < c -> 0 < x ->
  cdf (PowerLawWithExpCut g a b) o x (Some c) m "x" = Ok 1 /\
  exists d, 0 < d /\ forall x0, 0 < x0 < x -> RInt (fun y => plec_f a b y * y ^ 2) x0 x <= (1 - d) * plec_h g a b.
Proof.
  intros g a b o m c x G Ha Hb Ho Hc Hx. set (s := PowerLawWithExpCut g a b). destruct (rs_ok o s m c Hc) as [rs [R [P _]]]. assert (HP := plec_h_pos g a b G Ha Hb). split.
  - unfold cdf, get_r_variables. rewrite R. unfold s. simpl. f_equal. field. lra.
  - set (F := fun y => plec_f a b y * y ^ 2). assert (FK : forall y, 0 < y -> F y = ker a (3 - b) y). { intros y Hy. unfold F. rewrite plec_ker by auto. rewrite Rmult_comm, ker_pow by auto. f_equal. simpl. ring. }
    assert (FC : forall y, 0 < y -> continuous F y). { intros y Hy. apply continuous_ext_loc with (ker a (3 - b)). 2: now apply ker_cont. exists (mkposreal y Hy). intros z Hz. unfold ball in Hz; simpl in Hz; unfold AbsRing_ball, abs, minus, plus, opp in Hz; simpl in Hz. apply Rabs_def2 in Hz. symmetry. apply FK. lra. }
    assert (EX : forall p q, 0 < p -> 0 < q -> ex_RInt F p q). { intros p q A B. apply (ex_RInt_continuous (V:=R_CompleteNormedModule)). intros z Hz. apply FC. apply Rlt_le_trans with (Rmin p q); [apply Rmin_pos; auto|tauto]. }
    assert (FP : forall y, 0 < y -> 0 < F y) by (intros; rewrite FK by auto; apply ker_pos).
    set (d0 := RInt F x (x + 1)). assert (D0 : 0 < d0). { apply RInt_gt_0; try lra. - intros; apply FP; lra. - intros y Hy. apply FC. lra. }
    exists (d0 / plec_h g a b). split; [now apply Rdiv_lt_0_compat|]. intros x0 Hx0. replace ((1 - d0 / plec_h g a b) * plec_h g a b) with (plec_h g a b - d0) by (field; lra).
    apply le_epsilon. intros eps He. assert (I := c107_total_mass g a b G Ha Hb). fold F in I. rewrite imp_iff in I by auto. destruct (I eps He) as [d [M [Dp [Mp [_ H]]]]].
    set (lo := Rmin (d / 2) x0). set (hi := Rmax (M + 1) (x + 1)).
    assert (L1 := Rmin_l (d / 2) x0). assert (L2 := Rmin_r (d / 2) x0). assert (H1 := Rmax_l (M + 1) (x + 1)). assert (H2 := Rmax_r (M + 1) (x + 1)). assert (LP : 0 < lo) by (apply Rmin_pos; lra). fold lo in L1, L2. fold hi in H1, H2.
    specialize (H lo hi ltac:(lra) ltac:(lra)).
    assert (NN : forall p q, 0 < p <= q -> 0 <= RInt F p q). { intros p q Hpq. apply RInt_ge_0; try lra; [apply EX; lra|]. intros; left; apply FP; lra. }
    assert (Q1 := RInt_Chasles F x (x + 1) hi (EX x (x + 1) ltac:(lra) ltac:(lra)) (EX (x + 1) hi ltac:(lra) ltac:(lra))). assert (Q2 := RInt_Chasles F x0 x hi (EX x0 x ltac:(lra) ltac:(lra)) (EX x hi ltac:(lra) ltac:(lra))). assert (Q3 := RInt_Chasles F lo x0 hi (EX lo x0 LP ltac:(lra)) (EX x0 hi ltac:(lra) ltac:(lra))). unfold plus in Q1, Q2, Q3; simpl in Q1, Q2, Q3.
    assert (N1 := NN lo x0 ltac:(lra)). assert (N2 := NN (x + 1) hi ltac:(lra)). fold d0 in Q1. apply Rabs_def2 in H. lra.
Qed.
Print Assumptions c107_cdf_is_one_refuted.

(** the hypotheses are met: the default slope and cut-off *)
Example c107_ex : exists g, euler_gamma g /\ 0 < 0.049 /\ 2.248 < 3 /\ inst_ok (mkInst 200 1 1 0 (fun _ => 1) (fun _ => 4)).
Proof. destruct c107_gamma_exists as [g G]. exists g. split; auto. split; [lra|]. split; [lra|]. unfold inst_ok; simpl; lra. Qed.
