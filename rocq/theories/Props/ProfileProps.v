(** Theorems about halo density profiles (C37-C45, C77-C85).
    [inst_ok o] says that the overdensity and the two mean densities are positive. *)
From Coq Require Import Reals Lra Lia Bool Psatz String List Sorted Permutation.
From Coquelicot Require Import Coquelicot.
From Verif Require Import Model.RBool Model.SpecialFn Model.Profiles Spec.ProfileSpec Proofs.Calc Proofs.HODProofs Proofs.ExclusionProofs
  Proofs.ProfileProofs Proofs.ProfileConv Proofs.ProfileProofs2 Proofs.ProfileProofs3.
Import ListNotations.
Local Open Scope R_scope.

(** The truncated profiles with an analytic mass function; [p] is whatever
    Fourier function Moore inherits. *)
Definition analytic_mass (Si Ci : R -> R) (p : R -> R -> R) : list shape :=
  [NFW Si Ci; Hernquist Si Ci; CoredNFW Si Ci; ConstantProfile; Moore p].
Definition analytic_fourier (Si Ci : R -> R) : list shape := [NFW Si Ci; Hernquist Si Ci; CoredNFW Si Ci; ConstantProfile].
Lemma fourier_mass : forall Si Ci s, In s (analytic_fourier Si Ci) -> In s (analytic_mass Si Ci (fun _ _ => 0)) /\ s_moore s = false /\ s_inf s = false.
Proof. intros Si Ci s H. simpl in *. destruct H as [<-|[<-|[<-|[<-|[]]]]]; simpl; auto 8. Qed.

(** * C37 *)
Theorem c37_mass_function_is_the_integral : forall Si Ci p s c, In s (analytic_mass Si Ci p) -> 0 <= c ->
  is_RInt (fun x => s_f s x * x ^ 2) 0 c (s_h s c).
Proof. intros Si Ci p s c H Hc. destruct (good_all _ _ _ _ H) as [[A _] _]. now apply A. Qed.
Print Assumptions c37_mass_function_is_the_integral.
Theorem c37_mass_function_positive_increasing : forall Si Ci p s, In s (analytic_mass Si Ci p) ->
  (forall c, 0 < c -> 0 < s_h s c) /\ (forall a b, 0 <= a < b -> s_h s a < s_h s b) /\ s_h s 0 = 0.
Proof.
  intros Si Ci p s H. destruct (good_all _ _ _ _ H) as [G _]. split; [|split].
  - intros. now apply good_pos.
  - apply G.
  - apply (h0 (s_f s)). apply G.
Qed.
Print Assumptions c37_mass_function_positive_increasing.

(** * C38 *)
Theorem c38_fourier_function_is_the_sine_transform : forall Si Ci s K c, sine_cosine_integrals Si Ci -> In s (analytic_fourier Si Ci) ->
  0 < K -> 0 <= c -> is_RInt (fun x => x * s_f s x * (sin (K * x) / K)) 0 c (s_p s K c).
Proof.
  intros Si Ci s K c HS H HK Hc. simpl in H.
  destruct H as [<-|[<-|[<-|[<-|[]]]]]; simpl.
  - now apply nfw_sine. - now apply hern_sine. - now apply cored_sine. - now apply const_sine.
Qed.
Print Assumptions c38_fourier_function_is_the_sine_transform.
(** u(k, m, norm="m", c) for k > 0 is a number in [-1, 1], within (k r_s c)^2/6 of 1 *)
Theorem c38_u_bounds : forall Si Ci s o k m c, sine_cosine_integrals Si Ci -> In s (analytic_fourier Si Ci) -> inst_ok o -> 0 < k -> 0 < c ->
  exists v r_s, rs_from_m s o m (Some c) None = Ok r_s /\ u s o k m (Some "m"%string) (Some c) "k" = Ok v /\
    -1 <= v <= 1 /\ 1 - (k * r_s * c) ^ 2 / 6 <= v.
Proof.
  intros Si Ci s o k m c HS H Ho Hk Hc. destruct (fourier_mass _ _ _ H) as [HM [_ HI]].
  destruct (rs_ok o s m c Hc) as [rs [R [P _]]].
  exists (s_p s (k * rs) c / s_h s c), rs. split; auto. destruct (good_all _ _ _ _ HM) as [G _].
  assert (HP := good_pos s c G Hc).
  assert (S := c38_fourier_function_is_the_sine_transform Si Ci s (k * rs) c HS H ltac:(nra) ltac:(lra)).
  destruct (sine_bounds (s_f s) c (k * rs) (s_h s c) (s_p s (k * rs) c)) as [[B1 B2] B3]; auto; try lra; try nra; try apply G; try lra.
  split; [|].
  - unfold u, get_k_variables. rewrite HI, R. reflexivity.
  - assert (Q : s_p s (k * rs) c = s_p s (k * rs) c / s_h s c * s_h s c) by (field; lra).
    set (v := s_p s (k * rs) c / s_h s c) in *. rewrite Q in *. repeat split; apply Rmult_le_reg_r with (s_h s c); lra.
Qed.
Print Assumptions c38_u_bounds.
Theorem c38_u_tends_to_one : forall Si Ci s o m c eps, sine_cosine_integrals Si Ci -> In s (analytic_fourier Si Ci) -> inst_ok o -> 0 < c -> 0 < eps ->
  exists k0, 0 < k0 /\ forall k, 0 < k < k0 -> exists v, u s o k m (Some "m"%string) (Some c) "k" = Ok v /\ Rabs (v - 1) < eps.
Proof.
  intros Si Ci s o m c eps HS H Ho Hc He. destruct (rs_ok o s m c Hc) as [rs [R [P _]]].
  assert (D : 0 < rs * c) by now apply Rmult_lt_0_compat.
  exists (Rmin 1 eps / (rs * c)). split; [apply Rdiv_lt_0_compat; auto; apply Rmin_pos; lra|].
  intros k Hk. destruct (c38_u_bounds Si Ci s o k m c HS H Ho ltac:(lra) Hc) as [v [rs' [R' [U [B1 B2]]]]].
  rewrite R in R'. injection R' as <-. exists v. split; auto.
  assert (X : k * rs * c < Rmin 1 eps). { destruct Hk as [_ Hk]. apply (Rmult_lt_compat_r (rs * c)) in Hk; auto. replace (Rmin 1 eps / (rs * c) * (rs * c)) with (Rmin 1 eps) in Hk by (field; split; lra). lra. }
  assert (X1 := Rmin_l 1 eps). assert (X2 := Rmin_r 1 eps). assert (0 < k * rs * c) by (repeat apply Rmult_lt_0_compat; lra).
  apply Rabs_def1; [lra|]. simpl in B2. set (q := k * rs * c) in *. nra.
Qed.
Print Assumptions c38_u_tends_to_one.

(** * C39 *)
Theorem c39_radius_mass_inverse : forall o m r at_z, inst_ok o -> 0 < m -> 0 < r ->
  halo_radius_to_mass o (halo_mass_to_radius o m at_z) at_z = m /\ halo_mass_to_radius o (halo_radius_to_mass o r at_z) at_z = r.
Proof. intros. split; [now apply hrm_hmr|now apply hmr_hrm]. Qed.
Print Assumptions c39_radius_mass_inverse.
Theorem c39_radius_increasing : forall o m m' at_z, inst_ok o -> 0 < m < m' -> halo_mass_to_radius o m at_z < halo_mass_to_radius o m' at_z.
Proof. intros. now apply hmr_incr. Qed.
(** the enclosed mean density is delta_halo times the chosen mean density *)
Theorem c39_radius_encloses_overdensity : forall o m at_z, inst_ok o -> 0 < m ->
  m / (4 / 3 * PI * halo_mass_to_radius o m at_z ^ 3) = delta_halo o * (if at_z then mean_dens o else mean_density0 o).
Proof.
  intros o m b Ho Hm. rewrite hmr_cube by auto. fold (dens o b). assert (P := PI_RGT_0). assert (D := dens_pos o Ho b). destruct Ho as [A _]. field. repeat split; lra.
Qed.
Theorem c39_virial_velocity : forall o m r, inst_ok o -> 0 < m ->
  virial_velocity o None None = Raise ValueError /\
  virial_velocity o (Some m) r = virial_velocity o (Some m) None /\
  virial_velocity o None (Some (halo_mass_to_radius o m false)) = virial_velocity o (Some m) None /\
  exists v, virial_velocity o (Some m) None = Ok v /\ 0 < v /\ v ^ 2 * halo_mass_to_radius o m false = 6.673 * / 10 ^ 11 * m.
Proof.
  intros o m r Ho Hm. split; [reflexivity|]. split; [destruct r; reflexivity|]. split.
  - unfold virial_velocity. rewrite hrm_hmr by auto. reflexivity.
  - eexists; split; [reflexivity|]. assert (P := hmr_pos o m false). assert (Q : 0 < 6.673 * / 10 ^ 11 * m).
    { apply Rmult_lt_0_compat; auto. apply Rmult_lt_0_compat; [lra|]. apply Rinv_0_lt_compat, pow_lt. lra. }
    assert (D : 0 < 6.673 * / 10 ^ 11 * m / halo_mass_to_radius o m false) by now apply Rdiv_lt_0_compat.
    split; [now apply sqrt_lt_R0|]. unfold pow at 1. rewrite Rmult_1_r, sqrt_sqrt by lra. set (q := 6.673 * / 10 ^ 11 * m) in *. field. lra.
Qed.
Print Assumptions c39_virial_velocity.

(** * C40 *)
Theorem c40_density_integrates_to_one : forall Si Ci p s o m c, In s (analytic_mass Si Ci p) -> inst_ok o -> 0 < c ->
  exists r_s d, rs_from_m s o m (Some c) None = Ok r_s /\ 0 < r_s /\
    (forall r, rho s o r m (Some "m"%string) (Some c) "r" = Ok (d r)) /\
    (forall r, 0 < r -> 0 <= d r) /\ (forall r, r_s * c < r -> d r = 0) /\
    is_RInt (fun r => 4 * PI * r ^ 2 * d r) 0 (r_s * c) 1.
Proof.
  intros Si Ci p s o m c H Ho Hc. destruct (good_all _ _ _ _ H) as [G I]. destruct (rs_ok o s m c Hc) as [rs [R [P _]]].
  assert (HP := good_pos s c G Hc). assert (PP := PI_RGT_0).
  set (a := 1 / (4 * PI * rs ^ 3 * s_h s c)).
  assert (Ha : 0 < a). { unfold a. apply Rdiv_lt_0_compat; [lra|]. apply Rmult_lt_0_compat; auto. apply Rmult_lt_0_compat; [lra|now apply pow_lt]. }
  exists rs, (fun r => a * truncated (s_f s) c (r / rs)). split; auto. split; auto. split; [|split; [|split]].
  - intros r. apply rho_val; auto.
  - intros r Hr. unfold truncated. destruct (Rle_dec (r/rs) c); [|lra]. apply Rmult_le_pos; [lra|]. left. apply G. now apply Rdiv_lt_0_compat.
  - intros r Hr. unfold truncated. destruct (Rle_dec (r/rs) c) as [L|L]; [|ring]. exfalso.
    apply (Rmult_le_compat_r rs) in L; [|lra]. replace (r / rs * rs) with r in L by (field; lra). lra.
  - eapply rint_eq; [apply mass_scale; auto; [lra|apply G; lra]|]. unfold a. req. field. repeat split; lra.
Qed.
Print Assumptions c40_density_integrates_to_one.
Lemma bloated_mass : forall Si Ci s o m c, In s (analytic_fourier Si Ci) -> inst_ok o -> 0 < c -> 0 < m ->
  exists r_s d, rs_from_m s o m (Some c) None = Ok r_s /\
    (forall r, rho s o r m None (Some c) "r" = Ok (d r)) /\
    let total := m * (mean_dens o / mean_density0 o) * bloat o m ^ 3 in
    is_RInt (fun r => 4 * PI * r ^ 2 * d r) 0 (r_s * c) total /\
    (total = m <-> mean_dens o * bloat o m ^ 3 = mean_density0 o).
Proof.
  intros Si Ci s o m c H Ho Hc Hm. destruct (fourier_mass _ _ _ H) as [HM [MO I]]. destruct (good_all _ _ _ _ HM) as [G _].
  destruct (rs_ok o s m c Hc) as [rs [R [P E]]]. specialize (E MO).
  assert (HP := good_pos s c G Hc). assert (PP := PI_RGT_0). destruct Ho as [O1 [O2 O3]]. assert (Ho : inst_ok o) by (repeat split; auto).
  set (a := c ^ 3 * delta_halo o * mean_dens o / (3 * s_h s c)).
  exists rs, (fun r => a * truncated (s_f s) c (r / rs)). split; auto. split; [intros; apply rho_val; auto|]. cbv zeta.
  assert (C := hmr_cube o Ho m false Hm). unfold dens in C. split.
  - eapply rint_eq; [apply mass_scale; auto; [lra|apply G; lra]|]. unfold a.
    replace (4 * PI * (c ^ 3 * delta_halo o * mean_dens o / (3 * s_h s c)) * rs ^ 3 * s_h s c) with (4 * PI / 3 * delta_halo o * mean_dens o * (rs * c) ^ 3) by (field; lra).
    rewrite E, Rpow_mult_distr, C. req. field. repeat split; lra.
  - set (b3 := bloat o m ^ 3). split; intros T.
    + apply Rmult_eq_reg_l with (m / mean_density0 o); [|apply Rgt_not_eq, Rdiv_lt_0_compat; lra].
      replace (m / mean_density0 o * (mean_dens o * b3)) with (m * (mean_dens o / mean_density0 o) * b3) by (field; lra). rewrite T. field. lra.
    + replace (m * (mean_dens o / mean_density0 o) * b3) with (m / mean_density0 o * (mean_dens o * b3)) by (field; lra). rewrite T. field. lra.
Qed.
Lemma bloat_cube : forall o m, 0 < nu_fn o m -> bloat o m ^ 3 = Rpower (nu_fn o m) (3 * eta_bloat o / 2).
Proof.
  intros o m N. unfold bloat. rewrite <- (Rpower_sqrt _ N), Rpower_mult. change (Rpower ?a ?b ^ 3) with (Rpower a b ^ 3).
  rewrite <- Rpower_pow by apply exp_pos. rewrite Rpower_mult. f_equal. simpl. field.
Qed.
(** the enclosed mass is m times the density ratio times nu^(3 eta / 2), nu the (squared) peak height of the halo *)
Theorem c40_density_integrates_to_rescaled_mass : forall Si Ci s o m c, In s (analytic_fourier Si Ci) -> inst_ok o -> 0 < c -> 0 < m -> 0 < nu_fn o m ->
  exists r_s d, rs_from_m s o m (Some c) None = Ok r_s /\
    (forall r, rho s o r m None (Some c) "r" = Ok (d r)) /\
    let total := m * (mean_dens o / mean_density0 o) * Rpower (nu_fn o m) (3 * eta_bloat o / 2) in
    is_RInt (fun r => 4 * PI * r ^ 2 * d r) 0 (r_s * c) total /\
    (total = m <-> mean_dens o * Rpower (nu_fn o m) (3 * eta_bloat o / 2) = mean_density0 o).
Proof. intros Si Ci s o m c H Ho Hc Hm N. destruct (bloated_mass Si Ci s o m c H Ho Hc Hm) as [rs [d [A [B D]]]]. exists rs, d. rewrite bloat_cube in D by auto. auto. Qed.
Print Assumptions c40_density_integrates_to_rescaled_mass.

(** * C41 *)
Theorem c41_cdf : forall Si Ci p s o m c, In s (analytic_mass Si Ci p) -> inst_ok o -> 0 < c ->
  exists F, (forall x, cdf s o x (Some c) m "x" = Ok (F x)) /\ F 0 = 0 /\ F c = 1 /\
    (forall x y, 0 <= x < y -> F x < F y) /\ (forall x, c < x -> 1 < F x /\ rho s o x m None (Some c) "x" = Ok 0).
Proof.
  intros Si Ci p s o m c H Ho Hc. destruct (good_all _ _ _ _ H) as [G I]. destruct (rs_ok o s m c Hc) as [rs [R [P _]]].
  assert (HP := good_pos s c G Hc). exists (fun x => s_h s x / s_h s c).
  assert (MON : forall x y, 0 <= x < y -> s_h s x / s_h s c < s_h s y / s_h s c).
  { intros. apply Rmult_lt_compat_r; [now apply Rinv_0_lt_compat|]. now apply G. }
  assert (ONE : s_h s c / s_h s c = 1) by (field; lra).
  split; [|split; [|split; [|split]]]; auto.
  - intros x. unfold cdf, get_r_variables. rewrite R. reflexivity.
  - rewrite (h0 (s_f s) (s_h s)) by apply G. field. lra.
  - intros x Hx. split; [rewrite <- ONE; apply MON; lra|]. unfold rho, get_r_variables. rewrite R. simpl. rewrite I.
    destruct (Rltb c x) eqn:L; auto. apply Rltb_false in L. lra.
Qed.
Print Assumptions c41_cdf.
Theorem c41_cdf_mass_independent : forall Si Ci p s o m m' c x coord, In s (analytic_mass Si Ci p) -> inst_ok o -> 0 < c -> coord <> "r"%string ->
  cdf s o x (Some c) m coord = cdf s o x (Some c) m' coord.
Proof.
  intros Si Ci p s o m m' c x coord H Ho Hc N. destruct (rs_ok o s m c Hc) as [r1 [R1 _]]. destruct (rs_ok o s m' c Hc) as [r2 [R2 _]].
  unfold cdf, get_r_variables. rewrite R1, R2. simpl. destruct (String.eqb_spec coord "r"); [contradiction|].
  destruct (coord =? "x")%string; [reflexivity|]. destruct (coord =? "s")%string; reflexivity.
Qed.

(** * C42 *)
Theorem c42_coordinates_agree : forall s o m c r r_s norm, s_moore s = false -> inst_ok o -> 0 < c -> rs_from_m s o m (Some c) None = Ok r_s ->
  rho s o r m norm (Some c) "r" = rho s o (r / r_s) m norm (Some c) "x" /\
  cdf s o r (Some c) m "r" = cdf s o (r / r_s) (Some c) m "x" /\
  lam s o r m norm (Some c) "r" = lam s o (r / r_s) m norm (Some c) "x" /\
  (bloat o m = 1 -> let s0 := r / halo_mass_to_radius o m false in
   rho s o r m norm (Some c) "r" = rho s o s0 m norm (Some c) "s" /\
   cdf s o r (Some c) m "r" = cdf s o s0 (Some c) m "s" /\
   lam s o r m norm (Some c) "r" = lam s o s0 m norm (Some c) "s").
Proof.
  intros s o m c r rs norm MO Ho Hc R.
  assert (X : get_r_variables s o r m (Some c) "r" = get_r_variables s o (r / rs) m (Some c) "x") by (unfold get_r_variables; rewrite R; reflexivity).
  split; [unfold rho; now rewrite X|]. split; [unfold cdf; now rewrite X|]. split; [unfold lam; now rewrite X|].
  intros B. cbv zeta.
  destruct (rs_ok o s m c Hc) as [rs' [R' [P E]]]. rewrite R in R'. injection R' as <-. specialize (E MO). rewrite B, Rmult_1_r in E.
  assert (Y : get_r_variables s o r m (Some c) "r" = get_r_variables s o (r / halo_mass_to_radius o m false) m (Some c) "s").
  { unfold get_r_variables. rewrite R. simpl. do 2 f_equal. rewrite <- E. field. split; lra. }
  split; [unfold rho; now rewrite Y|]. split; [unfold cdf; now rewrite Y|]. unfold lam; now rewrite Y.
Qed.
Print Assumptions c42_coordinates_agree.
Theorem c42_kappa : forall s o k m c r_s norm, s_inf s = false -> rs_from_m s o m (Some c) None = Ok r_s ->
  u s o k m norm (Some c) "k" = u s o (k * r_s) m norm (Some c) "kappa".
Proof. intros s o k m c rs norm I R. unfold u, get_k_variables. rewrite I, R. reflexivity. Qed.
Theorem c42_normalisations : forall s o x m c coord,
  u s o x m None c coord = rmap (fun v => v * m) (u s o x m (Some "m"%string) c coord) /\
  rho s o x m None c coord = rmap (fun v => mean_dens o * v) (rho s o x m (Some "rho"%string) c coord).
Proof.
  intros. split.
  - unfold u. destruct (if s_inf s then _ else _) as [[? ?]|]; reflexivity.
  - unfold rho. destruct (get_r_variables _ _ _ _ _ _) as [[[c0 rs] x0]|]; simpl; [|reflexivity].
    unfold rmap; simpl. f_equal. destruct (s_inf s); [unfold Rdiv; ring|]. destruct (Rltb c0 x0); [ring|unfold Rdiv; ring].
Qed.
Print Assumptions c42_normalisations.
Theorem c42_errors : forall s o x m c coord norm, s_moore s = false \/ (exists c0, c = Some c0) ->
  (coord <> "r" -> coord <> "x" -> coord <> "s" ->
     rho s o x m norm c coord = Raise ValueError /\ cdf s o x c m coord = Raise ValueError /\ (s_l s <> None -> lam s o x m norm c coord = Raise ValueError))%string /\
  (s_inf s = false -> coord <> "k" -> coord <> "kappa" -> u s o x m norm c coord = Raise UnboundLocalError)%string /\
  (norm <> None -> norm <> Some "m" -> norm <> Some "rho" -> rho s o x m norm c "x" = Raise UnboundLocalError)%string /\
  (norm <> None -> norm <> Some "m" -> u s o x m norm c "k" = Raise ValueError /\ (s_l s <> None -> lam s o x m norm c "x" = Raise ValueError))%string.
Proof.
  intros s o x m c coord norm HM.
  assert (RS : exists rs, rs_from_m s o m (Some match c with None => cm_relation s o m | Some c => c end) None = Ok rs).
  { unfold rs_from_m. destruct (s_moore s); eauto. }
  destruct RS as [rs R].
  assert (NN : forall b, norm <> None -> norm <> Some b -> forall n, norm = Some n -> (n =? b)%string = false).
  { intros b _ H n ->. apply String.eqb_neq. congruence. }
  split; [|split; [|split]].
  - intros A B C. apply String.eqb_neq in A, B, C.
    assert (V : get_r_variables s o x m c coord = Raise ValueError) by (unfold get_r_variables; rewrite R; simpl; rewrite A, B, C; reflexivity).
    unfold rho, cdf, lam. rewrite V. repeat split; auto. destruct (s_l s); [reflexivity|contradiction].
  - intros I A B. apply String.eqb_neq in A, B. unfold u. rewrite I. unfold get_k_variables. rewrite R. simpl. rewrite A, B. reflexivity.
  - intros A B C. unfold rho, get_r_variables. rewrite R. simpl. destruct norm as [n|]; [|congruence]. simpl.
    rewrite (NN "m"%string A B n eq_refl), (NN "rho"%string A C n eq_refl). reflexivity.
  - intros A B. split.
    + assert (RS2 : exists rs, rs_from_m s o m (Some (cm_relation s o m)) None = Ok rs) by (unfold rs_from_m; destruct (s_moore s); eauto).
      destruct RS2 as [rs2 R2]. unfold u, get_k_variables. rewrite R, R2. destruct norm as [n|]; [|congruence].
      destruct (s_inf s); simpl; rewrite (NN "m"%string A B n eq_refl); reflexivity.
    + intros L. unfold lam, get_r_variables. rewrite R. destruct (s_l s); [|contradiction]. simpl. destruct norm as [n|]; [|congruence].
      rewrite (NN "m"%string A B n eq_refl). reflexivity.
Qed.
Print Assumptions c42_errors.

(** * C43 *)
(** x-coordinate of the virial radius (no bloating) *)
Theorem c43_virial_coordinate : forall s o m c, inst_ok o -> 0 < c -> bloat o m = 1 ->
  exists r_s, rs_from_m s o m (Some c) None = Ok r_s /\
    let x := halo_mass_to_radius o m false / r_s in
    (s_moore s = false -> x = c) /\
    (s_moore s = true -> x = Rpower (c / 1.7) 0.9 /\ (x = c <-> c = Rpower (c / 1.7) 0.9)).
Proof.
  intros s o m c Ho Hc B. unfold rs_from_m. assert (HR := hmr_pos o m false). assert (PR : 0 < Rpower (c / 1.7) 0.9) by apply exp_pos.
  destruct (s_moore s).
  - eexists; split; [reflexivity|]. cbv zeta. split; [discriminate|]. intros _.
    assert (E : halo_mass_to_radius o m false / (base_rs o m c false * c / Rpower (c / 1.7) 0.9) = Rpower (c / 1.7) 0.9).
    { unfold base_rs. rewrite B. field. repeat split; lra. }
    rewrite E. split; auto. split; intros; lra.
  - eexists; split; [reflexivity|]. cbv zeta. split; [|discriminate]. intros _. unfold base_rs. rewrite B. field. split; lra.
Qed.
Print Assumptions c43_virial_coordinate.
(** with the concentration Moore itself derives, the virial radius is at c = (cm/1.7)^0.9
    but gets coordinate ((cm/1.7)^0.9/1.7)^0.9: strictly smaller for every cm > 1.7 *)
Theorem c43_moore_virial_coordinate_refuted : forall p o m, inst_ok o -> bloat o m = 1 -> 1.7 < cm_at_z o m ->
  exists c r_s x, c = cm_relation (Moore p) o m /\
    get_r_variables (Moore p) o (halo_mass_to_radius o m false) m None "r" = Ok (c, r_s, x) /\ x < c.
Proof.
  intros p o m Ho B HC. set (c := Rpower (cm_at_z o m / 1.7) 0.9).
  assert (Hc : 1 < c). { unfold c. replace 1 with (Rpower 1 0.9) at 1 by (unfold Rpower; rewrite ln_1, Rmult_0_r; apply exp_0). apply Rlt_Rpower_l; [lra|]. split; [lra|]. apply Rmult_lt_reg_r with 1.7; [lra|]. replace (cm_at_z o m / 1.7 * 1.7) with (cm_at_z o m) by (replace 1.7 with (17/10) by lra; field). lra. }
  destruct (c43_virial_coordinate (Moore p) o m c Ho ltac:(lra) B) as [rs [R [_ X]]]. destruct (X eq_refl) as [X1 _].
  exists c, rs, (halo_mass_to_radius o m false / rs). split; [reflexivity|]. split.
  - unfold get_r_variables. change (cm_relation (Moore p) o m) with c. rewrite R. reflexivity.
  - rewrite X1. apply Rlt_le_trans with (Rpower c 0.9).
    + apply Rlt_Rpower_l; [lra|]. split; [apply Rdiv_lt_0_compat; lra|]. apply Rmult_lt_reg_r with 1.7; [lra|]. replace (c / 1.7 * 1.7) with c by (replace 1.7 with (17/10) by lra; field). lra.
    + rewrite <- (Rpower_1 c) at 2 by lra. apply Rle_Rpower; lra.
Qed.
Print Assumptions c43_moore_virial_coordinate_refuted.
Theorem c43_moore_scale_radius_fails : forall p o m at_z, scale_radius (Moore p) o m at_z = Raise TypeError /\ rs_from_m (Moore p) o m None None = Raise TypeError.
Proof. intros. split; reflexivity. Qed.
(** leaving c out is the same as passing the cm relation's value, rescaled to (cm/1.7)^0.9 by the Moore profiles and unchanged by all others *)
Theorem c43_default_concentration : forall s o r m norm coord, s_inf s = false ->
  let c := if s_moore s then Rpower (cm_at_z o m / 1.7) 0.9 else cm_at_z o m in
  rho s o r m norm None coord = rho s o r m norm (Some c) coord /\ u s o r m norm None coord = u s o r m norm (Some c) coord /\
  cdf s o r None m coord = cdf s o r (Some c) m coord.
Proof. intros s o r m norm coord I c. unfold rho, u, cdf, get_r_variables, get_k_variables. rewrite I. unfold c, cm_relation. destruct (s_moore s); repeat split. Qed.
Theorem c43_other_scale_radius : forall s o m at_z, s_moore s = false -> 0 < cm_at_z o m ->
  exists r, scale_radius s o m at_z = Ok r /\ r * cm_at_z o m = halo_mass_to_radius o m at_z * bloat o m.
Proof.
  intros s o m b M C. unfold scale_radius, rs_from_m. rewrite M. eexists; split; [reflexivity|]. unfold base_rs, cm_relation. rewrite M. field. lra.
Qed.

(** * C44 *)
(** lam(r, m, norm) is the self-convolution of rho(., m, norm) at separation r, for both norms *)
Theorem c44_nfw_lam_is_self_convolution : forall Si Ci o m c r norm, inst_ok o -> 0 < c -> 0 < r -> norm = None \/ norm = Some "m"%string ->
  exists r_s d l, rs_from_m (NFW Si Ci) o m (Some c) None = Ok r_s /\
    (forall y, rho (NFW Si Ci) o y m norm (Some c) "r" = Ok (d y)) /\ lam (NFW Si Ci) o r m norm (Some c) "r" = Ok l /\
    is_RInt (fun y => y * d y * RInt (fun z => z * d z) (Rabs (r - y)) (r + y)) 0 (r_s * c) (r / (2 * PI) * l).
Proof.
  intros Si Ci o m c r norm Ho Hc Hr HN. set (s := NFW Si Ci). destruct (rs_ok o s m c Hc) as [rs [R [P _]]].
  assert (A : exists a, rho_s s o c rs norm = Ok a) by (destruct HN as [-> | ->]; eexists; reflexivity). destruct A as [a A].
  exists rs, (fun y => a * truncated nfw_f c (y / rs)), (nfw_l (r / rs) c * rs ^ 3 * a ^ 2). split; auto. split; [apply (rho_val s); auto|]. split.
  - assert (V : get_r_variables s o r m (Some c) "r" = Ok (c, rs, r / rs)) by (unfold get_r_variables; rewrite R; reflexivity).
    unfold lam. change (s_l s) with (Some nfw_l). rewrite V. unfold bind at 1.
    destruct HN as [-> | ->]; [|change ("m" =? "m")%string with true]; cbv iota; unfold rmap; rewrite A; reflexivity.
  - assert (X : 0 < r / rs) by now apply Rdiv_lt_0_compat. assert (PP := PI_RGT_0).
    assert (C := nfw_conv c (r / rs) Hc X). unfold self_convolution_truncated in C. cbv zeta in C.
    apply (outer_scale _ (fun t => Hn (Rmin t c) - Hn 0) a rs) in C; auto; [|intros; now apply nfw_inner|lra].
    eapply rint_eq; [eapply rext; [|intros y Hy; cbv beta|exact C]|].
    + nra.
    + unfold shell_average. replace (rs * (r / rs)) with r by (field; lra). reflexivity.
    + req. field. split; lra.
Qed.
Print Assumptions c44_nfw_lam_is_self_convolution.
Lemma glue : forall (f g h : R -> R) p, continuous f p -> continuous g p -> f p = g p -> locally p (fun x => h x = f x \/ h x = g x) -> h p = f p -> continuous h p.
Proof.
  intros f g h p Cf Cg E L Hp. unfold continuous in *. rewrite Hp. apply filterlim_locally. intros eps.
  assert (Lf := proj1 (filterlim_locally _ _) Cf eps). rewrite <- E in Cg. assert (Lg := proj1 (filterlim_locally _ _) Cg eps).
  generalize (filter_and _ _ (filter_and _ _ Lf Lg) L). apply filter_imp. intros x [[A B] [-> | ->]]; auto.
Qed.
Lemma near : forall p d (P : R -> Prop), 0 < d -> (forall y, p - d < y < p + d -> P y) -> locally p P.
Proof.
  intros p d P Hd H. exists (mkposreal d Hd). intros y Hy. unfold ball in Hy; simpl in Hy. unfold AbsRing_ball, abs, minus, plus, opp in Hy; simpl in Hy.
  apply Rabs_def2 in Hy. apply H. lra.
Qed.
Lemma nfw_lo_cont : forall c, 0 < c -> continuous (fun x => nfw_l_lo x c) c.
Proof.
  intros c Hc. cont (fun x => nfw_l_lo x c). unfold nfw_l_lo. cbv zeta. set (a := 1 / c). assert (A : 0 < a) by (apply Rdiv_lt_0_compat; lra).
  assert (AC : a * c = 1) by (unfold a; field; lra). clearbody a.
  auto_derive. replace (1 + a - a * c) with a by lra. repeat split; try lra; try (apply Rgt_not_eq).
  - repeat (apply Rmult_lt_0_compat; try lra).
  - apply Rmult_lt_0_compat; [apply Rmult_lt_0_compat; lra|apply Rinv_0_lt_compat; lra].
  - repeat (apply Rmult_lt_0_compat; try lra).
  - repeat (apply Rmult_lt_0_compat; try lra).
Qed.
Lemma nfw_hi_cont : forall c x, 0 < c -> c <= x -> continuous (fun x => nfw_l_hi x c) x.
Proof.
  intros c x Hc Hx. cont (fun x => nfw_l_hi x c). unfold nfw_l_hi. cbv zeta. set (a := 1 / c). assert (A : 0 < a) by (apply Rdiv_lt_0_compat; lra).
  assert (AC : a * c = 1) by (unfold a; field; lra). clearbody a. assert (0 <= a * x - 1) by nra.
  auto_derive. repeat split; try lra; try (apply Rgt_not_eq).
  - apply Rmult_lt_0_compat; [lra|apply Rinv_0_lt_compat; lra].
  - repeat (apply Rmult_lt_0_compat; try lra).
  - repeat (apply Rmult_lt_0_compat; try lra).
Qed.
Theorem c44_nfw_lam_shape : forall c, 0 < c ->
  (forall x, 0 < x -> 0 <= nfw_l x c) /\ (forall x, 2 * c <= x -> nfw_l x c = 0) /\
  continuous (fun x => nfw_l x c) c /\ continuous (fun x => nfw_l x c) (2 * c).
Proof.
  intros c Hc.
  assert (Z : forall x, 2 * c <= x -> nfw_l x c = 0).
  { intros x Hx. apply (conv_unique nfw_f c x); [lra|apply nfw_conv; lra|apply nfw_conv_far; lra]. }
  split; [intros; now apply nfw_l_nonneg|]. split; [exact Z|]. split.
  - apply (glue (fun x => nfw_l_lo x c) (fun x => nfw_l_hi x c)).
    + now apply nfw_lo_cont. + apply nfw_hi_cont; lra. + now apply nfw_l_at_c.
    + apply near with c; auto. intros y Hy. unfold nfw_l. destruct (Rleb y c); auto. destruct (Rleb y (2*c)) eqn:E; auto. apply Rleb_false in E. lra.
    + unfold nfw_l. destruct (Rleb c c) eqn:E; auto. apply Rleb_false in E. lra.
  - apply (glue (fun x => nfw_l_hi x c) (fun x => 0)).
    + apply nfw_hi_cont; lra. + apply continuous_const. + now apply nfw_l_at_2c.
    + apply near with c; auto. intros y Hy. unfold nfw_l. destruct (Rleb y c) eqn:E; [apply Rleb_spec in E; lra|]. destruct (Rleb y (2*c)); auto.
    + rewrite Z by lra. symmetry. now apply nfw_l_at_2c.
Qed.
Print Assumptions c44_nfw_lam_shape.

(** * C45 *)
Lemma vnorm_zero : forall v, vnorm v = 0 -> v = (0, 0, 0).
Proof.
  intros [[a b] d] H. unfold vnorm in H. apply sqrt_eq_0 in H; [|nra].
  assert (a = 0) by nra. assert (b = 0) by nra. assert (d = 0) by nra. now subst.
Qed.
Lemma vnorm_pos : forall v, v <> (0, 0, 0) -> 0 < vnorm v.
Proof.
  intros v N. assert (0 <= vnorm v) by (destruct v as [[a b] d]; apply sqrt_pos). destruct (Req_dec (vnorm v) 0) as [E|E]; [|lra].
  apply vnorm_zero in E. contradiction.
Qed.
Lemma vnorm_scale : forall k v, vnorm (vscale k v) = Rabs k * vnorm v.
Proof.
  intros k [[a b] d]. unfold vnorm, vscale. replace ((k*a)^2 + (k*b)^2 + (k*d)^2) with (k^2 * (a^2+b^2+d^2)) by ring.
  rewrite sqrt_mult by nra. f_equal. replace (k^2) with (Rsqr k) by (unfold Rsqr; ring). apply sqrt_Rsqr_abs.
Qed.
Lemma point_dist : forall s o spl m c centre rnd nrm p r_s, rs_from_m s o m (Some c) None = Ok r_s -> 0 < r_s ->
  populate_point s o spl m (Some c) centre rnd nrm = Ok p -> nrm <> (0,0,0) ->
  vnorm (vadd p (vscale (-1) centre)) = r_s * Rabs (populate_x s spl c rnd).
Proof.
  intros s o spl m c centre rnd nrm p rs R P E N. unfold populate_point, get_r_variables in E. rewrite R in E. simpl in E. injection E as <-.
  assert (V := vnorm_pos nrm N).
  replace (vadd (vadd (vscale (rs * populate_x s spl c rnd / vnorm nrm) nrm) centre) (vscale (-1) centre))
    with (vscale (rs * populate_x s spl c rnd / vnorm nrm) nrm).
  - rewrite vnorm_scale. unfold Rdiv. rewrite !Rabs_mult, (Rabs_pos_eq rs), (Rabs_pos_eq (/ vnorm nrm)) by (try lra; left; now apply Rinv_0_lt_compat).
    field. lra.
  - destruct nrm as [[a b] d], centre as [[x y] z]. unfold vadd, vscale. apply f_equal2; [apply f_equal2|]; ring.
Qed.
Theorem c45_points_at_drawn_radius : forall s o spl m c centre draws, 0 < c ->
  exists pts r_s, populate s o spl m (Some c) centre draws = Ok pts /\ rs_from_m s o m (Some c) None = Ok r_s /\ 0 < r_s /\
  length pts = length draws /\
  forall i rnd nrm, nth_error draws i = Some (rnd, nrm) -> nrm <> (0, 0, 0) ->
    exists p, nth_error pts i = Some p /\ vnorm (vadd p (vscale (-1) centre)) = r_s * Rabs (populate_x s spl c rnd).
Proof.
  intros s o spl m c centre draws Hc. destruct (rs_ok o s m c Hc) as [rs [R [P _]]].
  induction draws as [|[rnd nrm] rest [pts [rs' [A [B [_ [L H]]]]]]].
  - exists [], rs. repeat split; auto. intros [|i] ? ? E; discriminate.
  - assert (EP : exists p, populate_point s o spl m (Some c) centre rnd nrm = Ok p).
    { unfold populate_point, get_r_variables. rewrite R. simpl. eauto. }
    destruct EP as [p EP]. exists (p :: pts), rs. split; [simpl; rewrite EP; simpl; rewrite A; reflexivity|]. split; auto. split; auto. split; [simpl; auto|].
    rewrite R in B. injection B as <-.
    intros [|i] rnd' nrm' E N; simpl in E.
    + injection E as <- <-. exists p. split; [reflexivity|]. eapply point_dist; eauto.
    + simpl. eauto.
Qed.
Print Assumptions c45_points_at_drawn_radius.
(** inside the virial radius whenever the inverse CDF lies in [0, c] *)
Theorem c45_points_inside : forall s o spl m c centre draws, s_moore s = false -> 0 < c -> 
  exists pts, populate s o spl m (Some c) centre draws = Ok pts /\
  forall i rnd nrm, nth_error draws i = Some (rnd, nrm) -> nrm <> (0, 0, 0) -> 0 <= populate_x s spl c rnd <= c ->
    exists p, nth_error pts i = Some p /\ vnorm (vadd p (vscale (-1) centre)) <= halo_mass_to_radius o m false * bloat o m.
Proof.
  intros s o spl m c centre draws M Hc. destruct (c45_points_at_drawn_radius s o spl m c centre draws Hc) as [pts [rs [A [B [P [_ H]]]]]].
  exists pts. split; auto. intros i rnd nrm E N X. destruct (H i rnd nrm E N) as [p [E1 E2]]. exists p. split; auto. rewrite E2, Rabs_pos_eq by lra.
  destruct (rs_ok o s m c Hc) as [rs' [R [_ EE]]]. rewrite B in R. injection R as <-. rewrite <- (EE M). apply Rmult_le_compat_l; lra.
Qed.
(** the tabulated inverse CDF is fitted on strictly increasing abscissae from 0 to 1 *)
Theorem c45_inverse_cdf_nodes : forall Si Ci p s c, In s (analytic_mass Si Ci p) -> 0 < c ->
  let xs := populate_grid c in
  length xs = 1000%nat /\ nth 0 xs 0 = 0 /\ nth 999 xs 0 = c /\
  (forall i j, (i < j < 1000)%nat -> nth i xs 0 < nth j xs 0 /\ s_h s (nth i xs 0) / s_h s c < s_h s (nth j xs 0) / s_h s c) /\
  s_h s (nth 0 xs 0) / s_h s c = 0 /\ s_h s (nth 999 xs 0) / s_h s c = 1.
Proof.
  intros Si Ci p s c H Hc xs. destruct (good_all _ _ _ _ H) as [G _]. assert (HP := good_pos s c G Hc).
  assert (N : forall i, (i < 1000)%nat -> nth i xs 0 = INR i / 999 * c).
  { intros i Hi. unfold xs, populate_grid. set (f := fun i : nat => INR i / 999 * c). rewrite (nth_indep (map f (seq 0 1000)) 0 (f 0%nat)) by (rewrite map_length, seq_length; auto).
    rewrite (map_nth f (seq 0 1000) 0%nat i), seq_nth by auto. reflexivity. }
  assert (N0 : nth 0 xs 0 = 0) by (rewrite N by lia; simpl; field).
  assert (N9 : nth 999 xs 0 = c). { rewrite N by lia. replace (INR 999) with 999 by (rewrite INR_IZR_INZ; reflexivity). field. }
  split; [unfold xs, populate_grid; now rewrite map_length, seq_length|]. split; auto. split; auto. split; [|split].
  - intros i j Hij. rewrite !N by lia. assert (L : INR i < INR j) by (apply lt_INR; lia). assert (0 <= INR i) by apply pos_INR.
    assert (X : 0 <= INR i / 999 * c < INR j / 999 * c). { split; [|]. - apply Rmult_le_pos; [|lra]. unfold Rdiv. lra. - apply Rmult_lt_compat_r; auto. unfold Rdiv. lra. }
    split; [lra|]. apply Rmult_lt_compat_r; [now apply Rinv_0_lt_compat|]. now apply G.
  - rewrite N0. rewrite (h0 (s_f s) (s_h s)) by apply G. field. lra.
  - rewrite N9. field. lra.
Qed.
Print Assumptions c45_inverse_cdf_nodes.
