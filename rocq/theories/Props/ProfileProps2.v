(** Further theorems about halo density profiles (C77-C85): findings. *)
From Coq Require Import Reals Lra Lia Bool Psatz String List Sorted Permutation.
From Coquelicot Require Import Coquelicot.
From Verif Require Import Model.RBool Model.SpecialFn Model.Profiles Spec.ProfileSpec Proofs.Calc Proofs.HODProofs Proofs.ExclusionProofs
  Proofs.ProfileProofs Proofs.ProfileConv Proofs.ProfileProofs2 Proofs.ProfileProofs3 Props.ProfileProps.
Import ListNotations.
Local Open Scope R_scope.

(** * C77 *)
(** physical self-convolution of an untruncated profile at separation r *)
Definition physical_convolution (d : R -> R) (r l : R) : Prop :=
  is_lim (fun b => RInt (fun y => y * d y * RInt (fun z => z * d z) (Rabs (r - y)) (r + y)) 0 b) p_infty (r / (2 * PI) * l).
Lemma conv_scale_inf : forall (g I O : R -> R) a rs r v, 0 < rs -> 0 < r -> (forall t, 0 <= t -> is_RInt (fun z => z * g z) 0 t (I t)) ->
  (forall b, r / rs <= b -> is_RInt (fun y => y * g y * shell_average g (r / rs) y) 0 b (O b)) ->
  self_convolution g (r / rs) v -> physical_convolution (fun y => a * g (y / rs)) r (v * rs ^ 3 * a ^ 2).
Proof.
  intros g I O a rs r v Hr Hx HI HO C. assert (X : 0 < r / rs) by now apply Rdiv_lt_0_compat. assert (PP := PI_RGT_0).
  unfold physical_convolution, self_convolution in *.
  apply is_lim_ext_loc with (fun b => a ^ 2 * rs ^ 4 * RInt (fun y => y * g y * shell_average g (r / rs) y) 0 (/ rs * b + 0)).
  { exists (rs * (r / rs)). intros b Hb. assert (B : r / rs <= / rs * b + 0).
    { apply Rmult_le_reg_l with rs; auto. replace (rs * (/ rs * b + 0)) with b by (field; lra). lra. }
    assert (S := outer_scale g I a rs (r / rs) (/ rs * b + 0) _ Hr HI X ltac:(lra) (HO _ B)).
    replace (rs * (/ rs * b + 0)) with b in S by (field; lra). replace (rs * (r / rs)) with r in S by (field; lra).
    rewrite (rint_u _ _ _ _ (HO _ B)). symmetry. apply rint_u in S. exact S. }
  replace (r / (2 * PI) * (v * rs ^ 3 * a ^ 2)) with (a ^ 2 * rs ^ 4 * (r / rs / (2 * PI) * v)) by (field; split; lra).
  apply (is_lim_scal_l _ (a ^ 2 * rs ^ 4) p_infty (r / rs / (2 * PI) * v)).
  apply (is_lim_comp_lin (fun b => RInt (fun y => y * g y * shell_average g (r / rs) y) 0 b) (/ rs) 0 p_infty); [|apply Rgt_not_eq, Rinv_0_lt_compat; lra].
  simpl. destruct (Rle_dec 0 (/ rs)) as [L|L]; [|exfalso; apply L; left; now apply Rinv_0_lt_compat].
  destruct (Rle_lt_or_eq_dec 0 (/ rs) L) as [L2|L2]; [exact C|]. assert (0 < / rs) by now apply Rinv_0_lt_compat. lra.
Qed.
Lemma lam_val : forall s o m c rs r norm a l, s_l s = Some l -> rs_from_m s o m (Some c) None = Ok rs -> rho_s s o c rs norm = Ok a ->
  norm = None \/ norm = Some "m"%string -> lam s o r m norm (Some c) "r" = Ok (l (r / rs) c * rs ^ 3 * a ^ 2).
Proof.
  intros s o m c rs r norm a l L R A HN.
  assert (V : get_r_variables s o r m (Some c) "r" = Ok (c, rs, r / rs)) by (unfold get_r_variables; rewrite R; reflexivity).
  unfold lam. rewrite L, V. unfold bind at 1.
  destruct HN as [-> | ->]; [|change ("m" =? "m")%string with true]; cbv iota; unfold rmap; rewrite A; reflexivity.
Qed.
Theorem c77_nfwinf_lam_is_self_convolution : forall Si Ci o m c r norm, 0 < c -> 0 < r -> norm = None \/ norm = Some "m"%string ->
  exists d l, (forall y, rho (NFWInf Si Ci) o y m norm (Some c) "r" = Ok (d y)) /\ lam (NFWInf Si Ci) o r m norm (Some c) "r" = Ok l /\
    physical_convolution d r l.
Proof.
  intros Si Ci o m c r norm Hc Hr HN. set (s := NFWInf Si Ci). destruct (rs_ok o s m c Hc) as [rs [R [P _]]].
  assert (A : exists a, rho_s s o c rs norm = Ok a) by (destruct HN as [-> | ->]; eexists; reflexivity). destruct A as [a A].
  exists (fun y => a * nfw_f (y / rs)), (nfwinf_l (r / rs) * rs ^ 3 * a ^ 2). split; [apply (rho_val_inf s); auto|]. split.
  - apply (lam_val s o m c rs r norm a (fun x _ => nfwinf_l x)); auto.
  - assert (X : 0 < r / rs) by now apply Rdiv_lt_0_compat.
    eapply (conv_scale_inf nfw_f (fun t => Hn t - Hn 0)); auto; [intros; now apply nfwu_inner|intros b Hb; apply nfwu_outer; lra|now apply nfwinf_conv].
Qed.
Print Assumptions c77_nfwinf_lam_is_self_convolution.
Theorem c77_herninf_lam_is_four_times_self_convolution : forall Si Ci o m c r norm, 0 < c -> 0 < r -> norm = None \/ norm = Some "m"%string ->
  exists d l, (forall y, rho (HernquistInf Si Ci) o y m norm (Some c) "r" = Ok (d y)) /\ lam (HernquistInf Si Ci) o r m norm (Some c) "r" = Ok (4 * l) /\
    physical_convolution d r l.
Proof.
  intros Si Ci o m c r norm Hc Hr HN. set (s := HernquistInf Si Ci). destruct (rs_ok o s m c Hc) as [rs [R [P _]]].
  assert (A : exists a, rho_s s o c rs norm = Ok a) by (destruct HN as [-> | ->]; eexists; reflexivity). destruct A as [a A].
  exists (fun y => a * hern_f (y / rs)), (herninf_l (r / rs) / 4 * rs ^ 3 * a ^ 2). split; [apply (rho_val_inf s); auto|]. split.
  - rewrite (lam_val s o m c rs r norm a (fun x _ => herninf_l x)); auto. f_equal. field.
  - assert (X : 0 < r / rs) by now apply Rdiv_lt_0_compat.
    eapply (conv_scale_inf hern_f (fun t => Hh t - Hh 0)); auto; [intros; now apply hern_inner|intros b Hb; apply hern_outer; lra|now apply herninf_conv].
Qed.
Print Assumptions c77_herninf_lam_is_four_times_self_convolution.
(** so it is never the self-convolution *)
Lemma physical_unique : forall d r v w, 0 < r -> physical_convolution d r v -> physical_convolution d r w -> v = w.
Proof.
  intros d r v w Hr A B. unfold physical_convolution in *. apply is_lim_unique in A. apply is_lim_unique in B. rewrite A in B.
  injection B; intros E. apply Rmult_eq_reg_l in E; auto. assert (P := PI_RGT_0). apply Rgt_not_eq. apply Rdiv_lt_0_compat; lra.
Qed.
Theorem c77_herninf_lam_refuted : forall Si Ci o m c r d l, inst_ok o -> 0 < c -> 0 < r ->
  (forall y, rho (HernquistInf Si Ci) o y m (Some "m"%string) (Some c) "r" = Ok (d y)) ->
  lam (HernquistInf Si Ci) o r m (Some "m"%string) (Some c) "r" = Ok l -> ~ physical_convolution d r l.
Proof.
  intros Si Ci o m c r d l Ho Hc Hr Hd Hl PC. set (s := HernquistInf Si Ci) in *. destruct (rs_ok o s m c Hc) as [rs [R [P _]]].
  assert (PP := PI_RGT_0).
  assert (HH : 0 < hern_h c) by (unfold hern_h; apply Rdiv_lt_0_compat; [apply pow_lt; lra|]; apply Rmult_lt_0_compat; [lra|apply pow_lt; lra]).
  set (a := 1 / (4 * PI * rs ^ 3 * hern_h c)).
  assert (Ha : 0 < a). { unfold a. apply Rdiv_lt_0_compat; [lra|]. apply Rmult_lt_0_compat; auto. apply Rmult_lt_0_compat; [lra|now apply pow_lt]. }
  assert (A : rho_s s o c rs (Some "m"%string) = Ok a) by reflexivity.
  assert (X : 0 < r / rs) by now apply Rdiv_lt_0_compat.
  assert (C := herninf_conv (r / rs) X). assert (Pos := hern_conv_pos _ _ X C).
  assert (PCV : physical_convolution (fun y => a * hern_f (y / rs)) r (herninf_l (r / rs) / 4 * rs ^ 3 * a ^ 2)).
  { eapply (conv_scale_inf hern_f (fun t => Hh t - Hh 0)); auto; [intros; now apply hern_inner|intros b Hb; apply hern_outer; lra]. }
  assert (D : forall y, d y = a * hern_f (y / rs)).
  { intros y. assert (E := rho_val_inf s o m c rs _ a eq_refl R A y). rewrite Hd in E. now injection E. }
  assert (L := lam_val s o m c rs r _ a (fun x _ => herninf_l x) eq_refl R A (or_intror eq_refl)). rewrite Hl in L. injection L as L.
  assert (PC' : physical_convolution (fun y => a * hern_f (y / rs)) r l).
  { unfold physical_convolution in *. apply is_lim_ext with (2 := PC). intros b. apply RInt_ext. intros y _. rewrite D. f_equal. apply RInt_ext. intros z _. now rewrite D. }
  assert (E := physical_unique _ _ _ _ Hr PC' PCV).
  assert (Q : 0 < rs ^ 3 * a ^ 2) by (apply Rmult_lt_0_compat; now apply pow_lt). rewrite L in E. 
  assert (Z : herninf_l (r / rs) * (rs ^ 3 * a ^ 2) = herninf_l (r / rs) / 4 * (rs ^ 3 * a ^ 2)) by lra.
  apply Rmult_eq_reg_r in Z; lra.
Qed.
Print Assumptions c77_herninf_lam_refuted.

(** * C78 *)
Theorem c78_untruncated_u_ignores_c_and_coord : forall s o k m norm c c' coord coord', s_inf s = true ->
  u s o k m norm c coord = u s o k m norm c' coord'.
Proof. intros. unfold u. rewrite H. reflexivity. Qed.
Print Assumptions c78_untruncated_u_ignores_c_and_coord.
(** the untruncated profiles have matter at every radius; the truncated ones none beyond the virial radius *)
Theorem c78_untruncated_density : forall Si Ci p o r m c rs s, 0 < r -> 0 < c -> 0 < rs -> rs_from_m s o m (Some c) None = Ok rs ->
  (In s [NFWInf Si Ci; HernquistInf Si Ci; MooreInf p] -> exists d, rho s o r m (Some "m"%string) (Some c) "r" = Ok d /\ 0 < d) /\
  (In s [NFW Si Ci; Hernquist Si Ci; CoredNFW Si Ci; ConstantProfile; Moore p] -> c * rs < r -> rho s o r m (Some "m"%string) (Some c) "r" = Ok 0).
Proof.
  intros Si Ci p o r m c rs s Hr Hc Hs R0. assert (PP := PI_RGT_0). assert (X : 0 < r / rs) by now apply Rdiv_lt_0_compat. split.
  - intros H. assert (G : s_inf s = true /\ exists s', good_shape s' /\ s_f s' = s_f s /\ s_h s' = s_h s).
    { simpl in H. destruct H as [<-|[<-|[<-|[]]]]; (split; [reflexivity|]); [exists (NFW Si Ci)|exists (Hernquist Si Ci)|exists (Moore p)]; (split; [apply (good_all Si Ci p); simpl; auto 8|auto]). }
    destruct G as [I [s' [G [EF EH]]]]. unfold rho, get_r_variables. rewrite R0. cbn [bind]. change (("r" =? "r")%string) with true. cbv iota. cbn [bind rho_s]. change (("m" =? "m")%string) with true. cbv iota. cbn [bind]. rewrite I. eexists. split; [reflexivity|].
    assert (HP := good_pos s' c G Hc). rewrite EH in HP. assert (FP : 0 < s_f s (r / rs)) by (rewrite <- EF; now apply G). apply Rmult_lt_0_compat; auto. apply Rdiv_lt_0_compat; [lra|].
    apply Rmult_lt_0_compat; auto. apply Rmult_lt_0_compat; [lra|now apply pow_lt].
  - intros H L. destruct (good_all Si Ci p s H) as [_ I]. unfold rho, get_r_variables. rewrite R0. cbn [bind]. change (("r" =? "r")%string) with true. cbv iota. cbn [bind rho_s]. change (("m" =? "m")%string) with true. cbv iota. cbn [bind]. rewrite I.
    replace (Rltb c (r / rs)) with true; [reflexivity|]. symmetry. apply Rltb_spec. apply (Rmult_lt_reg_r rs); auto. unfold Rdiv. rewrite Rmult_assoc, Rinv_l by lra. lra.
Qed.
Print Assumptions c78_untruncated_density.
(** HernquistInf: the "normalised" transform tends to ((1+c)/c)^2 > 1 at small k, c being the
    cm relation's concentration: neither 1 nor independent of the cm relation *)
Theorem c78_herninf_u_small_k : forall Si Ci o m eps, sine_cosine_integrals Si Ci -> 0 < cm_at_z o m -> 0 < eps ->
  let c := cm_at_z o m in
  exists k0, 0 < k0 /\ forall k, 0 < k < k0 -> exists v, u (HernquistInf Si Ci) o k m (Some "m"%string) None "k" = Ok v /\
    Rabs (v - ((1 + c) / c) ^ 2) < eps.
Proof.
  intros Si Ci o m eps HS Hc He c. set (s := HernquistInf Si Ci). destruct (rs_ok o s m c Hc) as [rs [R [P _]]].
  assert (HH : 0 < hern_h c) by (unfold hern_h; apply Rdiv_lt_0_compat; [apply pow_lt; auto|]; apply Rmult_lt_0_compat; [lra|apply pow_lt; unfold c; lra]).
  destruct (herninf_p_small Si Ci HS (eps * hern_h c) ltac:(now apply Rmult_lt_0_compat)) as [K0 [HK0 HK]].
  exists (K0 / rs). split; [now apply Rdiv_lt_0_compat|]. intros k Hk.
  exists (herninf_p Si Ci (k * rs) / hern_h c). split.
  - unfold u. change (s_inf s) with true. cbv iota. unfold get_k_variables. change (cm_relation s o m) with c. rewrite R. reflexivity.
  - assert (B : 0 < k * rs < K0). { split; [apply Rmult_lt_0_compat; lra|]. destruct Hk as [_ Hk]. apply (Rmult_lt_compat_r rs) in Hk; auto. replace (K0 / rs * rs) with K0 in Hk by (field; lra). lra. }
    specialize (HK _ B). replace (herninf_p Si Ci (k * rs) / hern_h c - ((1 + c) / c) ^ 2) with ((herninf_p Si Ci (k * rs) - 1/2) * / hern_h c).
    + rewrite Rabs_mult, (Rabs_pos_eq (/ hern_h c)) by (left; now apply Rinv_0_lt_compat). apply Rmult_lt_reg_r with (hern_h c); auto.
      replace (Rabs (herninf_p Si Ci (k * rs) - 1 / 2) * / hern_h c * hern_h c) with (Rabs (herninf_p Si Ci (k * rs) - 1 / 2)) by (field; lra). lra.
    + assert (c <> 0) by (unfold c; lra). assert (1 + c <> 0) by (unfold c; lra). set (q := herninf_p Si Ci (k * rs)). unfold hern_h. field. auto.
Qed.
Print Assumptions c78_herninf_u_small_k.
(** "plug in an arbitrary CMRelation and results will remain the same" is false *)
Definition with_cm (o : inst) (f : R -> R) : inst := mkInst (delta_halo o) (mean_dens o) (mean_density0 o) (eta_bloat o) (nu_fn o) f.
Theorem c78_cm_relation_matters_refuted : forall Si Ci o m c1 c2, sine_cosine_integrals Si Ci -> 0 < c1 < c2 ->
  exists k, 0 < k /\ u (HernquistInf Si Ci) (with_cm o (fun _ => c1)) k m (Some "m"%string) None "k"
            <> u (HernquistInf Si Ci) (with_cm o (fun _ => c2)) k m (Some "m"%string) None "k".
Proof.
  intros Si Ci o m c1 c2 HS Hc.
  assert (LT : ((1 + c2) / c2) ^ 2 < ((1 + c1) / c1) ^ 2).
  { assert (A : forall c, 0 < c -> (1 + c) / c = 1 + / c) by (intros; field; lra). rewrite !A by lra.
    assert (/ c2 < / c1) by (apply Rinv_lt_contravar; nra). assert (0 < / c2) by (apply Rinv_0_lt_compat; lra). simpl. nra. }
  set (e := (((1 + c1) / c1) ^ 2 - ((1 + c2) / c2) ^ 2) / 2). assert (He : 0 < e) by (unfold e; lra).
  destruct (c78_herninf_u_small_k Si Ci (with_cm o (fun _ => c1)) m e HS ltac:(simpl; lra) He) as [k1 [P1 H1]].
  destruct (c78_herninf_u_small_k Si Ci (with_cm o (fun _ => c2)) m e HS ltac:(simpl; lra) He) as [k2 [P2 H2]]. simpl cm_at_z in *.
  exists (Rmin k1 k2 / 2). assert (0 < Rmin k1 k2) by (apply Rmin_pos; auto). assert (M1 := Rmin_l k1 k2). assert (M2 := Rmin_r k1 k2). split; [lra|].
  destruct (H1 (Rmin k1 k2 / 2) ltac:(lra)) as [v1 [U1 B1]]. destruct (H2 (Rmin k1 k2 / 2) ltac:(lra)) as [v2 [U2 B2]].
  rewrite U1, U2. intros E. injection E as ->. apply Rabs_def2 in B1. apply Rabs_def2 in B2. unfold e in *. lra.
Qed.
Print Assumptions c78_cm_relation_matters_refuted.

(** * C79 *)
(** called with the default norm, as the halo model does, lam of a truncated profile is
    the mass-normalised convolution and lam of an untruncated one is rho_s-normalised *)
Theorem c79_norm_ratio : forall s o r m c v, s_moore s = false -> inst_ok o -> 0 < c -> 0 < m -> 0 < s_h s c ->
  lam s o r m None (Some c) "r" = Ok v ->
  exists w, lam s o r m (Some "m"%string) (Some c) "r" = Ok w /\
    v = (m * (mean_dens o / mean_density0 o) * bloat o m ^ 3) ^ 2 * w.
Proof.
  intros s o r m c v MO Ho Hc Hm HH L. destruct (rs_ok o s m c Hc) as [rs [R [P E]]]. specialize (E MO).
  destruct (s_l s) as [l|] eqn:SL; [|unfold lam in L; rewrite SL in L; destruct (s_inf s); [destruct (get_r_variables s o r m (Some c) "r")|]; discriminate].
  assert (PP := PI_RGT_0). destruct Ho as [O1 [O2 O3]]. assert (Ho : inst_ok o) by (repeat split; auto).
  rewrite (lam_val s o m c rs r None _ l SL R eq_refl (or_introl eq_refl)) in L. injection L as <-.
  rewrite (lam_val s o m c rs r (Some "m"%string) _ l SL R eq_refl (or_intror eq_refl)). eexists; split; [reflexivity|].
  assert (C := hmr_cube o Ho m false Hm). unfold dens in C.
  assert (K : (rs * c) ^ 3 = 3 * m / (4 * PI * delta_halo o * mean_density0 o) * bloat o m ^ 3) by (rewrite E, Rpow_mult_distr, C; reflexivity).
  assert (T : m * (mean_dens o / mean_density0 o) * bloat o m ^ 3 = 4 * PI / 3 * delta_halo o * mean_dens o * (rs * c) ^ 3).
  { rewrite K. field. repeat split; lra. }
  rewrite T. field. repeat split; lra.
Qed.
Print Assumptions c79_norm_ratio.
(** the halo model's default call: NFWInf gives (m rho/rho0)^2 times the value NFW-style normalisation would *)
Theorem c79_default_norms_differ_refuted : forall Si Ci o r m c, inst_ok o -> 0 < c -> 0 < r -> 0 < m ->
  m * (mean_dens o / mean_density0 o) * bloat o m ^ 3 <> 1 -> nfwinf_l (r / (base_rs o m c false)) <> 0 ->
  lam (NFWInf Si Ci) o r m (lam_default_norm (NFWInf Si Ci)) (Some c) "r" <> lam (NFWInf Si Ci) o r m (lam_default_norm (NFW Si Ci)) (Some c) "r".
Proof.
  intros Si Ci o r m c Ho Hc Hr Hm N NZ EQ. simpl in EQ. set (s := NFWInf Si Ci) in *.
  assert (HH : 0 < nfw_h c). { assert (G := good_pos (NFW Si Ci) c). apply G; auto. apply (good_all Si Ci (fun _ _ => 0)). simpl; auto. }
  destruct (rs_ok o s m c Hc) as [rs [R [P E]]].
  assert (L := lam_val s o m c rs r None _ (fun x _ => nfwinf_l x) eq_refl R eq_refl (or_introl eq_refl)).
  destruct (c79_norm_ratio s o r m c _ eq_refl Ho Hc Hm HH L) as [w [W V]].
  change (lam_default_norm s) with (@None string) in EQ. change (lam_default_norm (NFW Si Ci)) with (Some "m"%string) in EQ.
  rewrite W in EQ. rewrite L in EQ. injection EQ as EQ.
  set (a := 1 / (4 * PI * rs ^ 3 * nfw_h c)).
  assert (W2 := lam_val s o m c rs r (Some "m"%string) a (fun x _ => nfwinf_l x) eq_refl R eq_refl (or_intror eq_refl)). rewrite W in W2.
  assert (W3 : w = nfwinf_l (r / rs) * rs ^ 3 * a ^ 2) by congruence. clear W2.
  assert (RS : rs = base_rs o m c false) by (unfold rs_from_m in R; simpl in R; now injection R). rewrite <- RS in NZ.
  assert (PP := PI_RGT_0).
  assert (Ha : 0 < a). { unfold a. apply Rdiv_lt_0_compat; [lra|]. apply Rmult_lt_0_compat; auto. apply Rmult_lt_0_compat; [lra|now apply pow_lt]. }
  assert (WN : w <> 0).
  { rewrite W3. apply Rmult_integral_contrapositive_currified; [apply Rmult_integral_contrapositive_currified; auto|]; apply Rgt_not_eq, pow_lt; auto. }
  assert (V2 : w = (m * (mean_dens o / mean_density0 o) * bloat o m ^ 3) ^ 2 * w) by (rewrite <- V; symmetry; exact EQ). clear V EQ L.
  set (t := m * (mean_dens o / mean_density0 o) * bloat o m ^ 3) in *.
  assert (TP : 0 < t). { unfold t. destruct Ho as [O1 [O2 O3]]. apply Rmult_lt_0_compat; [apply Rmult_lt_0_compat; auto; now apply Rdiv_lt_0_compat|]. apply pow_lt, bloat_pos. }
  assert (T1 : t ^ 2 = 1) by (apply Rmult_eq_reg_r with w; lra). apply N. simpl in T1. nra.
Qed.
Print Assumptions c79_default_norms_differ_refuted.

(** * C80 *)
Theorem c80_scalar_radius_fails : forall s o x m norm c coord, s_inf s = false -> coord = "r"%string \/ coord = "x"%string ->
  forall v, rho_nd false s o (Scal x) m norm c coord <> Ok v.
Proof.
  intros s o x m norm c coord I HC v. unfold rho_nd. rewrite I. simpl orb. destruct HC as [-> | ->]; simpl;
   destruct (rho s o x m norm c _); discriminate.
Qed.
Theorem c80_scalar_radius_is_type_error : forall s o x m norm c coord d, s_inf s = false -> coord = "r"%string \/ coord = "x"%string ->
  rho s o x m norm c coord = Ok d -> rho_nd false s o (Scal x) m norm c coord = Raise TypeError.
Proof. intros s o x m norm c coord d I HC E. unfold rho_nd. rewrite I. destruct HC as [-> | ->]; simpl; rewrite E; reflexivity. Qed.
Theorem c80_constant_profile_fails : forall s o r m norm c coord, s_inf s = false -> forall v, rho_nd true s o r m norm c coord <> Ok v.
Proof. intros s o r m norm c coord I v. unfold rho_nd. rewrite I. simpl orb. cbv iota. match goal with |- bind ?x _ <> _ => destruct x end; discriminate. Qed.
Theorem c80_arrays_work : forall s o xs m norm c coord f, s_inf s = false -> (forall x, rho s o x m norm c coord = Ok (f x)) ->
  rho_nd false s o (Vec xs) m norm c coord = Ok (map f xs).
Proof.
  intros s o xs m norm c coord f I E. unfold rho_nd. rewrite I. rewrite orb_true_r. simpl.
  induction xs as [|x t IH]; simpl; auto. rewrite E. simpl. rewrite IH. reflexivity.
Qed.
Theorem c80_untruncated_scalars_work : forall s o x m norm c coord d, s_inf s = true -> rho s o x m norm c coord = Ok d ->
  rho_nd false s o (Scal x) m norm c coord = Ok [d].
Proof. intros. unfold rho_nd. rewrite H. simpl. rewrite H0. reflexivity. Qed.
Print Assumptions c80_arrays_work.

(** * C81 *)
(** whatever the concentrations and whatever order argsort returns, the cumulative integration
    gives every halo the integral from 0 to its own concentration *)
Theorem c81_cumulative_transform : forall quad c n order, (forall a b d, quad a b + quad b d = quad a d) ->
  Permutation order (seq 0 n) -> forall j, (j < n)%nat -> numeric_p quad c order j = quad 0 (c j).
Proof.
  intros quad c n order Q HP j Hj. unfold numeric_p. apply loop_inv; auto.
  - apply (Permutation_NoDup (l := seq 0 n)); [now apply Permutation_sym|apply seq_NoDup].
  - intros q Hq; discriminate.
  - apply (Permutation_in (l := seq 0 n)); [now apply Permutation_sym|]. apply in_seq. lia.
Qed.
Print Assumptions c81_cumulative_transform.
(** with exact quadrature, this is the sine transform of the density *)
Theorem c81_cumulative_transform_is_sine_transform : forall f k c n order, (forall b, 0 <= b -> ex_RInt (fun x => x * f x * (sin (k * x) / k)) 0 b) ->
  (forall i, (i < n)%nat -> 0 <= c i) -> Permutation order (seq 0 n) -> forall j, (j < n)%nat ->
  sine_transform f k (c j) (numeric_p (fun a b => RInt (fun x => x * f x * (sin (k * x) / k)) 0 b - RInt (fun x => x * f x * (sin (k * x) / k)) 0 a) c order j).
Proof.
  intros f k c n order EX Hc HP j Hj. rewrite (c81_cumulative_transform _ c n order) by (auto; intros; ring).
  unfold sine_transform. rewrite RInt_point. unfold zero; simpl. rewrite Rminus_0_r. apply (RInt_correct (V:=R_CompleteNormedModule)). apply EX. auto.
Qed.
Print Assumptions c81_cumulative_transform_is_sine_transform.

(** * C82 *)
Theorem c82_einasto_mass_function : forall (ginc : R -> R -> R) a c, 0 < a -> 0 <= c ->
  (forall y, 0 < y -> is_derive (ginc (3 / a)) y (Rpower y (3 / a - 1) * exp (- y))) ->
  ginc (3 / a) 0 = 0 -> filterlim (ginc (3 / a)) (at_right 0) (locally 0) ->
  is_RInt (fun x => einasto_f a x * x ^ 2) 0 c (einasto_h ginc a c).
Proof. exact einasto_mass. Qed.
Print Assumptions c82_einasto_mass_function.

(** * C83 *)
Theorem c83_untruncated_transforms : forall Si Ci K, sine_cosine_integrals Si Ci -> sici_at_infinity Si Ci -> 0 < K ->
  is_lim (fun b => RInt (fun x => x * nfw_f x * (sin (K * x) / K)) 0 b) p_infty (nfwinf_p Si Ci K) /\
  is_lim (fun b => RInt (fun x => x * hern_f x * (sin (K * x) / K)) 0 b) p_infty (herninf_p Si Ci K).
Proof.
  intros Si Ci K HS HI HK. split.
  - apply is_lim_ext_loc with (fun b => nfw_p Si Ci K b); [|now apply nfw_p_lim]. exists 0. intros b Hb. symmetry. apply rint_u. apply nfw_sine; auto; lra.
  - apply is_lim_ext_loc with (fun b => hern_p Si Ci K b); [|now apply hern_p_lim]. exists 0. intros b Hb. symmetry. apply rint_u. apply hern_sine; auto; lra.
Qed.
Print Assumptions c83_untruncated_transforms.

(** * C84 *)
(** the (i, j) element (wavenumber i, halo j) is evaluated at concentration number (i*nm+j) div nk *)
Theorem c84_einasto_pairing : forall spl Kflat nk c i j, let nm := length c in
  length Kflat = (nk * nm)%nat -> (i < nk)%nat -> (j < nm)%nat ->
  nth (i * nm + j) (einasto_interp spl Kflat nk c) 0
  = exp (spl (ln (nth (i * nm + j) Kflat 0)) (ln (nth ((i * nm + j) / nk) c 0))).
Proof.
  intros spl Kflat nk c i j nm HL Hi Hj. unfold einasto_interp. assert (B : (i * nm + j < nk * nm)%nat) by nia.
  set (f := fun kc : R * R => exp (spl (ln (fst kc)) (ln (snd kc)))).
  rewrite (nth_indep _ 0 (f (0, 0))) by (rewrite map_length, combine_length, np_repeat_len; fold nm; lia).
  rewrite map_nth, combine_nth by (rewrite np_repeat_len; fold nm; lia). unfold f. simpl. do 3 f_equal. apply np_repeat_nth. fold nm. lia.
Qed.
Print Assumptions c84_einasto_pairing.
Theorem c84_einasto_one_halo_or_one_wavenumber : forall spl Kflat nk c i j, let nm := length c in
  length Kflat = (nk * nm)%nat -> (i < nk)%nat -> (j < nm)%nat -> nm = 1%nat \/ nk = 1%nat ->
  nth (i * nm + j) (einasto_interp spl Kflat nk c) 0 = exp (spl (ln (nth (i * nm + j) Kflat 0)) (ln (nth j c 0))).
Proof.
  intros spl Kflat nk c i j nm HL Hi Hj H. unfold nm in *. rewrite c84_einasto_pairing by auto. do 4 f_equal. destruct H as [H|H].
  - rewrite H in *. replace j with 0%nat by lia. apply Nat.div_small; lia.
  - subst nk. replace i with 0%nat by lia. rewrite Nat.div_1_r. lia.
Qed.
(** otherwise the first wavenumber of the second halo is given the concentration of the first halo *)
Theorem c84_einasto_wrong_halo_refuted : forall spl Kflat nk c, let nm := length c in
  length Kflat = (nk * nm)%nat -> (2 <= nk)%nat -> (2 <= nm)%nat ->
  nth 1 (einasto_interp spl Kflat nk c) 0 = exp (spl (ln (nth 1 Kflat 0)) (ln (nth 0 c 0))).
Proof.
  intros spl Kflat nk c nm HL H1 H2. assert (E := c84_einasto_pairing spl Kflat nk c 0 1 HL ltac:(lia) ltac:(fold nm; lia)). cbv zeta in E.
  replace (0 * length c + 1)%nat with 1%nat in E by lia. rewrite Nat.div_small in E by lia. exact E.
Qed.
Print Assumptions c84_einasto_wrong_halo_refuted.

(** * C85 *)
Definition is_sort (sort : list R -> list R) : Prop := forall l, Permutation l (sort l) /\ Sorted Rle (sort l).
Lemma map_inj : forall (f : R -> R) l l', (forall x y, In x l -> In y l' -> f x = f y -> x = y) -> map f l = map f l' -> l = l'.
Proof.
  intros f l. induction l as [|a l IH]; intros [|b l'] H E; simpl in E; try discriminate; auto.
  injection E as E1 E2. f_equal; [apply H; simpl; auto|apply IH; auto]. intros; apply H; simpl; auto.
Qed.
Lemma sorted_perm_eq : forall l l', Sorted Rle l -> Sorted Rle l' -> Permutation l l' -> l = l'.
Proof.
  intros l. induction l as [|a l IH]; intros l' S S' HP.
  - apply Permutation_nil in HP. now subst.
  - destruct l' as [|b l']; [apply Permutation_sym, Permutation_nil in HP; discriminate|].
    apply Sorted_StronglySorted in S; [|intros ? ? ?; apply Rle_trans]. apply Sorted_StronglySorted in S'; [|intros ? ? ?; apply Rle_trans].
    inversion S as [|? ? S1 F1]; subst. inversion S' as [|? ? S1' F1']; subst. rewrite List.Forall_forall in F1, F1'.
    assert (a = b).
    { apply Rle_antisym.
      - assert (I : In b (a :: l)) by (apply (Permutation_in b (Permutation_sym HP)); simpl; auto). destruct I as [->|I]; [lra|auto].
      - assert (I : In a (b :: l')) by (apply (Permutation_in a HP); simpl; auto). destruct I as [->|I]; [lra|auto]. }
    subst. f_equal. apply IH; [now apply StronglySorted_Sorted|now apply StronglySorted_Sorted|]. eapply Permutation_cons_inv; eauto.
Qed.
(** element by element evaluation happens exactly when the flattened wavenumbers were already sorted *)
Theorem c85_in_place_sort : forall sort fit Kflat, is_sort sort -> (forall k, In k Kflat -> 0 < k) ->
  (forall x y, fit x = fit y -> x = y) ->
  (inf_numeric_p sort fit Kflat = map (fun k => exp (fit (ln k))) Kflat <-> Sorted Rle Kflat).
Proof.
  intros sort fit Kflat HS HP HF. destruct (HS Kflat) as [P S]. unfold inf_numeric_p. split.
  - intros E. apply map_inj in E; [now rewrite E in S|]. intros x y Hx Hy EE. apply exp_inv, HF in EE.
    apply ln_inv; auto. apply HP. apply (Permutation_in x (Permutation_sym P)). auto.
  - intros SK. f_equal. symmetry. now apply sorted_perm_eq.
Qed.
Print Assumptions c85_in_place_sort.
(** with two haloes of different scale radius and two wavenumbers (all entries k_i * rs_j positive),
    descending masses always break it *)
Theorem c85_wrong_halo_refuted : forall sort fit k0 k1 r0 r1, is_sort sort -> (forall x y, fit x = fit y -> x = y) ->
  0 < k0 < k1 -> 0 < r0 -> 0 < r1 -> r1 < r0 ->
  inf_numeric_p sort fit [k0 * r0; k0 * r1; k1 * r0; k1 * r1] <> map (fun k => exp (fit (ln k))) [k0 * r0; k0 * r1; k1 * r0; k1 * r1].
Proof.
  intros sort fit k0 k1 r0 r1 HS HF Hk H0 H1 H E. apply c85_in_place_sort in E; auto.
  - inversion E as [|? ? _ HR]; subst. inversion HR; subst. nra.
  - intros k [<-|[<-|[<-|[<-|[]]]]]; apply Rmult_lt_0_compat; lra.
Qed.
Print Assumptions c85_wrong_halo_refuted.
