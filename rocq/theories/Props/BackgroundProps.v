(** C142: the profiles of a halo model are built for Planck15, whatever its cosmology. *)
From Coq Require Import Reals String List Lra Psatz.
From Coquelicot Require Import Coquelicot.
From Verif Require Import Model.RBool Model.Profiles Model.Exclusion Model.ProfileCosmology Spec.BackgroundSpec Proofs.ProfileProofs2.
Local Open Scope R_scope.

Lemma cube_inj : forall a b, 0 < a -> 0 < b -> a ^ 3 = b ^ 3 -> a = b.
Proof.
  intros a b A B H. destruct (Rtotal_order a b) as [L|[E|L]]; auto; exfalso.
  - assert (a ^ 2 < b ^ 2) by nra. assert (a ^ 3 < b ^ 3) by (simpl in *; nra). lra.
  - assert (b ^ 2 < a ^ 2) by nra. assert (b ^ 3 < a ^ 3) by (simpl in *; nra). lra.
Qed.

Section C142.
  Variable Cosmo : Type.
  Variable planck15 : Cosmo.
  Notation massdef := (massdef Cosmo). Notation halomodel := (halomodel Cosmo).
  (** overdensity and mean densities are positive in the model's own cosmology and in Planck15 *)
  Definition sane (h : halomodel) : Prop := forall c, c = planck15 \/ c = hm_cosmo Cosmo h ->
    0 < md_delta Cosmo (hm_mdef Cosmo h) (hm_z Cosmo h) c /\ 0 < md_mean Cosmo (hm_mdef Cosmo h) (hm_z Cosmo h) c /\ 0 < md_mean Cosmo (hm_mdef Cosmo h) 0 c.
  (** the density that defines a halo, at present-day mean density, in a cosmology *)
  Definition halo_dens (h : halomodel) (c : Cosmo) : R := md_delta Cosmo (hm_mdef Cosmo h) (hm_z Cosmo h) c * md_mean Cosmo (hm_mdef Cosmo h) 0 c.

  Lemma hmr_encloses : forall o m r, inst_ok o -> 0 < m -> (0 < r /\ encloses (delta_halo o) (mean_density0 o) r m <-> r = halo_mass_to_radius o m false).
  Proof.
    intros o m r Ho Hm. assert (C := hmr_cube o Ho m false Hm). unfold dens in C. assert (P := hmr_pos o m false). assert (PP := PI_RGT_0). destruct Ho as [D [_ M]]. unfold encloses. split.
    - intros [Hr E]. apply cube_inj; auto. rewrite C, <- E. field. repeat split; lra.
    - intros ->. split; auto. rewrite C. field. repeat split; lra.
  Qed.

  Variable h : halomodel.
  Hypothesis H : sane h.
  Let o := halo_profile_of Cosmo planck15 h.
  Let t := tracer_profile_of Cosmo planck15 h.
  Lemma inst_oks : inst_ok o /\ inst_ok t.
  Proof. destruct (H planck15 (or_introl eq_refl)) as (A & B & C). unfold o, t, inst_ok, halo_profile_of, tracer_profile_of, profile_init. simpl. auto. Qed.
  Lemma dens_pos_c : forall c, c = planck15 \/ c = hm_cosmo Cosmo h -> 0 < halo_dens h c.
  Proof. intros c Hc. destruct (H c Hc) as (A & _ & B). apply Rmult_lt_0_compat; auto. Qed.

  (** the virial radius of every halo, of matter and of the tracer, is that of Planck15; it is the radius of a halo of this mass in the model's own
      cosmology iff the two cosmologies have the same halo density *)
  Theorem c142_virial_radius_iff : forall m p, 0 < m -> p = o \/ p = t -> let r := halo_mass_to_radius p m false in
    encloses (md_delta Cosmo (hm_mdef Cosmo h) (hm_z Cosmo h) planck15) (md_mean Cosmo (hm_mdef Cosmo h) 0 planck15) r m /\
    (encloses (md_delta Cosmo (hm_mdef Cosmo h) (hm_z Cosmo h) (hm_cosmo Cosmo h)) (md_mean Cosmo (hm_mdef Cosmo h) 0 (hm_cosmo Cosmo h)) r m <->
     halo_dens h (hm_cosmo Cosmo h) = halo_dens h planck15).
  Proof.
    intros m p Hm Hp r. assert (E : encloses (md_delta Cosmo (hm_mdef Cosmo h) (hm_z Cosmo h) planck15) (md_mean Cosmo (hm_mdef Cosmo h) 0 planck15) r m /\ 0 < r).
    { destruct inst_oks as [Io It]. destruct Hp as [-> | ->]; (split; [|apply hmr_pos]); [destruct (proj2 (hmr_encloses o m r Io Hm) eq_refl) as [_ E]; exact E|destruct (proj2 (hmr_encloses t m r It Hm) eq_refl) as [_ E]; exact E]. }
    destruct E as [E Pr]. split; auto. unfold encloses, halo_dens in *. assert (PP := PI_RGT_0). assert (Q : 0 < 4 / 3 * PI * r ^ 3) by (apply Rmult_lt_0_compat; [lra|apply pow_lt; auto]).
    split; intros K.
    - apply (Rmult_eq_reg_l (4 / 3 * PI * r ^ 3)); lra.
    - rewrite K. exact E.
  Qed.

  (** the haloes kept apart by the exclusion have, on the contrary, the radius of the model's cosmology: the two agree iff the cosmologies do *)
  Theorem c142_exclusion_radius_iff : forall e i, e_hd e = exclusion_density Cosmo h -> 0 < e_m e i ->
    (r_halo e i = halo_mass_to_radius o (e_m e i) false <-> halo_dens h (hm_cosmo Cosmo h) = halo_dens h planck15) /\
    encloses (md_delta Cosmo (hm_mdef Cosmo h) (hm_z Cosmo h) (hm_cosmo Cosmo h)) (md_mean Cosmo (hm_mdef Cosmo h) 0 (hm_cosmo Cosmo h)) (r_halo e i) (e_m e i).
  Proof.
    intros e i He Hm. assert (PP := PI_RGT_0). destruct (H (hm_cosmo Cosmo h) (or_intror eq_refl)) as (A & B & C).
    set (oc := profile_init Cosmo planck15 (hm_cm Cosmo h) (hm_mdef Cosmo h) (hm_z Cosmo h) (Some (hm_cosmo Cosmo h)) (hm_nu Cosmo h) (hm_eta Cosmo h)).
    assert (Ic : inst_ok oc) by (unfold oc, inst_ok, profile_init; simpl; auto).
    assert (ER : r_halo e i = halo_mass_to_radius oc (e_m e i) false). { unfold r_halo, halo_mass_to_radius, oc, profile_init. rewrite He. unfold exclusion_density. simpl. f_equal. f_equal. ring. }
    destruct (proj2 (hmr_encloses oc (e_m e i) _ Ic Hm) ER) as [Pr EC]. split; [|exact EC].
    destruct (c142_virial_radius_iff (e_m e i) o Hm (or_introl eq_refl)) as [_ K]. rewrite <- K. split.
    - intros <-. exact EC.
    - intros E. rewrite ER. symmetry. apply (hmr_encloses oc (e_m e i) _ Ic Hm). split; [apply hmr_pos|exact E].
  Qed.

  (** ** the profile the model uses is the right one, stretched *)
  (** the same profile for the model's own cosmology *)
  Let oc := profile_init Cosmo planck15 (hm_cm Cosmo h) (hm_mdef Cosmo h) (hm_z Cosmo h) (Some (hm_cosmo Cosmo h)) (hm_nu Cosmo h) (hm_eta Cosmo h).
  Variable lam : R.
  Hypothesis Hl : 0 < lam.
  Hypothesis Hlam : lam ^ 3 * halo_dens h planck15 = halo_dens h (hm_cosmo Cosmo h).

  Lemma radius_stretched : forall m, 0 < m -> halo_mass_to_radius o m false = lam * halo_mass_to_radius oc m false.
  Proof.
    intros m Hm. destruct inst_oks as [Io _]. destruct (H (hm_cosmo Cosmo h) (or_intror eq_refl)) as (A & B & C). destruct (H planck15 (or_introl eq_refl)) as (A0 & B0 & C0).
    assert (Ic : inst_ok oc) by (unfold oc, inst_ok, profile_init; simpl; auto). assert (PP := PI_RGT_0). assert (P1 := hmr_pos o m false). assert (P2 := hmr_pos oc m false).
    apply cube_inj; auto; [apply Rmult_lt_0_compat; auto|]. rewrite Rpow_mult_distr, (hmr_cube o Io m false Hm), (hmr_cube oc Ic m false Hm).
    unfold dens, o, oc, halo_profile_of, profile_init. simpl delta_halo. simpl mean_density0. unfold halo_dens in Hlam.
    set (d0 := md_delta _ _ _ planck15) in *. set (r0 := md_mean _ _ 0 planck15) in *. set (d1 := md_delta _ _ _ (hm_cosmo Cosmo h)) in *. set (r1 := md_mean _ _ 0 (hm_cosmo Cosmo h)) in *.
    replace (4 * PI * d1 * r1) with (4 * PI * (d1 * r1)) by ring. rewrite <- Hlam. field. repeat split; lra.
  Qed.
  Lemma base_stretched : forall m c, 0 < m -> base_rs o m c false = lam * base_rs oc m c false.
  Proof. intros m c Hm. unfold base_rs. rewrite radius_stretched by auto. change (bloat oc m) with (bloat o m). unfold Rdiv. ring. Qed.
  Lemma rs_stretched : forall s m c, 0 < m -> rs_from_m s o m (Some c) None = rmap (Rmult lam) (rs_from_m s oc m (Some c) None).
  Proof. intros s m c Hm. unfold rs_from_m. destruct (s_moore s); simpl; rewrite base_stretched by auto; f_equal; unfold Rdiv; ring. Qed.
  Lemma cm_same : forall s m, cm_relation s o m = cm_relation s oc m.
  Proof. reflexivity. Qed.

  (** the transform at wavenumber k is that of the right profile at lam k *)
  Theorem c142_transform_stretched : forall s k m norm c, 0 < m -> u s o k m norm c "k" = u s oc (lam * k) m norm c "k".
  Proof.
    intros s k m norm c Hm. unfold u.
    assert (E : forall c, get_k_variables s o k m c "k" = get_k_variables s oc (lam * k) m c "k").
    { intros c0. unfold get_k_variables. rewrite cm_same. rewrite rs_stretched by auto. destruct (rs_from_m s oc m _ None) as [r|e]; simpl; auto. do 2 f_equal. ring. }
    destruct (s_inf s); rewrite E; reflexivity.
  Qed.
  (** the mass-normalised density at radius r is that of the right profile at r / lam, over lam^3 *)
  Theorem c142_density_stretched : forall s r m c v, 0 < m -> rho s oc (r / lam) m (Some "m"%string) c "r" = Ok v -> rho s o r m (Some "m"%string) c "r" = Ok (v / lam ^ 3).
  Proof.
    intros s r m c v Hm E. unfold rho, get_r_variables in *. rewrite cm_same. set (c0 := match c with None => _ | Some c => c end) in *. rewrite rs_stretched by auto.
    destruct (rs_from_m s oc m (Some c0) None) as [rs|e]; [|discriminate]. simpl bind in *. unfold rho_s in *. simpl bind in *. injection E as <-.
    replace (r / (lam * rs)) with (r / lam / rs). 2:{ unfold Rdiv. rewrite Rinv_mult. ring. }
    assert (A : 1 / (4 * PI * (lam * rs) ^ 3 * s_h s c0) = 1 / (4 * PI * rs ^ 3 * s_h s c0) / lam ^ 3). { unfold Rdiv. rewrite Rpow_mult_distr, !Rinv_mult. ring. }
    simpl pow in *. rewrite A. f_equal. destruct (s_inf s); [|destruct (Rltb c0 _)]; unfold Rdiv; ring.
  Qed.
End C142.
(** the same for the tracer profile, with the tracer's own concentrations and bloating *)
Theorem c142_tracer_stretched : forall Cosmo (planck15 : Cosmo) (h : halomodel Cosmo) lam, sane Cosmo planck15 h -> 0 < lam -> lam ^ 3 * halo_dens Cosmo h planck15 = halo_dens Cosmo h (hm_cosmo Cosmo h) ->
  let t := tracer_profile_of Cosmo planck15 h in
  let tc := mkInst (md_delta Cosmo (hm_mdef Cosmo h) (hm_z Cosmo h) (hm_cosmo Cosmo h)) (md_mean Cosmo (hm_mdef Cosmo h) (hm_z Cosmo h) (hm_cosmo Cosmo h)) (md_mean Cosmo (hm_mdef Cosmo h) 0 (hm_cosmo Cosmo h))
              (hm_teta Cosmo h) (hm_nu Cosmo h) (hm_tcm Cosmo h) in
  (forall s k m norm c, 0 < m -> u s t k m norm c "k" = u s tc (lam * k) m norm c "k") /\
  (forall s r m c v, 0 < m -> rho s tc (r / lam) m (Some "m"%string) c "r" = Ok v -> rho s t r m (Some "m"%string) c "r" = Ok (v / lam ^ 3)).
Proof.
  intros Cosmo planck15 h lam H L E t tc.
  set (h' := mkHM Cosmo (hm_mdef Cosmo h) (hm_z Cosmo h) (hm_cosmo Cosmo h) (hm_nu Cosmo h) (hm_tcm Cosmo h) (hm_teta Cosmo h) (hm_tcm Cosmo h) (hm_teta Cosmo h)).
  split; intros.
  - exact (c142_transform_stretched Cosmo planck15 h' H lam L E s k m norm c H0).
  - exact (c142_density_stretched Cosmo planck15 h' H lam L E s r m c v H0 H1).
Qed.
Print Assumptions c142_tracer_stretched.
Print Assumptions c142_virial_radius_iff.
Print Assumptions c142_exclusion_radius_iff.
Print Assumptions c142_transform_stretched.
Print Assumptions c142_density_stretched.

(** with a fixed overdensity and the mean density proportional to Omega_m (a cosmology is its Omega_m here), a model with Omega_m = 0.246 instead of Planck15's
    0.3075 has haloes whose radius holds only four fifths of their mass at the model's own halo density *)
Theorem c142_model_cosmology_ignored_refuted : exists h : halomodel R, sane R 0.3075 h /\ forall m, 0 < m ->
  encloses 200 (0.246 * 1000) (halo_mass_to_radius (halo_profile_of R 0.3075 h) m false) (0.8 * m) /\ encloses 200 (0.246 * 1000) (Rpower (3 * m / (4 * PI * exclusion_density R h)) (1 / 3)) m.
Proof.
  set (d := mkMdef R (fun _ _ => 200) (fun z om => om * 1000 * (1 + z) ^ 3)). set (h := mkHM R d 0 0.246 (fun _ => 1) (fun _ => 5) 0 (fun _ => 5) 0).
  assert (S : sane R 0.3075 h). { intros c [-> | ->]; simpl; repeat split; lra. }
  exists h. split; auto. intros m Hm. split.
  - destruct (c142_virial_radius_iff R 0.3075 h S m _ Hm (or_introl eq_refl)) as [E _]. cbv zeta in E. unfold encloses in *. simpl md_delta in E. simpl md_mean in E.
    set (r := halo_mass_to_radius _ _ _) in *. replace (200 * (0.246 * 1000)) with (0.8 * (200 * (0.3075 * 1000 * ((1 + 0) * ((1 + 0) * ((1 + 0) * 1)))))) by lra. rewrite <- E. ring.
  - assert (PP := PI_RGT_0). assert (X : 0 < 3 * m / (4 * PI * exclusion_density R h)). { unfold exclusion_density. simpl. apply Rdiv_lt_0_compat; [lra|]. apply Rmult_lt_0_compat; lra. }
    unfold encloses. rewrite <- Rpower_pow by apply exp_pos. rewrite Rpower_mult. replace (1 / 3 * INR 3) with 1 by (simpl; lra). rewrite Rpower_1 by auto. unfold exclusion_density. simpl. field. lra.
Qed.
Print Assumptions c142_model_cosmology_ignored_refuted.

(** the hypotheses of the stretching theorems are met: 0.3075 / 8 against 0.3075, a stretch by one half *)
Example c142_nonvacuous : exists h : halomodel R, sane R 0.3075 h /\ (1 / 2) ^ 3 * halo_dens R h 0.3075 = halo_dens R h (hm_cosmo R h).
Proof.
  exists (mkHM R (mkMdef R (fun _ _ => 200) (fun z om => om * 1000 * (1 + z) ^ 3)) 0 (0.3075 / 8) (fun _ => 1) (fun _ => 5) 0 (fun _ => 5) 0). split.
  - intros c [-> | ->]; simpl; repeat split; lra.
  - unfold halo_dens. simpl. lra.
Qed.
