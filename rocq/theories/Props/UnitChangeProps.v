(** C153: results do not depend on the unit of length or of mass. *)
From Coq Require Import String Reals Lra Lia Bool Psatz List Arith.
From Verif Require Import Model.RBool Model.SpecialFn Model.Profiles Model.SplineInt Model.ExtSpline Model.Quad Model.Exclusion Model.HOD Model.HaloModel Model.Hankel.
From Verif Require Import Spec.HMSpec Spec.UnitChangeSpec Proofs.HODProofs Proofs.HMProofs Proofs.ExtSplineProofs Proofs.HankelProofs2 Props.HODProps Props.HaloModelProps Props.HaloModelProps2 Props.FindMminProps Props.HMTotalProps.
Import ListNotations.
Local Open Scope R_scope.

(** an extended spline through rescaled data, with rescaled extensions, is the rescaled extended spline *)
Definition ext_rescaled (a c : R) (e e' : ext_arg) : Prop :=
  match e, e' with
  | ExtCallable g, ExtCallable g' => forall t, 0 < t -> g' (a * t) = c * g t
  | ExtPowerLaw, ExtPowerLaw | ExtBoundary, ExtBoundary | ExtNone, ExtNone => True
  | _, _ => False
  end.
Lemma forallb_pos_scal : forall a l, 0 < a -> forallb (fun v => Rltb 0 v) (map (fun v => a * v) l) = forallb (fun v => Rltb 0 v) l.
Proof.
  intros a l Ha. induction l as [|v l IH]; simpl; auto. rewrite IH. f_equal.
  destruct (Rltb 0 v) eqn:E; [apply Rltb_spec in E; apply Rltb_spec; nra|apply Rltb_false in E; apply Rltb_false; nra].
Qed.
Lemma forallb_neg_scal : forall a l, 0 < a -> forallb (fun v => Rltb v 0) (map (fun v => a * v) l) = forallb (fun v => Rltb v 0) l.
Proof.
  intros a l Ha. induction l as [|v l IH]; simpl; auto. rewrite IH. f_equal.
  destruct (Rltb v 0) eqn:E; [apply Rltb_spec in E; apply Rltb_spec; nra|apply Rltb_false in E; apply Rltb_false; nra].
Qed.
Lemma map_ln_scal : forall a l, 0 < a -> forallb (fun v => Rltb 0 v) l = true -> map ln (map (fun v => a * v) l) = map (fun v => v + ln a) (map ln l).
Proof.
  intros a l Ha H. rewrite !map_map. apply map_ext_in. intros v Hv. rewrite forallb_forall in H. specialize (H v Hv). apply Rltb_spec in H. rewrite ln_mult by auto. ring.
Qed.
Section Rescale.
  Variables (spline : nat -> list R -> list R -> R -> R) (uspline : list R -> list R -> R -> R) (n : nat) (x y : nat -> R) (a c : R).
  Hypothesis PA : 0 < a.
  Hypothesis PC : 0 < c.
  Hypothesis SR : s_rescale (spline 3%nat).
  Hypothesis US : u_shift uspline.
  Hypothesis GX : grid n x.
  Notation X := (tab n x).
  Notation Y := (tab n y).
  Notation X' := (tab n (fun i => a * x i)).
  Notation Y' := (tab n (fun i => c * y i)).
  Lemma tab_scal : forall b z, tab n (fun i => b * z i) = map (fun v => b * v) (tab n z).
  Proof. intros. now rewrite tab_map. Qed.
  Lemma gef_rescaled : forall e e' xs ys m mx w f w' f', xs <> [] -> ys <> [] -> 0 < mx -> ext_rescaled a c e e' ->
    get_extension_func uspline (spline 3%nat X Y) e xs ys m mx = ExtOk w f ->
    get_extension_func uspline (spline 3%nat X' Y') e' (map (fun v => a * v) xs) (map (fun v => c * v) ys) m (a * mx) = ExtOk w' f' ->
    forall t, 0 < t -> f' (a * t) = c * f t.
  Proof.
    intros e e' xs ys m mx w f w' f' NX NY PX HE H H' t Ht. assert (S : forall u, spline 3%nat X' Y' (a * u) = c * spline 3%nat X Y u) by (intros u; exact (SR n x y a c u PA)).
    destruct e as [g| | | |], e' as [g'| | | |]; simpl in HE; try tauto; simpl in H, H'.
    - destruct (negb m); [injection H as _ <-; injection H' as _ <-; auto|]. rewrite (HE mx PX) in H'.
      destruct (Reqb (g mx) 0) eqn:E.
      + apply Reqb_spec in E. rewrite E, Rmult_0_r in H'. replace (Reqb 0 0) with true in H' by (symmetry; now apply Reqb_spec). injection H as _ <-. injection H' as _ <-. auto.
      + apply Reqb_false in E. replace (Reqb (c * g mx) 0) with false in H' by (symmetry; apply Reqb_false; intros Q; apply Rmult_integral in Q; destruct Q; lra).
        injection H as _ <-. injection H' as _ <-. unfold normed_callable. rewrite HE by auto. rewrite S. field. split; lra.
    - rewrite forallb_pos_scal in H' by auto. destruct (negb (forallb (fun v => Rltb 0 v) xs)) eqn:EX; try discriminate. apply negb_false_iff in EX.
      rewrite forallb_pos_scal, forallb_neg_scal in H' by auto.
      destruct (negb (forallb (fun v => Rltb 0 v) ys) || forallb (fun v => Rltb v 0) ys)%bool eqn:EY.
      + injection H as _ <-. injection H' as _ <-. unfold zero_ext. ring.
      + apply orb_false_iff in EY. destruct EY as [EY _]. apply negb_false_iff in EY.
        assert (N : forall l, forallb (fun v => Rltb 0 v) l = true -> Rltb (hd 0 l) 0 = false).
        { intros [|v l] Q; simpl in *; [apply Rltb_false; lra|]. apply andb_true_iff in Q. destruct Q as [Q _]. apply Rltb_spec in Q. apply Rltb_false. lra. }
        rewrite (N ys EY) in H. rewrite (N (map (fun v => c * v) ys)) in H' by (now rewrite forallb_pos_scal). injection H as _ <-. injection H' as _ <-.
        unfold power_law_extension.
        assert (ML : forall l : list R, map (fun v => ln (v * 1)) l = map ln l) by (intros; apply map_ext; intros; now rewrite Rmult_1_r). rewrite !ML.
        rewrite !map_ln_scal by auto. rewrite ln_mult by auto. rewrite (Rplus_comm (ln a) (ln t)), US, exp_plus by (intros Q; apply map_eq_nil in Q; auto); rewrite ?exp_plus, exp_ln by auto. ring.
    - injection H as _ <-. injection H' as _ <-. unfold boundary_extension. rewrite S. ring.
    - injection H as _ <-. injection H' as _ <-. rewrite S. ring.
  Qed.
  Lemma efun_rescaled : forall lo lo' up up' ml f f', ext_rescaled a c lo lo' -> ext_rescaled a c up up' ->
    efun spline uspline X Y lo up ml = Ok f -> efun spline uspline X' Y' lo' up' ml = Ok f' -> forall t, 0 < t -> f' (a * t) = c * f t.
  Proof.
    intros lo lo' up up' ml f f' HL HU H H' t Ht. apply efun_cases in H. apply efun_cases in H'. destruct H as [s [H ->]], H' as [s' [H' ->]].
    assert (GX' : grid n (fun i => a * x i)). { destruct GX as [A [B C]]. split; auto. split; [intros i Hi; apply Rmult_lt_0_compat; auto|intros i j Hij; apply Rmult_lt_compat_l; auto]. }
    unfold ext_spline_init in H, H'. cbv beta iota zeta delta [orb] in H, H'.
    rewrite (tab_lmin n x GX), (tab_lmax n x GX) in H. rewrite (tab_lmin n _ GX'), (tab_lmax n _ GX') in H'.
    rewrite (tab_scal a x), (tab_scal c y) in H'. rewrite !firstn_map in H'. unfold py_last in H, H'. rewrite !skipn_map, !map_length in H'. rewrite <- (tab_scal a x), <- (tab_scal c y) in H'.
    assert (P0 : 0 < x 0%nat) by (apply GX; apply GX). assert (P1 : 0 < x (n - 1)%nat) by (apply GX; destruct GX; lia).
    destruct (get_extension_func uspline (spline 3%nat X Y) lo _ _ _ _) as [w lf| |] eqn:EL; try discriminate.
    destruct (get_extension_func uspline (spline 3%nat X Y) up _ _ _ _) as [w2 uf| |] eqn:EU; try discriminate.
    destruct (get_extension_func uspline (spline 3%nat X' Y') lo' _ _ _ _) as [w' lf'| |] eqn:EL'; try discriminate.
    destruct (get_extension_func uspline (spline 3%nat X' Y') up' _ _ _ _) as [w2' uf'| |] eqn:EU'; try discriminate.
    injection H as <-. injection H' as <-. unfold call_scalar; cbn [es_xmin es_xmax es_lfunc es_ufunc es_spl].
    assert (RB : forall u v, Rltb (a * u) (a * v) = Rltb u v).
    { intros u v. destruct (Rltb u v) eqn:E; [apply Rltb_spec in E; apply Rltb_spec; nra|apply Rltb_false in E; apply Rltb_false; nra]. }
    assert (NZ : (0 < n)%nat) by apply GX.
    assert (F3 : forall z, firstn 10 (tab n z) <> []).
    { intros z Q. apply (f_equal (@List.length R)) in Q. rewrite firstn_length, tab_length in Q. change (List.length (@nil R)) with 0%nat in Q. lia. }
    assert (F10 : forall z, skipn (List.length (tab n z) - 10) (tab n z) <> []).
    { intros z Q. apply (f_equal (@List.length R)) in Q. rewrite skipn_length, !tab_length in Q. change (List.length (@nil R)) with 0%nat in Q. lia. }
    rewrite !RB. destruct (Rltb t (x 0%nat)); [exact (gef_rescaled _ _ _ _ _ _ _ _ _ _ (F3 x) (F3 y) P0 HL EL EL' t Ht)|]. destruct (Rltb (x (n - 1)%nat) t); [exact (gef_rescaled _ _ _ _ _ _ _ _ _ _ (F10 x) (F10 y) P1 HU EU EU' t Ht)|].
    exact (SR n x y a c t PA).
  Qed.
End Rescale.

Section Units.
  (** ell: old units of length in a new one... every length is multiplied by ell, every mass by mu *)
  Variables ell mu : R.
  Hypothesis PE : 0 < ell.
  Hypothesis PM : 0 < mu.

  (** the same framework in the new units *)
  Definition framework_in (h : dmhm) : dmhm :=
    mkDM (d_nm h) (fun i => mu * d_m h i) (fun i => d_dndm h i / (mu * ell ^ 3)) (d_bias h) (d_dlog10m h)
      (d_nk h) (fun i => d_k h i / ell) (map (fun k => k / ell) (d_khm h)) (fun i => ell ^ 3 * d_power h i)
      (fun k => ell ^ 3 * d_phc h (ell * k)) (fun k => ell ^ 3 * d_plin h (ell * k)) (d_hc h)
      (d_nr h) (fun i => ell * d_r h i) (d_ukm h) (option_map (fun l i j => l i j / ell ^ 3) (d_lam h))
      (mu / ell ^ 3 * d_rho0 h) (mu / ell ^ 3 * d_rhoh h) (d_delta h) (d_turnover h) (d_unity h) (d_noexcl h) (d_sd h).
  (** hd' gives a halo of mass mu m what hd gives one of mass m *)
  Definition same_occupation (hd hd' : hod) : Prop :=
    h_kind hd' = h_kind hd /\ h_flag hd' = h_flag hd /\ h_inherent hd' = h_inherent hd /\ h_sharp hd' = h_sharp hd /\ h_mmin hd' = h_mmin hd + log10 mu /\
    forall m, 0 < m -> h_co hd' (mu * m) = h_co hd m /\ h_so hd' (mu * m) = h_so hd m /\ h_tpc hd' (mu * m) = h_tpc hd m /\ h_tps hd' (mu * m) = h_tps hd m.
  Definition tracer_in (t : tracer) (hd' : hod) : tracer :=
    mkTr hd' (t_ukm t) (fun i j => t_rho t i j / ell ^ 3) (option_map (fun l i j => l i j / ell ^ 3) (t_lam t)).

  (** ** profiles: every class of the shape/instance model *)
  Definition profile_in (o : inst) : inst :=
    mkInst (delta_halo o) (mu / ell ^ 3 * mean_dens o) (mu / ell ^ 3 * mean_density0 o) (eta_bloat o) (fun m => nu_fn o (m / mu)) (fun m => cm_at_z o (m / mu)).
  (** the unit of a density under each normalisation *)
  Definition density_unit (norm : option string) : R :=
    match norm with None => mu / ell ^ 3 | Some n => if (n =? "m")%string then / ell ^ 3 else 1 end.
  Definition good_inst (o : inst) : Prop := 0 < delta_halo o /\ 0 < mean_dens o /\ 0 < mean_density0 o.

  Lemma L3 : 0 < ell ^ 3. Proof. now apply pow_lt. Qed.
  Lemma rpow3 : forall x, 0 < x -> Rpower (x ^ 3) (1 / 3) = x.
  Proof. intros x H. rewrite <- (Rpower_pow 3 x) by auto. rewrite Rpower_mult. replace (INR 3 * (1 / 3)) with 1 by (simpl; lra). now apply Rpower_1. Qed.
  Theorem c153_virial_radius : forall o m b, good_inst o -> 0 < m -> halo_mass_to_radius (profile_in o) (mu * m) b = ell * halo_mass_to_radius o m b.
  Proof.
    intros o m b [G1 [G2 G3]] Hm. unfold halo_mass_to_radius, profile_in; cbn [delta_halo mean_dens mean_density0].
    set (d := if b then mean_dens o else mean_density0 o). assert (D : 0 < d) by (unfold d; destruct b; auto). assert (P := PI_RGT_0). assert (L := L3).
    replace (if b then mu / ell ^ 3 * mean_dens o else mu / ell ^ 3 * mean_density0 o) with (mu / ell ^ 3 * d) by (unfold d; destruct b; reflexivity).
    replace (3 * (mu * m) / (4 * PI * delta_halo o * (mu / ell ^ 3 * d))) with (ell ^ 3 * (3 * m / (4 * PI * delta_halo o * d))) by (field; repeat split; lra).
    rewrite <- Rpower_mult_distr; auto. { now rewrite rpow3. }
    apply Rdiv_lt_0_compat; [lra|]. apply Rmult_lt_0_compat; auto. apply Rmult_lt_0_compat; auto. lra.
  Qed.
  Lemma cm_in : forall s o m, cm_relation s (profile_in o) (mu * m) = cm_relation s o m.
  Proof. intros. unfold cm_relation, profile_in; cbn [cm_at_z]. replace (mu * m / mu) with m by (field; lra). reflexivity. Qed.
  Lemma bloat_in : forall o m, bloat (profile_in o) (mu * m) = bloat o m.
  Proof. intros. unfold bloat, profile_in; cbn [nu_fn eta_bloat]. replace (mu * m / mu) with m by (field; lra). reflexivity. Qed.
  Theorem c153_scale_radius : forall s o m c z, good_inst o -> 0 < m -> rs_from_m s (profile_in o) (mu * m) c z = rmap (Rmult ell) (rs_from_m s o m c z).
  Proof.
    intros s o m c z G Hm. unfold rs_from_m, base_rs. destruct (s_moore s).
    - destruct z; [reflexivity|]. destruct c; [|reflexivity]. simpl. f_equal. rewrite c153_virial_radius, bloat_in by auto. unfold Rdiv. ring.
    - simpl. f_equal. rewrite c153_virial_radius, bloat_in, cm_in by auto. unfold Rdiv. ring.
  Qed.
  Lemma ratio_in : forall r y, ell * r / (ell * y) = r / y.
  Proof. intros. unfold Rdiv. rewrite Rinv_mult. replace (ell * r * (/ ell * / y)) with (r * / y * (ell * / ell)) by ring. rewrite Rinv_r by lra. ring. Qed.
  Lemma rvars_in : forall s o r m c, good_inst o -> 0 < m ->
    get_r_variables s (profile_in o) (ell * r) (mu * m) c "r" = rmap (fun v => let '(c, y, x) := v in (c, ell * y, x)) (get_r_variables s o r m c "r").
  Proof.
    intros s o r m c G Hm. unfold get_r_variables. rewrite cm_in, c153_scale_radius by auto. destruct (rs_from_m s o m _ None) as [y|e]; simpl; auto. now rewrite ratio_in.
  Qed.
  Lemma rhos_in : forall s o c y norm, rho_s s (profile_in o) c (ell * y) norm = rmap (Rmult (density_unit norm)) (rho_s s o c y norm).
  Proof.
    intros s o c y norm. assert (L := L3). unfold rho_s, density_unit. destruct norm as [n|].
    - destruct (n =? "m")%string; simpl; [|destruct (n =? "rho")%string; simpl; auto; f_equal; ring]. f_equal.
      replace (4 * PI * (ell * y * (ell * y * (ell * y * 1))) * s_h s c) with (ell ^ 3 * (4 * PI * (y * (y * (y * 1))) * s_h s c)) by ring.
      unfold Rdiv. rewrite Rinv_mult. simpl. ring.
    - simpl. f_equal. unfold Rdiv. simpl. ring.
  Qed.
  (** density, mass profile, Fourier transform and self-convolution of any profile class, for any normalisation, concentration given
      or not *)
  Theorem c153_profile_methods : forall s o r k m norm c, good_inst o -> 0 < m ->
    rho s (profile_in o) (ell * r) (mu * m) norm c "r" = rmap (Rmult (density_unit norm)) (rho s o r m norm c "r") /\
    cdf s (profile_in o) (ell * r) c (mu * m) "r" = cdf s o r c m "r" /\
    u s (profile_in o) (k / ell) (mu * m) norm c "k" = rmap (Rmult (match norm with None => mu | Some _ => 1 end)) (u s o k m norm c "k") /\
    lam s (profile_in o) (ell * r) (mu * m) norm c "r" = rmap (Rmult (ell ^ 3 * density_unit norm ^ 2)) (lam s o r m norm c "r").
  Proof.
    intros s o r k m norm c G Hm. assert (L := L3). repeat split.
    - unfold rho. rewrite rvars_in by auto. destruct (get_r_variables s o r m c "r") as [[[c' y] x]|e]; simpl; auto. rewrite rhos_in. destruct (rho_s s o c' y norm) as [a|e]; simpl; auto.
      f_equal. destruct (s_inf s); [ring|]. destruct (Rltb c' x); ring.
    - unfold cdf. rewrite rvars_in by auto. destruct (get_r_variables s o r m c "r") as [[[c' y] x]|e]; reflexivity.
    - assert (K : forall c0, get_k_variables s (profile_in o) (k / ell) (mu * m) c0 "k" = get_k_variables s o k m c0 "k").
      { intros c0. unfold get_k_variables. rewrite cm_in, c153_scale_radius by auto. destruct (rs_from_m s o m _ None) as [y|e]; simpl; auto. f_equal. f_equal. field. lra. }
      unfold u. rewrite !K. destruct (if s_inf s then get_k_variables s o k m None "k" else get_k_variables s o k m c "k") as [[c' K']|e]; simpl; auto.
      destruct norm as [n|]; [destruct (n =? "m")%string; simpl; auto; f_equal; ring|simpl; f_equal; ring].
    - unfold lam. rewrite rvars_in by auto. destruct (s_l s) as [l|].
      + destruct (get_r_variables s o r m c "r") as [[[c' y] x]|e]; cbn [rmap bind]; auto. destruct norm as [n|].
        * destruct (n =? "m")%string eqn:E; auto. rewrite rhos_in. destruct (rho_s s o c' y (Some n)) as [a|e]; simpl; auto. f_equal. ring.
        * rewrite rhos_in. destruct (rho_s s o c' y None) as [a|e]; simpl; auto. f_equal. ring.
      + destruct (s_inf s); auto. destruct (get_r_variables s o r m c "r") as [[[c' y] x]|e]; reflexivity.
  Qed.

  (** ** occupations: add log10 mu to every logarithmic mass *)
  Lemma pow10_in : forall x, pow10 (x + log10 mu) = mu * pow10 x.
  Proof. intros. unfold pow10 at 1. rewrite Rpower_plus. fold (pow10 x). fold (pow10 (log10 mu)). rewrite pow10_log10 by auto. ring. Qed.
  Lemma log10_in : forall m, 0 < m -> log10 (mu * m) = log10 m + log10 mu.
  Proof. intros. unfold log10. rewrite ln_mult by auto. unfold Rdiv. ring. Qed.
  Lemma Rltb_in : forall a b, Rltb (mu * a) (mu * b) = Rltb a b.
  Proof. intros. destruct (Rltb a b) eqn:E; [apply Rltb_spec in E; apply Rltb_spec; nra|apply Rltb_false in E; apply Rltb_false; nra]. Qed.
  Lemma Rleb_in : forall a b, Rleb (mu * a) (mu * b) = Rleb a b.
  Proof. intros. destruct (Rleb a b) eqn:E; [apply Rleb_spec in E; apply Rleb_spec; nra|apply Rleb_false in E; apply Rleb_false; nra]. Qed.
  Lemma Reqb_in : forall a b, Reqb (mu * a) (mu * b) = Reqb a b.
  Proof. intros. destruct (Reqb a b) eqn:E; [apply Reqb_spec in E; apply Reqb_spec; now rewrite E|apply Reqb_false in E; apply Reqb_false; intros Q; apply E; nra]. Qed.
  Lemma div_in : forall a b, mu * a / (mu * b) = a / b.
  Proof. intros. unfold Rdiv. rewrite Rinv_mult. replace (mu * a * (/ mu * / b)) with (a * / b * (mu * / mu)) by ring. rewrite Rinv_r by lra. ring. Qed.
  Theorem c153_occupations : forall central Mmin M1 alpha M0 sig fca fcb fs delta x Mcut Mmax logA sigmaA,
    let d := log10 mu in
    Forall (fun p => same_occupation (fst p) (snd p))
      [(Zehavi05 central Mmin M1 alpha, Zehavi05 central (Mmin + d) (M1 + d) alpha);
       (Zheng05 central Mmin M1 alpha M0 sig, Zheng05 central (Mmin + d) (M1 + d) alpha (M0 + d) sig);
       (Contreras13 central Mmin M1 alpha M0 sig fca fcb fs delta x, Contreras13 central (Mmin + d) (M1 + d) alpha (M0 + d) sig fca fcb fs delta x);
       (Tinker05 central Mmin M1 Mcut, Tinker05 central (Mmin + d) (M1 + d) (Mcut + d));
       (Zehavi05WithMax central Mmin M1 alpha Mmax, Zehavi05WithMax central (Mmin + d) (M1 + d) alpha (Mmax + d));
       (Zehavi05Marked central Mmin M1 logA alpha Mmax, Zehavi05Marked central (Mmin + d) (M1 + d) logA alpha (Mmax + d));
       (ContinuousPowerLaw central Mmin M1 logA alpha Mmax sigmaA, ContinuousPowerLaw central (Mmin + d) (M1 + d) logA alpha (Mmax + d) sigmaA);
       (ConstantHOD central logA Mmin sigmaA, ConstantHOD central logA (Mmin + d) sigmaA)].
  Proof.
    intros. repeat apply Forall_cons; [..|apply Forall_nil]; unfold same_occupation; simpl fst; simpl snd;
      (split; [reflexivity|]; split; [reflexivity|]; split; [reflexivity|]; split; [reflexivity|]; split; [simpl; unfold d; try ring|]); intros m Hm; simpl;
      unfold zehavi_co, zehavi_so, zheng_co, zheng_so, contreras_co, contreras_so, tinker_so, zehavi_co, withmax_co, marked_tpc, cpl_so, constant_so, one; unfold d;
      rewrite ?pow10_in, ?Rltb_in, ?Rleb_in, ?Reqb_in, ?div_in, ?log10_in by auto; auto.
    all: repeat split; auto.
    - do 4 f_equal. ring.
    - now rewrite <- Rmult_minus_distr_l, div_in.
    - now rewrite <- Rmult_minus_distr_l, Ropp_mult_distr_r, div_in.
  Qed.

  (** ** mass integrals *)
  Variables (I : quadrature) (spline : nat -> list R -> list R -> R -> R) (uspline : list R -> list R -> R -> R).
  Variables (h : dmhm) (t : tracer) (hd' : hod).
  Hypothesis LI : q_linear I.
  Hypothesis SI : q_shift I.
  Hypothesis ZI : q_zero_outside I.
  Hypothesis GM : grid (d_nm h) (d_m h).
  Hypothesis GK : grid (d_nk h) (d_k h).
  Hypothesis GR : grid (d_nr h) (d_r h).
  Hypothesis SH : same_occupation (t_hod t) hd'.
  Hypothesis MMM : 0 < h_mmin (t_hod t) <= d_m h 0%nat.
  Hypothesis MM' : 0 < h_mmin hd' <= mu * d_m h 0%nat.
  Notation h' := (framework_in h).
  Notation t' := (tracer_in t hd').

  Lemma mass_pos : forall i, (i < d_nm h)%nat -> 0 < d_m h i. Proof. apply GM. Qed.
  Lemma grid_m' : grid (d_nm h') (d_m h').
  Proof. destruct GM as [A [B C]]. split; auto. split; [intros i Hi; apply Rmult_lt_0_compat; auto|intros i j Hij; apply Rmult_lt_compat_l; auto]. Qed.
  Lemma grid_k' : grid (d_nk h') (d_k h').
  Proof. destruct GK as [A [B C]]. split; auto. split; [intros i Hi; apply Rdiv_lt_0_compat; auto|intros i j Hij; apply Rmult_lt_compat_r; auto; now apply Rinv_0_lt_compat]. Qed.
  Lemma grid_r' : grid (d_nr h') (d_r h').
  Proof. destruct GR as [A [B C]]. split; auto. split; [intros i Hi; apply Rmult_lt_0_compat; auto|intros i j Hij; apply Rmult_lt_compat_l; auto]. Qed.
  Lemma mint_in : forall c f f' x, match x with Some v => 0 < v | None => True end -> (forall i, (i < d_nm h)%nat -> f' i = c / mu * f i) ->
    mint I h' f' (option_map (Rmult mu) x) = c * mint I h f x.
  Proof.
    intros c f f' x X F. rewrite !mint_eq by (auto; apply grid_m'). 
    assert (M := mass_pos). assert (N : (d_nm h - 1 < d_nm h)%nat) by (destruct GM; lia). assert (N0 : (0 < d_nm h)%nat) by apply GM.
    assert (LO : lo_lim h' (option_map (Rmult mu) x) = lo_lim h x + ln mu).
    { unfold lo_lim. destruct x; simpl; rewrite ln_mult; auto; ring. }
    assert (HI : hi_lim h' = hi_lim h + ln mu). { unfold hi_lim. simpl. rewrite ln_mult; auto. ring. }
    rewrite LO, HI. cbn [d_nm d_m framework_in].
    rewrite (arr_ext (d_nm h) (fun i => ln (mu * d_m h i)) (fun i => ln (d_m h i) + ln mu)) by (intros; rewrite ln_mult; auto; ring).
    rewrite (arr_ext (d_nm h) (fun i => mu * d_m h i * f' i) (fun i => 0 * (d_m h i * f i) + c * (d_m h i * f i))) by (intros; rewrite F by auto; field; lra).
    rewrite SI, LI.
    rewrite (arr_ext (d_nm h) (fun i => 0 * (d_m h i * f i)) (fun i => d_m h i * f i + -1 * (d_m h i * f i))) by (intros; ring). rewrite LI. ring.
  Qed.
  Lemma cut_in : cut hd' = cut (t_hod t).
  Proof. destruct SH as [A [B [C [D _]]]]. unfold cut, h_central. now rewrite A, B, C, D. Qed.
  Lemma occ_in : forall i, (i < d_nm h)%nat -> let m := d_m h i in
    cen_int hd' (mu * m) = cen_int (t_hod t) m /\ satellite_occupation hd' (mu * m) = satellite_occupation (t_hod t) m /\ tot_int hd' (mu * m) = tot_int (t_hod t) m /\
    cs_pairs hd' (mu * m) = cs_pairs (t_hod t) m /\ ss_pairs hd' (mu * m) = ss_pairs (t_hod t) m.
  Proof.
    intros i Hi m. assert (C := cut_in). destruct SH as [K [FL [IN [_ [_ Q]]]]]. destruct (Q m (mass_pos i Hi)) as [Q1 [Q2 [Q3 Q4]]].
    assert (CO : central_occupation hd' (mu * m) = central_occupation (t_hod t) m) by (unfold central_occupation; rewrite K, Q1; reflexivity).
    assert (HC : h_central hd' = h_central (t_hod t)) by (unfold h_central; now rewrite K, FL).
    assert (NC : nc hd' (mu * m) = nc (t_hod t) m) by (unfold nc; rewrite K, CO, Q3; reflexivity).
    assert (SO : satellite_occupation hd' (mu * m) = satellite_occupation (t_hod t) m) by (unfold satellite_occupation; rewrite HC, IN, NC, Q2; reflexivity).
    assert (CE : cen_int hd' (mu * m) = cen_int (t_hod t) m) by (unfold cen_int; rewrite C, CO; reflexivity).
    split; auto. split; auto. split; [unfold tot_int; now rewrite CE, SO|]. split; [unfold cs_pairs; rewrite K, HC, SO, Q3, CO; reflexivity|unfold ss_pairs; now rewrite SO].
  Qed.
  Lemma tmin_in : tracer_mmin hd' = option_map (Rmult mu) (tracer_mmin (t_hod t)).
  Proof.
    unfold tracer_mmin. rewrite cut_in. destruct SH as [_ [_ [_ [_ [-> _]]]]]. destruct (cut (t_hod t)); simpl; auto. f_equal. exact (pow10_in (h_mmin (t_hod t))).
  Qed.
  Lemma tint_in : forall c f f', (forall i, (i < d_nm h)%nat -> f' i = c / mu * f i) -> tint I h' t' f' = c * tint I h t f.
  Proof. intros c f f' F. unfold tint. cbn [t_hod tracer_in]. rewrite tmin_in. apply mint_in; auto. unfold tracer_mmin. destruct (cut _); auto. apply exp_pos. Qed.
  Lemma den_in : mean_tracer_den I h' t' = / ell ^ 3 * mean_tracer_den I h t.
  Proof. unfold mean_tracer_den. apply tint_in. intros i Hi. destruct (occ_in i Hi) as [_ [_ [E _]]]. assert (L := L3). cbn [d_dndm d_m framework_in t_hod tracer_in]. rewrite E. field. lra. Qed.

  (** the statistics of the tracer: a density, a bias, a mass and two fractions *)
  Theorem c153_statistics : 
    mean_tracer_den I h' t' = mean_tracer_den I h t / ell ^ 3 /\
    bias_effective_tracer I h' t' = bias_effective_tracer I h t /\ satellite_fraction I h' t' = satellite_fraction I h t /\ central_fraction I h' t' = central_fraction I h t /\
    bias_effective_matter I h' = bias_effective_matter I h /\
    (q_positive I -> xmin_ok h (tracer_mmin (t_hod t)) -> 0 < mean_tracer_den I h t -> (forall i, (i < d_nm h)%nat -> 0 <= d_dndm h i * tot_int (t_hod t) (d_m h i)) ->
       mass_effective I h' t' = mass_effective I h t + log10 mu).
  Proof.
    assert (L := L3). assert (SF : satellite_fraction I h' t' = satellite_fraction I h t).
    { unfold satellite_fraction. rewrite den_in. rewrite (tint_in (/ ell ^ 3) (fun i => d_dndm h i * satellite_occupation (t_hod t) (d_m h i))).
      - unfold Rdiv. rewrite Rinv_mult, Rinv_inv. replace (/ ell ^ 3 * tint I h t (fun i => d_dndm h i * satellite_occupation (t_hod t) (d_m h i)) * (ell ^ 3 * / mean_tracer_den I h t)) with
          (tint I h t (fun i => d_dndm h i * satellite_occupation (t_hod t) (d_m h i)) * / mean_tracer_den I h t * (/ ell ^ 3 * ell ^ 3)) by ring. rewrite Rinv_l by lra. ring.
      - intros i Hi. destruct (occ_in i Hi) as [_ [E _]]. cbn [d_dndm d_m framework_in t_hod tracer_in]. rewrite E. field. lra. }
    split; [rewrite den_in; unfold Rdiv; ring|]. split; [|split; auto; split; [unfold central_fraction; now rewrite SF|split]].
    - unfold bias_effective_tracer. rewrite den_in. rewrite (tint_in (/ ell ^ 3) (fun i => d_dndm h i * tot_int (t_hod t) (d_m h i) * d_bias h i)).
      + unfold Rdiv. rewrite Rinv_mult, Rinv_inv. set (T := tint I h t _). replace (/ ell ^ 3 * T * (ell ^ 3 * / mean_tracer_den I h t)) with (T * / mean_tracer_den I h t * (/ ell ^ 3 * ell ^ 3)) by ring. rewrite Rinv_l by lra. ring.
      + intros i Hi. destruct (occ_in i Hi) as [_ [_ [E _]]]. cbn [d_dndm d_m d_bias framework_in t_hod tracer_in]. rewrite E. field. lra.
    - unfold bias_effective_matter. cbn [d_unity d_rhoh framework_in]. destruct (d_unity h); auto.
      change (@None R) with (option_map (Rmult mu) None). rewrite (mint_in (mu / ell ^ 3) (fun im => d_m h im * d_dndm h im * d_bias h im)); auto.
      + simpl option_map. set (X := mint I h _ _). unfold Rdiv. rewrite !Rinv_mult, Rinv_inv. replace (mu * / ell ^ 3 * X * (/ mu * ell ^ 3 * / d_rhoh h)) with (X * / d_rhoh h * (mu * / mu) * (/ ell ^ 3 * ell ^ 3)) by ring. rewrite Rinv_l, Rinv_r by lra. ring.
      + intros i Hi. cbn [d_dndm d_m d_bias framework_in]. field. lra.
    - intros PQ XO DP NN. unfold mass_effective. rewrite den_in. rewrite (tint_in (mu / ell ^ 3) (fun i => d_m h i * d_dndm h i * tot_int (t_hod t) (d_m h i))).
      + set (T := tint I h t _). assert (TP : 0 < T).
        { assert (A := average_bounds I h t (d_m h) (d_m h 0%nat) (d_m h (d_nm h - 1)%nat) LI PQ GM XO DP).
          assert (K : forall i, (i < d_nm h)%nat -> 0 <= weight h t i /\ d_m h 0%nat <= d_m h i <= d_m h (d_nm h - 1)%nat).
          { intros i Hi. repeat split; [now apply NN|apply (grid_mono (d_nm h)); auto; lia|apply (grid_mono (d_nm h)); auto; lia]. }
          specialize (A K). assert (M0 := mass_pos 0%nat ltac:(apply GM)). destruct A as [A _].
          assert (TE : tint I h t (fun i => weight h t i * d_m h i) = T) by (unfold T, tint; apply mint_ext; intros; unfold weight; ring). rewrite TE in A.
          apply Rmult_lt_reg_r with (/ mean_tracer_den I h t); [now apply Rinv_0_lt_compat|]. unfold Rdiv in A. lra. }
        replace (mu / ell ^ 3 * T / (/ ell ^ 3 * mean_tracer_den I h t)) with (mu * (T / mean_tracer_den I h t)) by (field; lra).
        rewrite ln_mult; auto; [|now apply Rdiv_lt_0_compat]. unfold log10, Rdiv. ring.
      + intros i Hi. destruct (occ_in i Hi) as [_ [_ [E _]]]. cbn [d_dndm d_m framework_in t_hod tracer_in]. rewrite E. field. lra.
  Qed.

  (** ** 1-halo tables *)
  Lemma sphere_in : forall k, 0 < k -> mmin_1h h' (mu * d_m h 0%nat) (k / ell) = mu * mmin_1h h (d_m h 0%nat) k.
  Proof.
    intros k Hk. unfold mmin_1h. cbn [d_turnover d_rho0 d_delta framework_in]. destruct (d_turnover h); auto. rewrite <- RmaxRmult by lra. f_equal. field. lra.
  Qed.
  Lemma mmin_pos : forall k, 0 < mmin_1h h (d_m h 0%nat) k.
  Proof. intros k. assert (M0 := mass_pos 0%nat ltac:(apply GM)). unfold mmin_1h. destruct (d_turnover h); auto. eapply Rlt_le_trans; [exact M0|apply Rmax_l]. Qed.
  Lemma k_pos : forall ik, (ik < d_nk h)%nat -> 0 < d_k h ik. Proof. apply GK. Qed.
  Lemma do_1halo_in : forall c f f' ik, (ik < d_nk h)%nat -> (forall i, (i < d_nm h)%nat -> f' i = c / mu * f i) ->
    mint I h' f' (Some (mmin_1h h' (d_m h' 0%nat) (d_k h' ik))) = c * mint I h f (Some (mmin_1h h (d_m h 0%nat) (d_k h ik))).
  Proof.
    intros c f f' ik Hk F. cbn [d_m d_k framework_in]. rewrite sphere_in by now apply k_pos.
    change (Some (mu * mmin_1h h (d_m h 0%nat) (d_k h ik))) with (option_map (Rmult mu) (Some (mmin_1h h (d_m h 0%nat) (d_k h ik)))). apply mint_in; auto. apply mmin_pos.
  Qed.

  Hypothesis SR : s_rescale (spline 3%nat).
  Hypothesis US : u_shift uspline.
  Lemma kspline_in : forall T T' lo lo' up up' ml p p', (forall ik, (ik < d_nk h)%nat -> T' ik = ell ^ 3 * T ik) ->
    ext_rescaled (/ ell) (ell ^ 3) lo lo' -> ext_rescaled (/ ell) (ell ^ 3) up up' ->
    efun spline uspline (tab (d_nk h) (d_k h)) (tab (d_nk h) T) lo up ml = Ok p -> efun spline uspline (tab (d_nk h') (d_k h')) (tab (d_nk h') T') lo' up' ml = Ok p' ->
    forall k, 0 < k -> p' (k / ell) = ell ^ 3 * p k.
  Proof.
    intros T T' lo lo' up up' ml p p' HT HL HU H H' k Hk. cbn [d_nk d_k framework_in] in H'.
    rewrite (tab_ext (d_nk h) T' (fun i => ell ^ 3 * T i)) in H' by auto. rewrite (tab_ext (d_nk h) (fun i => d_k h i / ell) (fun i => / ell * d_k h i)) in H' by (intros; unfold Rdiv; ring).
    replace (k / ell) with (/ ell * k) by (unfold Rdiv; ring).
    exact (efun_rescaled spline uspline (d_nk h) (d_k h) T (/ ell) (ell ^ 3) (Rinv_0_lt_compat _ PE) L3 SR US GK lo lo' up up' ml p p' HL HU H H' k Hk).
  Qed.
  Lemma zero_in : forall a c, ext_rescaled a c (ExtCallable zero_ext) (ExtCallable zero_ext). Proof. intros a c x Hx. unfold zero_ext. ring. Qed.
  Lemma rspline_in : forall T T' f f', (forall ir, (ir < d_nr h)%nat -> T' ir = T ir) -> rspline spline uspline h T = Ok f -> rspline spline uspline h' T' = Ok f' ->
    forall r, 0 < r -> f' (ell * r) = f r.
  Proof.
    intros T T' f f' HT H H' r Hr. unfold rspline in H, H'. cbn [d_nr d_r framework_in] in H'. rewrite (tab_ext (d_nr h) T' (fun i => 1 * T i)) in H' by (intros; rewrite HT by auto; ring).
    rewrite <- (Rmult_1_l (f r)). refine (efun_rescaled spline uspline (d_nr h) (d_r h) T ell 1 PE Rlt_0_1 SR US GR _ _ _ _ true f f' _ (zero_in ell 1) H H' r Hr). exact Logic.I.
  Qed.
  Lemma lower_in : ext_rescaled (/ ell) (ell ^ 3) (lower_1h h) (lower_1h h').
  Proof. unfold lower_1h. cbn [d_turnover framework_in]. destruct (d_turnover h); [apply zero_in|exact Logic.I]. Qed.

  (** ** power spectra, at every wavenumber *)
  Lemma p1h_matter_in : forall ik, (ik < d_nk h)%nat -> p1h_matter I h' ik = ell ^ 3 * p1h_matter I h ik.
  Proof.
    intros ik Hk. assert (L := L3). unfold p1h_matter, do_1halo.
    rewrite (do_1halo_in (mu ^ 2 / ell ^ 3) (fun im => d_dndm h im * d_m h im ^ 2 * d_ukm h ik im ^ 2)) by (auto; intros i Hi; cbn [d_dndm d_m d_ukm framework_in]; field; lra).
    cbn [d_rho0 framework_in]. set (X := mint I h _ _). replace ((mu / ell ^ 3 * d_rho0 h) ^ 2) with (mu ^ 2 / (ell ^ 3) ^ 2 * d_rho0 h ^ 2) by (field; lra).
    unfold Rdiv. rewrite !Rinv_mult, Rinv_inv. replace (mu ^ 2 * / ell ^ 3 * X * (/ mu ^ 2 * (ell ^ 3) ^ 2 * / d_rho0 h ^ 2)) with (ell ^ 3 * (X * / d_rho0 h ^ 2) * (mu ^ 2 * / mu ^ 2) * (ell ^ 3 * / ell ^ 3)) by ring.
    rewrite !Rinv_r by (try apply pow_nonzero; lra). ring.
  Qed.
  Lemma over_den2 : forall X, / ell ^ 3 * X / mean_tracer_den I h' t' ^ 2 = ell ^ 3 * (X / mean_tracer_den I h t ^ 2).
  Proof.
    intros X. assert (L := L3). rewrite den_in. rewrite Rpow_mult_distr. unfold Rdiv. rewrite Rinv_mult.
    replace (/ (/ ell ^ 3) ^ 2) with ((ell ^ 3) ^ 2) by (field; lra). set (D := / mean_tracer_den I h t ^ 2).
    replace (/ ell ^ 3 * X * ((ell ^ 3) ^ 2 * D)) with (ell ^ 3 * (X * D) * (ell ^ 3 * / ell ^ 3)) by ring. rewrite Rinv_r by lra. ring.
  Qed.
  Lemma p1h_tracer_in : forall ik, (ik < d_nk h)%nat -> p1h_ss I h' t' ik = ell ^ 3 * p1h_ss I h t ik /\ p1h_cs I h' t' ik = ell ^ 3 * p1h_cs I h t ik.
  Proof.
    intros ik Hk. assert (L := L3). destruct (c60_hod_minimum_mass_never_used I h t ik ZI GM MMM) as [-> ->]. destruct (c60_hod_minimum_mass_never_used I h' t' ik ZI grid_m' MM') as [-> ->].
    split.
    - rewrite (do_1halo_in (/ ell ^ 3) (fun im => t_ukm t ik im ^ 2 * d_dndm h im * ss_pairs (t_hod t) (d_m h im))); auto; [apply over_den2|].
      intros i Hi. destruct (occ_in i Hi) as [_ [_ [_ [_ E]]]]. cbn [d_dndm d_m framework_in t_hod t_ukm tracer_in]. rewrite E. field. lra.
    - rewrite (do_1halo_in (/ ell ^ 3) (fun im => d_dndm h im * 2 * cs_pairs (t_hod t) (d_m h im) * t_ukm t ik im)); auto; [apply over_den2|].
      intros i Hi. destruct (occ_in i Hi) as [_ [_ [_ [E _]]]]. cbn [d_dndm d_m framework_in t_hod t_ukm tracer_in]. rewrite E. field. lra.
  Qed.
  Theorem c153_power_1h_matter : forall p p', power_1h_matter I spline uspline h = Ok p -> power_1h_matter I spline uspline h' = Ok p' -> forall k, 0 < k -> p' (k / ell) = ell ^ 3 * p k.
  Proof. intros p p' H H'. refine (kspline_in _ _ _ _ _ _ _ p p' p1h_matter_in lower_in _ H H'). exact Logic.I. Qed.
  Theorem c153_power_1h_tracer : forall p p', power_1h_tracer I spline uspline h t = Ok p -> power_1h_tracer I spline uspline h' t' = Ok p' -> forall k, 0 < k -> p' (k / ell) = ell ^ 3 * p k.
  Proof.
    intros p p' H H' k Hk. unfold power_1h_tracer in H, H'. apply bind_ok in H. destruct H as [a [A H]]. apply bind_ok in H. destruct H as [b [B H]]. injection H as <-.
    apply bind_ok in H'. destruct H' as [a' [A' H']]. apply bind_ok in H'. destruct H' as [b' [B' H']]. injection H' as <-. unfold sum_callable.
    unfold power_1h_cs in A, A'. cbv zeta in A, A'. unfold power_1h_ss in B, B'.
    assert (FA : forallb (fun v => Rltb 0 v) (py_last 10 (tab (d_nk h') (p1h_cs I h' t'))) = forallb (fun v => Rltb 0 v) (py_last 10 (tab (d_nk h) (p1h_cs I h t)))).
    { cbn [d_nk framework_in]. rewrite (tab_ext (d_nk h) (p1h_cs I h' t') (fun i => ell ^ 3 * p1h_cs I h t i)) by (intros; now apply p1h_tracer_in).
      rewrite tab_scal. unfold py_last. rewrite skipn_map, map_length. apply forallb_pos_scal. apply L3. }
    rewrite FA in A'.
    assert (UA : ext_rescaled (/ ell) (ell ^ 3) (if forallb (fun v => Rltb 0 v) (py_last 10 (tab (d_nk h) (p1h_cs I h t))) then ExtPowerLaw else ExtCallable zero_ext)
                   (if forallb (fun v => Rltb 0 v) (py_last 10 (tab (d_nk h) (p1h_cs I h t))) then ExtPowerLaw else ExtCallable zero_ext)) by (destruct (forallb _ _); [exact Logic.I|apply zero_in]).
    assert (EA := kspline_in _ _ _ _ _ _ _ a a' (fun ik Hk => proj2 (p1h_tracer_in ik Hk)) lower_in UA A A' k Hk).
    assert (EB : b' (k / ell) = ell ^ 3 * b k) by (refine (kspline_in _ _ _ _ _ _ _ b b' (fun ik Hk => proj1 (p1h_tracer_in ik Hk)) lower_in _ B B' k Hk); exact Logic.I).
    rewrite EA, EB. ring.
  Qed.

  (** tracer-matter *)
  Lemma over_den_rho : forall X, mu / ell ^ 3 * X / (mean_tracer_den I h' t' * (mu / ell ^ 3 * d_rho0 h)) = ell ^ 3 * (X / (mean_tracer_den I h t * d_rho0 h)).
  Proof.
    intros X. assert (L := L3). rewrite den_in. replace (/ ell ^ 3 * mean_tracer_den I h t * (mu / ell ^ 3 * d_rho0 h)) with (mu / ell ^ 3 / ell ^ 3 * (mean_tracer_den I h t * d_rho0 h)) by (field; lra).
    set (Y := mean_tracer_den I h t * d_rho0 h). unfold Rdiv. rewrite !Rinv_mult, !Rinv_inv. set (D := / Y). field. lra.
  Qed.
  Lemma tcen_in : forall ik im, (im < d_nm h)%nat -> tcen h' t' ik im = tcen h t ik im.
  Proof. intros ik im Hi. destruct (occ_in im Hi) as [E1 [E2 _]]. unfold tcen. cbn [d_m framework_in t_hod t_ukm tracer_in]. now rewrite E1, E2. Qed.
  Theorem c153_power_tm : forall p p' q q', power_1h_tm I spline uspline h t = Ok p -> power_1h_tm I spline uspline h' t' = Ok p' ->
    power_2h_tm I spline uspline h t = Ok q -> power_2h_tm I spline uspline h' t' = Ok q' -> forall k, 0 < k -> p' (k / ell) = ell ^ 3 * p k /\ q' (k / ell) = ell ^ 3 * q k.
  Proof.
    intros p p' q q' H1 H1' H2 H2' k Hk. assert (L := L3). split.
    - refine (kspline_in _ _ _ _ _ _ _ p p' _ _ _ H1 H1' k Hk); try exact Logic.I. intros ik Hi. unfold p1h_tm. cbn [d_rho0 framework_in]. rewrite <- over_den_rho. f_equal. apply tint_in.
      intros i Hm. rewrite tcen_in by auto. cbn [d_dndm d_m d_ukm framework_in]. field. lra.
    - refine (kspline_in _ _ _ _ _ _ _ q q' _ _ _ H2 H2' k Hk); [|exact Logic.I|cbn [d_hc framework_in]; destruct (filtered (d_hc h)); [apply zero_in|exact Logic.I]].
      intros ik Hi. unfold p2h_tm. cbn [d_rho0 d_phc d_k framework_in]. rewrite <- over_den_rho. replace (ell * (d_k h ik / ell)) with (d_k h ik) by (field; lra).
      assert (B1 : bt_tm I h' t' ik = / ell ^ 3 * bt_tm I h t ik) by (apply tint_in; intros i Hm; rewrite tcen_in by auto; cbn [d_dndm d_bias framework_in]; field; lra).
      assert (B2 : bm_tm I h' ik = mu / ell ^ 3 * bm_tm I h ik).
      { unfold bm_tm. apply (mint_in (mu / ell ^ 3) (fun im => d_dndm h im * d_bias h im * d_m h im * d_ukm h ik im) _ None Logic.I). intros i Hm. cbn [d_dndm d_bias d_m d_ukm framework_in]. field. lra. }
      rewrite B1, B2. f_equal. field. lra.
  Qed.

  (** 2-halo power without exclusion *)
  Lemma dlnx_in : ln (mu * d_m h 1%nat / (mu * d_m h 0%nat)) = ln (d_m h 1%nat / d_m h 0%nat).
  Proof. now rewrite div_in. Qed.
  Hypothesis NX : d_noexcl h = true.
  Hypothesis SD : d_sd h = None.
  Lemma bias_in : the_bias h' = the_bias h. Proof. unfold the_bias. cbn [d_sd d_bias framework_in]. reflexivity. Qed.
  Theorem c153_power_2h_matter : forall hk p p', power_2h_matter_noexcl I spline uspline hk h = Ok p -> power_2h_matter_noexcl I spline uspline hk h' = Ok p' -> forall k, 0 < k -> p' (k / ell) = ell ^ 3 * p k.
  Proof.
    intros hk p p' H H'. assert (L := L3). unfold power_2h_matter_noexcl, power_2h_auto in H, H'. cbv zeta in H, H'. cbn [d_noexcl d_sd framework_in] in H'. rewrite NX, SD in H, H'. cbn [andb] in H, H'. unfold prim_2h in H, H'.
    refine (kspline_in _ _ _ _ _ _ _ p p' _ _ _ H H').
    - intros ik Hi. cbn [d_phc d_k framework_in]. replace (ell * (d_k h ik / ell)) with (d_k h ik) by (field; lra).
      match goal with |- ?a * _ = _ => assert (F : a = factor_2h I h (matter_exclusion h) (noexcl_integrate (ius_of I (d_nm h)) (matter_exclusion h)) (fun _ => 1) (bias_effective_matter I h) (d_unity h) 0 ik) end; [|rewrite F; ring].
      unfold factor_2h. cbn [d_unity d_nr d_nm framework_in]. assert (BE : bias_effective_matter I h' = bias_effective_matter I h) by apply c153_statistics. rewrite BE.
      assert (NI : noexcl_integrate (ius_of I (d_nm h)) (matter_exclusion h') 0 ik = noexcl_integrate (ius_of I (d_nm h)) (matter_exclusion h) 0 ik).
      { unfold noexcl_integrate, matter_exclusion, the_bias. cbn [d_sd framework_in]. rewrite SD. cbn [e_bias]. f_equal. unfold spline_integrate. cbn [e_xmin]. unfold e_dlnx. cbn [e_nm e_m d_nm d_m framework_in]. rewrite dlnx_in.
        apply Props.HaloModelProps.simpson_ext. intros i Hm. cbn [e_power d_dndm d_m d_rhoh d_ukm d_bias framework_in]. unfold Rdiv. rewrite !Rinv_mult, Rinv_inv.
        set (Z := / d_rhoh h). field. lra. }
      rewrite NI. destruct (d_unity h); auto. f_equal. f_equal. f_equal.
      unfold excl_eff_bias, matter_exclusion, the_bias. cbn [d_sd d_bias framework_in]. rewrite SD. cbn [e_bias e_nm e_m e_density d_nm d_m d_dndm d_rhoh framework_in].
      assert (Q := mint_in 1 (fun im => d_dndm h im * d_m h im / d_rhoh h * d_bias h im) (fun im => d_dndm h im / (mu * ell ^ 3) * (mu * d_m h im) / (mu / ell ^ 3 * d_rhoh h) * d_bias h im) None Logic.I).
      rewrite Rmult_1_l in Q. apply Q. intros i Hm. unfold Rdiv. rewrite !Rinv_mult, Rinv_inv. set (Z := / d_rhoh h). field. lra.
    - cbn [d_plin framework_in ext_rescaled]. intros x Hx. replace (ell * (/ ell * x)) with x by (field; lra). reflexivity.
    - cbn [d_hc d_noexcl framework_in]. rewrite NX. destruct (negb (filtered (d_hc h))); cbn [andb]; [exact Logic.I|apply zero_in].
  Qed.
  Theorem c153_power_2h_tracer : forall hk p p', power_2h_tracer_noexcl I spline uspline hk h t = Ok p -> power_2h_tracer_noexcl I spline uspline hk h' t' = Ok p' -> forall k, 0 < k -> p' (k / ell) = ell ^ 3 * p k.
  Proof.
    intros hk p p' H H'. assert (L := L3). unfold power_2h_tracer_noexcl, power_2h_auto in H, H'. cbv zeta in H, H'. cbn [d_noexcl d_sd framework_in] in H'. rewrite NX, SD in H, H'. cbn [andb] in H, H'. unfold prim_2h in H, H'.
    refine (kspline_in _ _ _ _ _ _ _ p p' _ _ _ H H').
    - intros ik Hi. cbn [d_phc d_k framework_in]. replace (ell * (d_k h ik / ell)) with (d_k h ik) by (field; lra).
      match goal with |- ?a * _ = _ => assert (F : a = factor_2h I h (tracer_exclusion I h t) (noexcl_integrate (ius_of I (d_nm h)) (tracer_exclusion I h t)) (fun _ => 1) (bias_effective_tracer I h t) false 0 ik) end; [|rewrite F; ring].
      unfold factor_2h. cbn [d_nm framework_in].
      assert (NI : noexcl_integrate (ius_of I (d_nm h)) (tracer_exclusion I h' t') 0 ik = noexcl_integrate (ius_of I (d_nm h)) (tracer_exclusion I h t) 0 ik).
      { unfold noexcl_integrate, tracer_exclusion, the_bias. cbn [d_sd framework_in]. rewrite SD. cbn [e_bias]. f_equal. unfold spline_integrate. cbn [t_hod tracer_in]. rewrite tmin_in. unfold e_dlnx. cbn [e_nm e_m e_power d_nm d_m framework_in].
        assert (PT : forall i, (i < d_nm h)%nat -> d_dndm h' i * tot_int (t_hod t') (mu * d_m h i) / mean_tracer_den I h' t' * t_ukm t' ik i * d_bias h' i * (mu * d_m h i) = d_dndm h i * tot_int (t_hod t) (d_m h i) / mean_tracer_den I h t * t_ukm t ik i * d_bias h i * d_m h i).
        { intros i Hm. destruct (occ_in i Hm) as [_ [_ [E _]]]. cbn [d_dndm d_bias framework_in t_hod t_ukm tracer_in]. rewrite E, den_in. unfold Rdiv. rewrite !Rinv_mult, Rinv_inv. set (Z := / mean_tracer_den I h t). field. lra. }
        unfold e_xmin. cbn [e_xmin_arg e_m d_m framework_in]. destruct (tracer_mmin (t_hod t)) as [v|] eqn:TM; cbn [option_map]; [rewrite Rltb_in; destruct (Rltb (d_m h 0%nat) v)|].
        - unfold ius_of. cbv beta. rewrite !tab_arr. match goal with |- I _ ?B _ _ = I _ ?B2 _ _ => replace B with B2 by (symmetry; apply arr_ext; intros i Hm; exact (PT i Hm)) end.
          assert (V : 0 < v) by (unfold tracer_mmin in TM; destruct (cut (t_hod t)); [injection TM as <-; apply exp_pos|discriminate]).
          rewrite (arr_ext (d_nm h) (fun i => ln (mu * d_m h i)) (fun i => ln (d_m h i) + ln mu)) by (intros; rewrite ln_mult; auto; [ring|now apply mass_pos]).
          rewrite !ln_mult by (auto; apply mass_pos; destruct GM; lia). rewrite (Rplus_comm (ln mu) (ln v)), (Rplus_comm (ln mu) (ln (d_m h _))). apply SI.
        - rewrite dlnx_in. apply Props.HaloModelProps.simpson_ext. exact PT.
        - rewrite dlnx_in. apply Props.HaloModelProps.simpson_ext. exact PT. }
      rewrite NI. reflexivity.
    - cbn [d_plin framework_in ext_rescaled]. intros x Hx. replace (ell * (/ ell * x)) with x by (field; lra). reflexivity.
    - cbn [d_hc d_noexcl framework_in]. rewrite NX. destruct (negb (filtered (d_hc h))); cbn [andb]; [exact Logic.I|apply zero_in].
  Qed.

  (** ** correlation functions computed from the density and the self-convolution: at every separation *)
  Lemma over_den2_r : forall X, (/ ell ^ 3) ^ 2 * X / mean_tracer_den I h' t' ^ 2 = X / mean_tracer_den I h t ^ 2.
  Proof.
    intros X. assert (L := L3). rewrite den_in, Rpow_mult_distr. set (Y := mean_tracer_den I h t ^ 2). unfold Rdiv. rewrite Rinv_mult. set (D := / Y).
    replace (/ (/ ell ^ 3) ^ 2) with ((ell ^ 3) ^ 2) by (field; lra). replace ((/ ell ^ 3) ^ 2 * X * ((ell ^ 3) ^ 2 * D)) with (X * D * (ell ^ 3 * / ell ^ 3) ^ 2) by ring. rewrite Rinv_r by lra. ring.
  Qed.
  Theorem c153_corr_1h_tracer : forall hk l, t_lam t = Some l -> 
    (forall f f', corr_1h_cs I spline uspline h t = Ok f -> corr_1h_cs I spline uspline h' t' = Ok f' -> forall r, 0 < r -> f' (ell * r) = f r) /\
    (forall f f', corr_1h_ss I spline uspline hk h t = Ok f -> corr_1h_ss I spline uspline hk h' t' = Ok f' -> forall r, 0 < r -> f' (ell * r) = f r) /\
    (forall f f', corr_1h_tracer I spline uspline hk h t = Ok f -> corr_1h_tracer I spline uspline hk h' t' = Ok f' -> forall r, 0 < r -> f' (ell * r) = f r).
  Proof.
    intros hk l HL. assert (L := L3). unfold corr_1h_cs, corr_1h_ss, corr_1h_tracer. cbn [t_lam t_hod tracer_in]. rewrite HL. cbn [option_map]. split; [|split].
    - intros f f' H H'. refine (rspline_in _ _ f f' _ H H'). intros ir Hr. f_equal.
      rewrite (tint_in ((/ ell ^ 3) ^ 2) (fun im => d_dndm h im * 2 * cs_pairs (t_hod t) (d_m h im) * t_rho t ir im)); [apply over_den2_r|].
      intros i Hi. destruct (occ_in i Hi) as [_ [_ [_ [E _]]]]. cbn [d_dndm d_m framework_in t_rho tracer_in]. rewrite E. field. lra.
    - intros f f' H H'. refine (rspline_in _ _ f f' _ H H'). intros ir Hr. f_equal.
      rewrite (tint_in ((/ ell ^ 3) ^ 2) (fun im => l ir im * d_dndm h im * ss_pairs (t_hod t) (d_m h im))); [apply over_den2_r|].
      intros i Hi. destruct (occ_in i Hi) as [_ [_ [_ [_ E]]]]. cbn [d_dndm d_m framework_in]. rewrite E. field. lra.
    - intros f f' H H'. refine (rspline_in _ _ f f' _ H H'). intros ir Hr.
      rewrite (tint_in ((/ ell ^ 3) ^ 2) (fun im => d_dndm h im * (ss_pairs (t_hod t) (d_m h im) * l ir im + 2 * cs_pairs (t_hod t) (d_m h im) * t_rho t ir im) * (if h_central (t_hod t) then cen_int (t_hod t) (d_m h im) else 1))); [apply over_den2_r|].
      intros i Hi. destruct (occ_in i Hi) as [E1 [_ [_ [E2 E3]]]]. cbn [d_dndm d_m framework_in t_rho tracer_in].
      assert (HC : h_central hd' = h_central (t_hod t)) by (destruct SH as [K [FL _]]; unfold h_central; now rewrite K, FL). rewrite E1, E2, E3, HC. field. lra.
  Qed.
  Theorem c153_corr_1h_matter : forall hk l, d_lam h = Some l -> forall f f', corr_1h_matter I spline uspline hk h = Ok f -> corr_1h_matter I spline uspline hk h' = Ok f' -> forall r, 0 < r -> f' (ell * r) = f r.
  Proof.
    intros hk l HL f f' H H' r Hr. assert (L := L3). unfold corr_1h_matter in H, H'. cbn [d_lam framework_in] in H'. rewrite HL in H, H'. cbn [option_map bind] in H, H'.
    refine (rspline_in _ _ f f' _ H H' r Hr). intros ir Hi. f_equal. cbn [d_nm d_m d_dndm d_rho0 d_dlog10m framework_in].
    replace ((mu / ell ^ 3 * d_rho0 h) ^ 2) with (mu ^ 2 / (ell ^ 3) ^ 2 * d_rho0 h ^ 2) by (field; lra).
    assert (T : np_trapezoid (d_nm h) (ln 10 * d_dlog10m h) (fun im => d_dndm h im / (mu * ell ^ 3) * (mu * d_m h im) ^ 3 * (l ir im / ell ^ 3)) =
                mu ^ 2 / (ell ^ 3) ^ 2 * np_trapezoid (d_nm h) (ln 10 * d_dlog10m h) (fun im => d_dndm h im * d_m h im ^ 3 * l ir im)).
    { unfold np_trapezoid, cumulative_trapezoid, sum_over, lsum. generalize (seq 0 (d_nm h - 1)). induction l0 as [|j l0 IH]; cbn [map fold_right]; [ring|]. rewrite IH. field. lra. }
    rewrite T. set (X := np_trapezoid _ _ _). set (Z := d_rho0 h ^ 2). unfold Rdiv. rewrite !Rinv_mult, Rinv_inv. set (D := / Z).
    replace (mu ^ 2 * / (ell ^ 3) ^ 2 * X * (/ mu ^ 2 * (ell ^ 3) ^ 2 * D)) with (X * D * (mu * / mu) ^ 2 * (ell ^ 3 * / ell ^ 3) ^ 2) by (field; lra). rewrite !Rinv_r by lra. ring.
  Qed.

  (** correlation functions computed by transforming a power spectrum, when the transform itself does not depend on the unit
      (see c153_transform_without_atol and c153_transform_refuted below) *)
  Theorem c153_corr_of_powers : forall hk, (forall p p', (forall k, 0 < k -> p' (k / ell) = ell ^ 3 * p k) -> forall r, 0 < r -> hk ToR p' (ell * r) = hk ToR p r) ->
    (forall f f', corr_tm I spline uspline hk h t = Ok f -> corr_tm I spline uspline hk h' t' = Ok f' -> forall r, 0 < r -> f' (ell * r) = f r) /\
    (forall P P' f f', (forall p p', P = Ok p -> P' = Ok p' -> forall k, 0 < k -> p' (k / ell) = ell ^ 3 * p k) ->
       corr_of_power spline uspline hk h P = Ok f -> corr_of_power spline uspline hk h' P' = Ok f' -> forall r, 0 < r -> f' (ell * r) = f r).
  Proof.
    intros hk HK.
    assert (G : forall P P' f f', (forall p p', P = Ok p -> P' = Ok p' -> forall k, 0 < k -> p' (k / ell) = ell ^ 3 * p k) ->
       corr_of_power spline uspline hk h P = Ok f -> corr_of_power spline uspline hk h' P' = Ok f' -> forall r, 0 < r -> f' (ell * r) = f r).
    { intros P P' f f' PP H H'. unfold corr_of_power, to_corr in H, H'. destruct P as [p|]; [|discriminate]. destruct P' as [p'|]; [|discriminate]. cbn [bind] in H, H'.
      refine (rspline_in _ _ f f' _ H H'). intros ir Hi. cbn [d_r framework_in]. apply HK; [|now apply GR]. now apply PP. }
    split; [|exact G]. intros f f' H H' r Hr. unfold corr_tm in H, H'. apply bind_ok in H. destruct H as [a [A H]]. apply bind_ok in H. destruct H as [b [B H]]. injection H as <-.
    apply bind_ok in H'. destruct H' as [a' [A' H']]. apply bind_ok in H'. destruct H' as [b' [B' H']]. injection H' as <-. unfold sum_callable.
    assert (QA : forall p p', power_1h_tm I spline uspline h t = Ok p -> power_1h_tm I spline uspline h' t' = Ok p' -> forall k, 0 < k -> p' (k / ell) = ell ^ 3 * p k).
    { intros p p' P1 P2 k Hk. assert (E2 : exists q, power_2h_tm I spline uspline h t = Ok q) by (unfold to_corr in B; apply bind_ok in B; destruct B as [q [B _]]; eauto).
      assert (E3 : exists q, power_2h_tm I spline uspline h' t' = Ok q) by (unfold to_corr in B'; apply bind_ok in B'; destruct B' as [q [B' _]]; eauto).
      destruct E2 as [q E2], E3 as [q' E3]. exact (proj1 (c153_power_tm p p' q q' P1 P2 E2 E3 k Hk)). }
    assert (QB : forall q q', power_2h_tm I spline uspline h t = Ok q -> power_2h_tm I spline uspline h' t' = Ok q' -> forall k, 0 < k -> q' (k / ell) = ell ^ 3 * q k).
    { intros q q' P1 P2 k Hk. assert (E2 : exists p, power_1h_tm I spline uspline h t = Ok p) by (unfold to_corr in A; apply bind_ok in A; destruct A as [p [A _]]; eauto).
      assert (E3 : exists p, power_1h_tm I spline uspline h' t' = Ok p) by (unfold to_corr in A'; apply bind_ok in A'; destruct A' as [p [A' _]]; eauto).
      destruct E2 as [p E2], E3 as [p' E3]. exact (proj2 (c153_power_tm p p' q q' E2 E3 P1 P2 k Hk)). }
    rewrite (G _ _ a a' QA A A' r Hr), (G _ _ b b' QB B B' r Hr). reflexivity.
  Qed.
End Units.
Print Assumptions c153_virial_radius.
Print Assumptions c153_scale_radius.
Print Assumptions c153_profile_methods.
Print Assumptions c153_occupations.
Print Assumptions c153_statistics.
Print Assumptions c153_power_1h_matter.
Print Assumptions c153_power_1h_tracer.
Print Assumptions c153_power_tm.
Print Assumptions c153_power_2h_matter.
Print Assumptions c153_power_2h_tracer.
Print Assumptions c153_corr_1h_tracer.
Print Assumptions c153_corr_1h_matter.
Print Assumptions c153_corr_of_powers.

(** ** the Hankel transform *)
Lemma isclose_scal : forall c rtol a b, 0 < c -> isclose 0 rtol (c * a) (c * b) = isclose 0 rtol a b.
Proof.
  intros c rtol a b Hc. unfold isclose. rewrite <- Rmult_minus_distr_l, !Rabs_mult, (Rabs_pos_eq c) by lra.
  destruct (Rleb (Rabs (a - b)) (0 + rtol * Rabs b)) eqn:E; [apply Rleb_spec in E; apply Rleb_spec|apply Rleb_false in E; apply Rleb_false]; nra.
Qed.
Lemma lsum_scal : forall c l, lsum (map (fun v => c * v) l) = c * lsum l.
Proof. intros c l. unfold lsum. induction l as [|v l IH]; simpl; [ring|]. rewrite IH. ring. Qed.
Lemma loop_in : forall ch h atol rtol c p p' rr rr', (forall a b, isclose atol rtol (ch * a) (ch * b) = isclose atol rtol a b) ->
  (forall n, (1 <= n)%nat -> og_term h p' rr' n = ch * og_term h p rr n) ->
  forall fuel nn prev prev' res, (1 <= nn)%nat -> isclose atol rtol prev' (ch * res) = isclose atol rtol prev res ->
  hankel_loop h atol rtol c p' rr' fuel nn prev' (ch * res) = option_map (Rmult ch) (hankel_loop h atol rtol c p rr fuel nn prev res).
Proof.
  intros ch h atol rtol c p p' rr rr' IC T. induction fuel as [|fuel IH]; intros nn prev prev' res Hn E; cbn [hankel_loop]; rewrite E; destruct (negb _ && _)%bool; auto.
  cbn zeta. replace (ch * res + lsum (map (og_term h p' rr') (seq nn c))) with (ch * (res + lsum (map (og_term h p rr) (seq nn c)))); [apply IH; [lia|apply IC]|].
  rewrite Rmult_plus_distr_l, <- lsum_scal, map_map. f_equal. f_equal. apply map_ext_in. intros n Hi. symmetry. apply T. apply in_seq in Hi. lia.
Qed.
Lemma nan_scal : forall c v, nan_to_zero (option_map (Rmult c) v) = c * nan_to_zero v.
Proof. intros c [v|]; simpl; ring. Qed.
Lemma term_in : forall ell c h p p' rr n, 0 < ell -> 0 < h -> 0 < rr -> (1 <= n)%nat -> (forall k, 0 < k -> p' (k / ell) = option_map (Rmult c) (p k)) ->
  og_term h p' (ell * rr) n = c * og_term h p rr n.
Proof.
  intros ell c h p p' rr n PE Hh Hr Hn F. unfold og_term. assert (X := proj1 (og_x_bounds h n Hh Hn)).
  replace (og_x h n / (ell * rr)) with (og_x h n / rr / ell) by (field; lra). rewrite F by now apply Rdiv_lt_0_compat. rewrite nan_scal. ring.
Qed.
(** without an absolute tolerance the transform to separations does not depend on the unit of length, and the one to wavenumbers
    does not at any tolerances *)
Theorem c153_transform_without_atol : forall ell f f' trns h chunk rtol fuel, 0 < ell -> 0 < h -> Forall (fun r => 0 < r) trns ->
  (forall i k, 0 < k -> f' i (k / ell) = option_map (Rmult (ell ^ 3)) (f i k)) ->
  hankel_transform fuel f' (map (Rmult ell) trns) "r" h chunk 0 rtol = hankel_transform fuel f trns "r" h chunk 0 rtol.
Proof.
  intros ell f f' trns h chunk rtol fuel PE Hh Hr F. assert (P3 : 0 < ell ^ 3) by now apply pow_lt. assert (P := PI_RGT_0). unfold hankel_transform.
  replace (negb (py_in "r" "kr")) with false by reflexivity. cbv iota.
  assert (L : forall a l, Forall (fun r => 0 < r) l ->
    all_some (map (fun irr => hankel_loop h 0 rtol chunk (f' (fst irr)) (snd irr) fuel 1 100 0) (combine (seq a (List.length (map (Rmult ell) l))) (map (Rmult ell) l))) =
    option_map (map (Rmult (ell ^ 3))) (all_some (map (fun irr => hankel_loop h 0 rtol chunk (f (fst irr)) (snd irr) fuel 1 100 0) (combine (seq a (List.length l)) l)))).
  { intros a l. revert a. induction l as [|r l IH]; intros a Hl; [reflexivity|]. inversion Hl as [|? ? R1 R2]; subst. cbn [map List.length seq combine all_some fst snd].
    assert (Q := loop_in (ell ^ 3) h 0 rtol chunk (f a) (f' a) r (ell * r) (fun u v => isclose_scal (ell ^ 3) rtol u v P3) (fun n Hn => term_in ell (ell ^ 3) h (f a) (f' a) r n PE Hh R1 Hn (F a)) fuel 1%nat 100 100 0 (le_n 1)).
    rewrite Rmult_0_r in Q. specialize (Q eq_refl). rewrite Q, (IH (S a) R2). destruct (hankel_loop h 0 rtol chunk (f a) r fuel 1 100 0); simpl; auto. destruct (all_some _); reflexivity. }
  rewrite (L 0%nat trns Hr). destruct (all_some _) as [out|]; cbn [option_map]; auto. f_equal. replace (String.eqb "r" "r") with true by reflexivity. cbv iota.
  clear L F. revert out. induction trns as [|r l IH]; intros [|v out]; cbn [map combine]; auto. inversion Hr as [|? ? R1 R2]; subst. cbn [fst snd]. apply (f_equal2 cons); [field; repeat split; lra|now apply IH].
Qed.
Theorem c153_transform_to_k : forall ell f f' ks h chunk atol rtol fuel, 0 < ell -> 0 < h -> Forall (fun k => 0 < k) ks ->
  (forall i r, 0 < r -> f' i (ell * r) = f i r) ->
  hankel_transform fuel f' (map (fun k => k / ell) ks) "k" h chunk atol rtol =
  match hankel_transform fuel f ks "k" h chunk atol rtol with HankelOk out => HankelOk (map (Rmult (ell ^ 3)) out) | e => e end.
Proof.
  intros ell f f' ks h chunk atol rtol fuel PE Hh Hr F. assert (P3 : 0 < ell ^ 3) by now apply pow_lt. assert (P := PI_RGT_0). unfold hankel_transform.
  replace (negb (py_in "k" "kr")) with false by reflexivity. cbv iota.
  assert (L : forall a l, Forall (fun r => 0 < r) l ->
    all_some (map (fun irr => hankel_loop h atol rtol chunk (f' (fst irr)) (snd irr) fuel 1 100 0) (combine (seq a (List.length (map (fun k => k / ell) l))) (map (fun k => k / ell) l))) =
    all_some (map (fun irr => hankel_loop h atol rtol chunk (f (fst irr)) (snd irr) fuel 1 100 0) (combine (seq a (List.length l)) l))).
  { intros a l. revert a. induction l as [|r l IH]; intros a Hl; [reflexivity|]. inversion Hl as [|? ? R1 R2]; subst. cbn [map List.length seq combine all_some fst snd].
    assert (T : forall n, (1 <= n)%nat -> og_term h (f' a) (r / ell) n = 1 * og_term h (f a) r n).
    { intros n Hn. replace (r / ell) with (/ ell * r) by (unfold Rdiv; ring). apply (term_in (/ ell) 1 h (f a) (f' a) r n); auto. { now apply Rinv_0_lt_compat. }
      intros x Hx. replace (x / / ell) with (ell * x) by (field; lra). rewrite F by auto. destruct (f a x); simpl; auto. now rewrite Rmult_1_l. }
    assert (Q := loop_in 1 h atol rtol chunk (f a) (f' a) r (r / ell) (fun u v => f_equal2 (isclose atol rtol) (Rmult_1_l u) (Rmult_1_l v)) T fuel 1%nat 100 100 0 (le_n 1)).
    rewrite Rmult_0_r in Q. specialize (Q eq_refl). rewrite Q, (IH (S a) R2). destruct (hankel_loop h atol rtol chunk (f a) r fuel 1 100 0); simpl; auto. now rewrite Rmult_1_l. }
  rewrite (L 0%nat ks Hr). destruct (all_some _) as [out|]; auto. f_equal. replace (String.eqb "k" "r") with false by reflexivity. cbv iota.
  clear L F. revert out. induction ks as [|r l IH]; intros [|v out]; cbn [map combine]; auto. inversion Hr as [|? ? R1 R2]; subst. cbn [fst snd]. apply (f_equal2 cons); [field; repeat split; lra|now apply IH].
Qed.
(** at the default tolerances (1e-8 both) it does depend on the unit of length *)
Theorem c153_transform_refuted : exists (f f' : nat -> R -> option R) ell fuel v w, 0 < ell /\
  (forall i k, 0 < k -> f' i (k / ell) = option_map (Rmult (ell ^ 3)) (f i k)) /\
  hankel_transform fuel f [1] "r" 1 1 (1 / 10 ^ 8) (1 / 10 ^ 8) = HankelOk [v] /\
  hankel_transform fuel f' [ell * 1] "r" 1 1 (1 / 10 ^ 8) (1 / 10 ^ 8) = HankelOk [w] /\ v <> w.
Proof.
  destruct hankel_not_homogeneous as (p & lam & v & w & fuel & H1 & H2 & PL & NE). set (ell := Rpower lam (1 / 3)). assert (PE : 0 < ell) by apply exp_pos. assert (P := PI_RGT_0).
  assert (E3 : ell ^ 3 = lam). { rewrite <- Rpower_pow by auto. unfold ell. rewrite Rpower_mult. replace (1 / 3 * INR 3) with 1 by (simpl; lra). now apply Rpower_1. }
  exists (fun _ => p), (fun _ k => option_map (Rmult (ell ^ 3)) (p (ell * k))), ell, fuel, (v / (2 * PI ^ 2 * 1 ^ 3)), (w / (2 * PI ^ 2 * (ell * 1) ^ 3)).
  split; auto. split; [intros i k Hk; replace (ell * (k / ell)) with k by (field; lra); reflexivity|].
  unfold hankel_transform. replace (negb (py_in "r" "kr")) with false by reflexivity. cbv iota. cbn [List.length seq combine map all_some fst snd]. rewrite H1. split; [reflexivity|].
  assert (T : forall n, (1 <= n)%nat -> og_term 1 (fun k => option_map (Rmult (ell ^ 3)) (p (ell * k))) (ell * 1) n = 1 * og_term 1 (scale_fun lam p) 1 n).
  { intros n Hn. rewrite og_term_scale, Rmult_1_l, <- E3. apply (term_in ell (ell ^ 3) 1 p _ 1 n PE); auto; try lra. intros k Hk. replace (ell * (k / ell)) with k by (field; lra). reflexivity. }
  assert (Q := loop_in 1 1 (1 / 10 ^ 8) (1 / 10 ^ 8) 1 _ _ 1 (ell * 1) (fun u v => f_equal2 (isclose _ _) (Rmult_1_l u) (Rmult_1_l v)) T fuel 1%nat 100 100 0 (le_n 1)).
  rewrite Rmult_0_r in Q. specialize (Q eq_refl). rewrite Q, H2. cbn [option_map]. split; [now rewrite Rmult_1_l|].
  intros E. apply NE. rewrite Rmult_1_r, E3 in E. replace (v / (2 * PI ^ 2 * 1 ^ 3)) with (lam * v / (2 * PI ^ 2 * lam)) in E by (field; split; lra).
  unfold Rdiv in E. apply Rmult_eq_reg_r in E; auto. apply Rinv_neq_0_compat. assert (0 < PI ^ 2) by now apply pow_lt. nra.
Qed.
Print Assumptions c153_transform_without_atol.
Print Assumptions c153_transform_to_k.
Print Assumptions c153_transform_refuted.

(** ** the hypotheses are met: masses in units ten times smaller, lengths in units twice smaller *)
Lemma linterp_scal : forall a c x y t, 0 < a -> linterp (map (fun v => a * v) x) (map (fun v => c * v) y) (a * t) = c * linterp x y t.
Proof.
  intros a c x. induction x as [|p x IH]; intros y t Ha; [destruct y; simpl; ring|]. destruct x as [|q x]; [destruct y as [|u y]; simpl; ring|].
  destruct y as [|u y]; [simpl; ring|]. destruct y as [|v y]; [simpl; ring|]. cbn [map linterp].
  assert (D : forall A B : R, (if Rle_dec (a * t) (a * q) then A else B) = (if Rle_dec t q then A else B)) by (intros; destruct (Rle_dec (a * t) (a * q)), (Rle_dec t q); auto; exfalso; nra).
  rewrite D. destruct (Rle_dec t q).
  - rewrite <- !Rmult_minus_distr_l. replace (a * (t - p) / (a * (q - p))) with ((t - p) / (q - p)) by (unfold Rdiv; rewrite Rinv_mult; replace (a * (t - p) * (/ a * / (q - p))) with ((t - p) * / (q - p) * (a * / a)) by ring; rewrite Rinv_r by lra; ring). ring.
  - exact (IH (v :: y) t Ha).
Qed.
Lemma linterp_rescale : s_rescale linterp.
Proof. intros n x y a c t Ha. unfold arr. rewrite <- (map_map x (fun v => a * v)), <- (map_map y (fun v => c * v)). now apply linterp_scal. Qed.
Lemma stepF_shift : forall c x y, exists K, forall t, stepF (map (fun v => v + c) x) y (t + c) = stepF x y t + K.
Proof.
  intros c x. induction x as [|p x IH]; intros y; [exists 0; intros; simpl; ring|]. destruct x as [|q x]; [exists 0; intros; simpl; ring|].
  destruct y as [|u y]; [exists 0; intros; simpl; ring|]. destruct (IH y) as [K HK]. exists (u * c + K). intros t. specialize (HK t). cbn [map stepF] in HK |- *. rewrite HK.
  replace (Rmax (p + c) (Rmin (t + c) (q + c))) with (Rmax p (Rmin t q) + c); [ring|]. unfold Rmin, Rmax. repeat (destruct (Rle_dec _ _)); lra.
Qed.
Lemma step_quad_shift : q_shift step_quad.
Proof.
  intros n x f a b c. unfold step_quad, arr. rewrite <- (map_map x (fun v => v + c)). destruct (stepF_shift c (map x (seq 0 n)) (map f (seq 0 n))) as [K HK]. rewrite !HK. ring.
Qed.
Definition flat_fit (x y : list R) (t : R) : R := hd 0 y.
Lemma flat_shift : u_shift flat_fit.
Proof. intros x y a c t _ Hy. unfold flat_fit. destruct y; [congruence|reflexivity]. Qed.
Example c153_met : let hd' := Zehavi05 true (12 + log10 10) (13 + log10 10) 1 in let h' := framework_in 2 10 h1_ex in let t' := tracer_in 2 t0 hd' in
  same_occupation 10 (t_hod t0) hd' /\ 0 < h_mmin (t_hod t0) <= d_m h1_ex 0%nat /\ 0 < h_mmin hd' <= 10 * d_m h1_ex 0%nat /\
  exists p p' q q', power_1h_tracer step_quad (fun _ => linterp) flat_fit h1_ex t0 = Ok p /\ power_1h_tracer step_quad (fun _ => linterp) flat_fit h' t' = Ok p' /\ p' (3 / 2) = 8 * p 3 /\
    power_2h_tracer_noexcl step_quad (fun _ => linterp) flat_fit (fun _ _ _ => 0) h1_ex t0 = Ok q /\ power_2h_tracer_noexcl step_quad (fun _ => linterp) flat_fit (fun _ _ _ => 0) h' t' = Ok q' /\ q' (3 / 2) = 8 * q 3.
Proof.
  intros hd' h' t'.
  assert (S : same_occupation 10 (t_hod t0) hd').
  { assert (Q := c153_occupations 10 ltac:(lra) true 12 13 1 1 1 1 1 1 1 1 1 1 1 1). cbv zeta in Q. inversion Q as [|? ? Q1 _]. exact Q1. }
  assert (E1 : log10 10 = 1). { unfold log10. unfold Rdiv. apply Rinv_r. assert (0 < ln 10) by (rewrite <- ln_1; apply ln_increasing; lra). lra. }
  assert (T11 : 10 ^ 11 = 100000000000) by (simpl; lra).
  assert (M : 0 < h_mmin (t_hod t0) <= d_m h1_ex 0%nat). { simpl h_mmin. change (d_m h1_ex 0%nat) with (10 ^ 11). lra. }
  assert (M' : 0 < h_mmin hd' <= 10 * d_m h1_ex 0%nat). { simpl h_mmin. change (d_m h1_ex 0%nat) with (10 ^ 11). rewrite E1. lra. }
  split; auto. split; auto. split; auto.
  assert (GM : grid (d_nm h1_ex) (d_m h1_ex)) by exact h0_grid.
  assert (GK : grid (d_nk h1_ex) (d_k h1_ex)) by (apply grid_INR; simpl; lia).
  assert (GR : grid (d_nr h1_ex) (d_r h1_ex)) by (apply grid_INR; simpl; lia).
  destruct (c98_tracer_total step_quad (fun _ => linterp) flat_fit (fun _ _ _ => 0) h1_ex t0) as [[p P] [[q Q] _]]; auto; try (intros; apply interpolates_linterp); try reflexivity.
  assert (GK' : grid (d_nk h') (d_k h')).
  { apply (grid_k' 2 10 ltac:(lra) h1_ex GK). }
  assert (GR' : grid (d_nr h') (d_r h')).
  { apply (grid_r' 2 10 ltac:(lra) h1_ex GR). }
  destruct (c98_tracer_total step_quad (fun _ => linterp) flat_fit (fun _ _ _ => 0) h' t') as [[p' P'] [[q' Q'] _]]; auto; try (intros; apply interpolates_linterp); try reflexivity.
  exists p, p', q, q'. split; auto. split; auto. split; [|split; auto; split; auto].
  - rewrite (c153_power_1h_tracer 2 10 ltac:(lra) ltac:(lra) step_quad (fun _ => linterp) flat_fit h1_ex t0 hd' step_quad_linear step_quad_shift step_quad_zero_outside GM GK S M M' linterp_rescale flat_shift p p' P P' 3); lra.
  - rewrite (c153_power_2h_tracer 2 10 ltac:(lra) ltac:(lra) step_quad (fun _ => linterp) flat_fit h1_ex t0 hd' step_quad_linear step_quad_shift GM GK S linterp_rescale flat_shift eq_refl eq_refl (fun _ _ _ => 0) q q' Q Q' 3); lra.
Qed.
