(** C150: the 1-halo correlation functions and power spectra of a halo model are Fourier transforms of each other, up to
    the mass ranges they are integrated over. *)
From Coq Require Import Reals Lra Lia Bool Psatz String List Arith.
From Coquelicot Require Import Coquelicot.
From Verif Require Import Model.RBool Model.Profiles Model.SplineInt Model.ExtSpline Model.Quad Model.Exclusion Model.HOD Model.HaloModel.
From Verif Require Import Spec.ProfileSpec Spec.HMSpec Spec.QuadSpec Proofs.Calc Proofs.ProfileProofs Proofs.ProfileConv Proofs.ProfileProofs2 Proofs.ProfileProofs3 Proofs.HMProofs Proofs.LamFourier Props.HaloModelProps2.
From Verif Require Import Props.ProfileProps Props.FourierPairProps Props.HaloModelProps Props.FindMminProps Props.HMTotalProps Props.ExclusionProps2 Props.ProfileExamples.
Import ListNotations.
Local Open Scope R_scope.

(** ** finite linear combinations *)
Fixpoint lincomb (w f : nat -> R) (n : nat) : R := match n with O => 0 | S k => lincomb w f k + w k * f k end.
Lemma lincomb_ext : forall w f g n, (forall i, (i < n)%nat -> f i = g i) -> lincomb w f n = lincomb w g n.
Proof. intros w f g n. induction n as [|n IH]; simpl; intros H; auto. rewrite IH by (intros; apply H; lia). rewrite (H n) by lia. reflexivity. Qed.
Lemma mint_lincomb : forall I h x, q_linear I -> grid (d_nm h) (d_m h) -> exists w, forall f, mint I h f x = lincomb w f (d_nm h).
Proof.
  intros I h x L G. set (w i := mint I h (fun j => if (j =? i)%nat then 1 else 0) x). exists w. intros f.
  assert (H : forall k, mint I h (fun j => if (j <? k)%nat then f j else 0) x = lincomb w f k).
  { induction k as [|k IH]; simpl.
    - now apply mint_zero.
    - rewrite (mint_ext I h _ (fun j => (if (j <? k)%nat then f j else 0) + f k * (if (j =? k)%nat then 1 else 0))).
      + rewrite mint_lin, IH by auto. unfold w. ring.
      + intros i _. destruct (Nat.ltb_spec i (S k)), (Nat.ltb_spec i k), (Nat.eqb_spec i k); try lia; subst; ring. }
  rewrite <- H. apply mint_ext. intros i Hi. destruct (Nat.ltb_spec i (d_nm h)); [reflexivity|lia].
Qed.
Lemma lincomb_scal : forall w (a D : nat -> R) A B n, lincomb w (fun i => a i * (A * D i * B)) n = A * lincomb w (fun i => a i * D i) n * B.
Proof. intros w a D A B n. induction n as [|n IH]; simpl; [ring|]. rewrite IH. ring. Qed.
Lemma lincomb_int : forall w n (F : nat -> R -> R) (v : nat -> R) a b, (forall i, (i < n)%nat -> is_RInt (F i) a b (v i)) -> is_RInt (fun r => lincomb w (fun i => F i r) n) a b (lincomb w v n).
Proof.
  intros w n F v a b H. induction n as [|n IH]; simpl.
  - eapply rint_eq; [exact (is_RInt_const (V:=R_NormedModule) a b 0)|]. unfold scal; simpl; unfold mult; simpl. req. ring.
  - exact (is_RInt_plus (V:=R_NormedModule) _ _ a b _ _ (IH ltac:(intros; apply H; lia)) (rscal _ _ _ _ (w n) (H n ltac:(lia)))).
Qed.
(** the transform of a mass integral of densities is the mass integral of their transforms *)
Lemma fourier_mint : forall I h x (a : nat -> R) (D : R -> nat -> R) v k b, q_linear I -> grid (d_nm h) (d_m h) -> 
  (forall i, (i < d_nm h)%nat -> fourier (fun r => D r i) k b (v i)) -> fourier (fun r => mint I h (fun i => a i * D r i) x) k b (mint I h (fun i => a i * v i) x).
Proof.
  intros I h x a D v k b L G H. destruct (mint_lincomb I h x L G) as [w W]. rewrite W. unfold fourier in *.
  eapply is_RInt_ext; [|apply (lincomb_int w (d_nm h) (fun i r => a i * (4 * PI * r ^ 2 * D r i * (sin (k * r) / (k * r)))) (fun i => a i * v i) 0 b)].
  - intros r _. cbv beta. rewrite W. req. exact (lincomb_scal w a (D r) _ _ (d_nm h)).
  - intros i Hi. apply (rscal _ _ _ _ (a i)). now apply H.
Qed.

(** the same halo model tabulating its correlation functions at n other separations r *)
Definition with_separations (h : dmhm) (n : nat) (r : nat -> R) : dmhm :=
  mkDM (d_nm h) (d_m h) (d_dndm h) (d_bias h) (d_dlog10m h) (d_nk h) (d_k h) (d_khm h) (d_power h) (d_phc h) (d_plin h) (d_hc h) n r (d_ukm h) (d_lam h)
    (d_rho0 h) (d_rhoh h) (d_delta h) (d_turnover h) (d_unity h) (d_noexcl h) (d_sd h).

Section Pairs.
  Variables (I : quadrature) (spline : nat -> list R -> list R -> R -> R) (uspline : list R -> list R -> R -> R) (hk : tmode -> (R -> R) -> R -> R).
  Variables (h : dmhm) (hd : hod) (ukm : nat -> nat -> R) (Si Ci : R -> R) (s : shape) (o : inst) (conc : nat -> R).
  Hypothesis LI : q_linear I.
  Hypothesis AI : q_additive I.
  Hypothesis ZI : q_zero_outside I.
  Hypothesis HI : interpolates (spline 3%nat).
  Hypothesis GM : grid (d_nm h) (d_m h).
  Hypothesis GK : grid (d_nk h) (d_k h).
  Hypothesis SC : sine_cosine_integrals Si Ci.
  Hypothesis OK : inst_ok o.
  Hypothesis CP : forall im, (im < d_nm h)%nat -> 0 < conc im.
  (** the framework's tables of the Fourier profile, with the concentrations of its concentration relation *)
  Hypothesis WU : forall ik im, (ik < d_nk h)%nat -> (im < d_nm h)%nat -> u s o (d_k h ik) (d_m h im) (Some "m"%string) (Some (conc im)) "k" = Ok (ukm ik im).
  (** the HOD's minimum mass, a log10 read as a mass (C60), is below the mass grid *)
  Hypothesis MM : 0 < h_mmin hd <= d_m h 0%nat.

  (** tables of the density and of the self-convolution at n separations r *)
  Definition density_table (n : nat) (r : nat -> R) (T : nat -> nat -> R) : Prop :=
    forall ir im, (ir < n)%nat -> (im < d_nm h)%nat -> rho s o (r ir) (d_m h im) (Some "m"%string) (Some (conc im)) "r" = Ok (T ir im).
  Definition lam_table (n : nat) (r : nat -> R) (T : nat -> nat -> R) : Prop :=
    forall ir im, (ir < n)%nat -> (im < d_nm h)%nat -> lam s o (r ir) (d_m h im) (Some "m"%string) (Some (conc im)) "r" = Ok (T ir im).
  (** every halo of the grid has a virial radius (bloating included) of at most b *)
  Definition contains_haloes (b : R) : Prop :=
    forall im, (im < d_nm h)%nat -> exists r_s, rs_from_m s o (d_m h im) (Some (conc im)) None = Ok r_s /\ r_s * conc im <= b.

  (** lower mass limit of the correlation functions ... *)
  Definition corr_from : R := match tracer_mmin hd with Some x => x | None => d_m h 0%nat end.
  (** ... and of the power spectra: the first mass of the grid or, with the turnover, the mass of a sphere of radius
      pi/(10k) at the halo overdensity, if that is larger *)
  Definition power_from (k : R) : R := if d_turnover h then Rmax (d_m h 0%nat) (4 / 3 * PI * (PI / (10 * k)) ^ 3 * (d_delta h * d_rho0 h)) else d_m h 0%nat.
  (** integral over halo masses a to b of a quantity [f] per unit mass, as the framework's spline has it *)
  Definition over_masses (f : nat -> R) (a b : R) : R := I (arr (d_nm h) (fun i => ln (d_m h i))) (arr (d_nm h) (fun i => d_m h i * f i)) (ln a) (ln b).

  Lemma m0_pos : 0 < d_m h 0%nat. Proof. apply GM, GM. Qed.
  Lemma power_from_eq : forall k, 0 < k -> mmin_1h h (d_m h 0%nat) k = power_from k.
  Proof. intros k Hk. unfold mmin_1h, power_from. destruct (d_turnover h); auto. f_equal. field. lra. Qed.
  (** a mass integral from [a] is one from [b] and the masses between *)
  Lemma split_at : forall f a b, mint I h f (Some a) = mint I h f (Some b) + over_masses f a b.
  Proof.
    intros f a b. rewrite !mint_eq by auto. unfold lo_lim, over_masses.
    rewrite <- (AI (arr (d_nm h) (fun i => ln (d_m h i))) (arr (d_nm h) (fun i => d_m h i * f i)) (ln a) (ln b) (hi_lim h)). ring.
  Qed.
  Lemma tint_from : forall f r l, tint I h (mkTr hd ukm r l) f = mint I h f (Some corr_from).
  Proof. intros f r l. unfold tint, corr_from. simpl. rewrite !mint_eq by auto. unfold lo_lim. destruct (tracer_mmin hd); reflexivity. Qed.

  (** *** central-satellite pairs *)
  Definition cs_rate (im : nat) : R := d_dndm h im * 2 * cs_pairs hd (d_m h im).
  Definition ss_rate (im : nat) : R := d_dndm h im * ss_pairs hd (d_m h im).
  Definition den : R := mean_tracer_den I h (mkTr hd ukm (fun _ _ => 0) None).
  Definition valof (x : res R) : R := match x with Ok v => v | Raise _ => 0 end.
  Definition rho_at (r : R) (im : nat) : R := valof (rho s o r (d_m h im) (Some "m"%string) (Some (conc im)) "r").
  Definition lam_at (r : R) (im : nat) : R := valof (lam s o r (d_m h im) (Some "m"%string) (Some (conc im)) "r").

  Lemma rho_fourier : forall ik im b, In s (analytic_fourier Si Ci) -> (ik < d_nk h)%nat -> (im < d_nm h)%nat -> contains_haloes b -> fourier (fun r => rho_at r im) (d_k h ik) b (ukm ik im).
  Proof.
    intros ik im b Hs Hk Hm Hb. assert (Pc := CP im Hm). assert (PP := PI_RGT_0). destruct (fourier_mass _ _ _ Hs) as [HM [_ HF]]. destruct (good_all _ _ _ _ HM) as [G _].
    destruct (rs_ok o s (d_m h im) (conc im) Pc) as [rs [R [P _]]]. destruct (Hb im Hm) as [rs' [R' Lb]]. rewrite R in R'. injection R' as <-.
    assert (Pk : 0 < d_k h ik) by now apply GK. assert (HP := good_pos s (conc im) G Pc).
    set (a := 1 / (4 * PI * rs ^ 3 * s_h s (conc im))). assert (A : rho_s s o (conc im) rs (Some "m"%string) = Ok a) by reflexivity.
    assert (U := WU ik im Hk Hm). unfold u, get_k_variables in U. rewrite HF, R in U. simpl in U. injection U as U.
    apply fourier_tail with (rs * conc im); [lra| |].
    - intros r Hr. unfold rho_at. rewrite (rho_val s o _ _ _ _ a HF R A). simpl. unfold truncated. destruct (Rle_dec (r / rs) (conc im)) as [L|L]; [|ring].
      exfalso. apply Rmult_le_compat_r with (r := rs) in L; [|lra]. replace (r / rs * rs) with r in L by (field; lra). lra.
    - assert (F := fourier_density (s_f s) (conc im) (d_k h ik) rs a _ Pk P ltac:(lra) (c38_fourier_function_is_the_sine_transform Si Ci s (d_k h ik * rs) (conc im) SC Hs (Rmult_lt_0_compat _ _ Pk P) ltac:(lra))).
      unfold fourier in *. eapply rint_eq; [apply is_RInt_ext with (2 := F)|].
      + intros r _. cbv beta. unfold rho_at. rewrite (rho_val s o _ _ _ _ a HF R A). reflexivity.
      + rewrite <- U. unfold a. req. field. repeat split; lra.
  Qed.
  Lemma lam_fourier : forall ik im b, s = NFW Si Ci -> (ik < d_nk h)%nat -> (im < d_nm h)%nat -> contains_haloes b -> fourier (fun r => lam_at r im) (d_k h ik) (2 * b) (ukm ik im ^ 2).
  Proof.
    intros ik im b Es Hk Hm Hb. assert (Pc := CP im Hm). assert (Pk : 0 < d_k h ik) by now apply GK.
    assert (Q := c149_transform_of_lam Si Ci o (d_m h im) (conc im) (d_k h ik) (Some "m"%string) SC OK Pc Pk (or_intror eq_refl)). rewrite <- Es in Q. destruct Q as [rs [d [l [w [R [_ [Hl [_ [F [Z U]]]]]]]]]].
    destruct (Hb im Hm) as [rs' [R' Lb]]. rewrite R in R'. injection R' as <-. specialize (U eq_refl). rewrite (WU ik im Hk Hm) in U. injection U as U. subst w.
    apply fourier_tail with (2 * (rs * conc im)); [lra| |].
    - intros r Hr. unfold lam_at. rewrite Hl. simpl. apply Z. lra.
    - unfold fourier in *. apply is_RInt_ext with (2 := F). intros r _. cbv beta. unfold lam_at. rewrite Hl. reflexivity.
  Qed.

  (** the correlation function of central-satellite pairs, as a function of any separation, and the power spectrum: at every
      tabulated wavenumber the transform of 1 + xi is the power, plus the pairs of the haloes that the correlation counts and
      the power does not *)
  Theorem c150_central_satellite : In s (analytic_fourier Si Ci) ->
    exists xi : R -> R,
      (forall n r T Tl f, grid n r -> density_table n r T -> corr_1h_cs I spline uspline (with_separations h n r) (mkTr hd ukm T Tl) = Ok f ->
         forall i, (i < n)%nat -> f (r i) = xi (r i)) /\
      (forall T Tl p ik b, power_1h_cs I spline uspline h (mkTr hd ukm T Tl) = Ok p -> (ik < d_nk h)%nat -> contains_haloes b ->
         fourier (fun r => 1 + xi r) (d_k h ik) b
           (p (d_k h ik) + over_masses (fun im => cs_rate im * ukm ik im) corr_from (power_from (d_k h ik)) / den ^ 2)).
  Proof.
    intros Hs. exists (fun r => mint I h (fun im => cs_rate im * rho_at r im) (Some corr_from) / den ^ 2 - 1). split.
    - intros n r T Tl f Gr HT H i Hi. unfold corr_1h_cs, rspline in H. rewrite (efun_node _ _ _ _ _ _ _ _ _ _ HI Gr Hi H).
      change (tint I (with_separations h n r)) with (tint I h). rewrite tint_from. change (mean_tracer_den I (with_separations h n r) (mkTr hd ukm T Tl)) with den. do 2 f_equal. apply mint_ext.
      intros im Hm. simpl. unfold rho_at. rewrite (HT i im Hi Hm). reflexivity.
    - intros T Tl p ik b H Hk Hb. unfold power_1h_cs in H. rewrite (efun_node _ _ _ _ _ _ _ _ _ _ HI GK Hk H).
      destruct (c60_hod_minimum_mass_never_used I h (mkTr hd ukm T Tl) ik ZI GM MM) as [_ ->]. simpl t_ukm; simpl t_hod. change (mean_tracer_den I h (mkTr hd ukm T Tl)) with den.
      rewrite power_from_eq by now apply GK.
      assert (F := fourier_mint I h (Some corr_from) cs_rate rho_at (ukm ik) (d_k h ik) b LI GM (fun im Hm => rho_fourier ik im b Hs Hk Hm Hb)).
      unfold fourier in *. apply (rscal _ _ _ _ (/ den ^ 2)) in F. eapply rint_eq; [apply is_RInt_ext with (2 := F)|].
      + intros r _. cbv beta. req. unfold Rdiv. ring.
      + rewrite (split_at _ corr_from (power_from (d_k h ik))). unfold cs_rate. req. unfold Rdiv. ring.
  Qed.
  (** satellite-satellite pairs: for the NFW profile, whose tables of lam are its exact self-convolution *)
  Theorem c150_satellite_satellite : s = NFW Si Ci ->
    exists xi : R -> R,
      (forall n r T Tl f, grid n r -> lam_table n r Tl -> corr_1h_ss I spline uspline hk (with_separations h n r) (mkTr hd ukm T (Some Tl)) = Ok f ->
         forall i, (i < n)%nat -> f (r i) = xi (r i)) /\
      (forall T Tl p ik b, power_1h_ss I spline uspline h (mkTr hd ukm T Tl) = Ok p -> (ik < d_nk h)%nat -> contains_haloes b ->
         fourier (fun r => 1 + xi r) (d_k h ik) (2 * b)
           (p (d_k h ik) + over_masses (fun im => ss_rate im * ukm ik im ^ 2) corr_from (power_from (d_k h ik)) / den ^ 2)).
  Proof.
    intros Hs. exists (fun r => mint I h (fun im => ss_rate im * lam_at r im) (Some corr_from) / den ^ 2 - 1). split.
    - intros n r T Tl f Gr HT H i Hi. unfold corr_1h_ss, rspline in H. simpl t_lam in H. cbv iota in H. rewrite (efun_node _ _ _ _ _ _ _ _ _ _ HI Gr Hi H).
      change (tint I (with_separations h n r)) with (tint I h). rewrite tint_from. change (mean_tracer_den I (with_separations h n r) (mkTr hd ukm T (Some Tl))) with den. do 2 f_equal. apply mint_ext.
      intros im Hm. simpl. unfold lam_at, ss_rate. rewrite (HT i im Hi Hm). simpl. ring.
    - intros T Tl p ik b H Hk Hb. unfold power_1h_ss in H. rewrite (efun_node _ _ _ _ _ _ _ _ _ _ HI GK Hk H).
      destruct (c60_hod_minimum_mass_never_used I h (mkTr hd ukm T Tl) ik ZI GM MM) as [-> _]. simpl t_ukm; simpl t_hod. change (mean_tracer_den I h (mkTr hd ukm T Tl)) with den.
      rewrite power_from_eq by now apply GK.
      assert (F := fourier_mint I h (Some corr_from) ss_rate lam_at (fun im => ukm ik im ^ 2) (d_k h ik) (2 * b) LI GM (fun im Hm => lam_fourier ik im b Hs Hk Hm Hb)).
      unfold fourier in *. apply (rscal _ _ _ _ (/ den ^ 2)) in F. eapply rint_eq; [apply is_RInt_ext with (2 := F)|].
      + intros r _. cbv beta. req. unfold Rdiv. ring.
      + rewrite (split_at _ corr_from (power_from (d_k h ik))). rewrite (mint_ext I h (fun im => ukm ik im ^ 2 * d_dndm h im * ss_pairs hd (d_m h im)) (fun im => ss_rate im * ukm ik im ^ 2)) by (intros; unfold ss_rate; ring).
        req. unfold Rdiv. ring.
  Qed.
  (** the total 1-halo term, when the correlation weights the pairs as the power does (C64): no -1 is left *)
  Theorem c150_total : s = NFW Si Ci -> h_central hd = false \/ h_sharp hd = true ->
    exists xi : R -> R,
      (forall n r T Tl f, grid n r -> density_table n r T -> lam_table n r Tl -> corr_1h_tracer I spline uspline hk (with_separations h n r) (mkTr hd ukm T (Some Tl)) = Ok f ->
         forall i, (i < n)%nat -> f (r i) = xi (r i)) /\
      (forall T Tl p ik b, power_1h_tracer I spline uspline h (mkTr hd ukm T Tl) = Ok p -> (ik < d_nk h)%nat -> 0 <= b -> contains_haloes b ->
         fourier xi (d_k h ik) (2 * b)
           (p (d_k h ik) + over_masses (fun im => ss_rate im * ukm ik im ^ 2 + cs_rate im * ukm ik im) corr_from (power_from (d_k h ik)) / den ^ 2)).
  Proof.
    intros Hs HC. assert (HA : In s (analytic_fourier Si Ci)) by (rewrite Hs; now left).
    exists (fun r => (mint I h (fun im => ss_rate im * lam_at r im) (Some corr_from) + mint I h (fun im => cs_rate im * rho_at r im) (Some corr_from)) / den ^ 2). split.
    - intros n r T Tl f Gr HT HL H i Hi. unfold corr_1h_tracer, rspline in H. simpl t_lam in H. cbv iota in H. rewrite (efun_node _ _ _ _ _ _ _ _ _ _ HI Gr Hi H).
      change (tint I (with_separations h n r)) with (tint I h). rewrite tint_from. change (mean_tracer_den I (with_separations h n r) (mkTr hd ukm T (Some Tl))) with den. f_equal. rewrite <- mint_plus by auto. apply mint_ext.
      intros im Hm. simpl t_hod. simpl t_rho. unfold lam_at, rho_at, ss_rate, cs_rate. change (d_m (with_separations h n r)) with (d_m h). change (d_dndm (with_separations h n r)) with (d_dndm h). rewrite (HT i im Hi Hm), (HL i im Hi Hm). simpl valof.
      replace (if h_central hd then cen_int hd (d_m h im) else 1) with 1; [ring|]. destruct HC as [E|E]; [now rewrite E|]. destruct (h_central hd) eqn:C; auto. unfold cen_int, cut. rewrite E, C. reflexivity.
    - intros T Tl p ik b H Hk Pb Hb. unfold power_1h_tracer in H. apply bind_ok in H. destruct H as [pc [Hc H]]. apply bind_ok in H. destruct H as [ps [Hss H]]. injection H as <-. unfold sum_callable. rewrite Rplus_0_r.
      unfold power_1h_cs in Hc. unfold power_1h_ss in Hss. rewrite (efun_node _ _ _ _ _ _ _ _ _ _ HI GK Hk Hc), (efun_node _ _ _ _ _ _ _ _ _ _ HI GK Hk Hss).
      destruct (c60_hod_minimum_mass_never_used I h (mkTr hd ukm T Tl) ik ZI GM MM) as [-> ->]. simpl t_ukm; simpl t_hod. change (mean_tracer_den I h (mkTr hd ukm T Tl)) with den.
      rewrite power_from_eq by now apply GK.
      assert (HB : contains_haloes (2 * b)). { intros im Hm. destruct (Hb im Hm) as [rs [E L]]. exists rs. split; auto. lra. }
      assert (F := fourier_mint I h (Some corr_from) ss_rate lam_at (fun im => ukm ik im ^ 2) (d_k h ik) (2 * b) LI GM (fun im Hm => lam_fourier ik im b Hs Hk Hm Hb)).
      assert (F2 := fourier_mint I h (Some corr_from) cs_rate rho_at (ukm ik) (d_k h ik) (2 * b) LI GM (fun im Hm => rho_fourier ik im (2 * b) HA Hk Hm HB)).
      unfold fourier in *. assert (F3 := rlin _ _ (/ den ^ 2) (/ den ^ 2) _ _ _ _ F F2). eapply rint_eq; [apply is_RInt_ext with (2 := F3)|].
      + intros r _. cbv beta. req. unfold Rdiv. ring.
      + rewrite (split_at (fun im => ss_rate im * ukm ik im ^ 2) corr_from (power_from (d_k h ik))), (split_at (fun im => cs_rate im * ukm ik im) corr_from (power_from (d_k h ik))).
        rewrite (mint_ext I h (fun im => ukm ik im ^ 2 * d_dndm h im * ss_pairs hd (d_m h im)) (fun im => ss_rate im * ukm ik im ^ 2)) by (intros; unfold ss_rate; ring).
        assert (EO : over_masses (fun im => ss_rate im * ukm ik im ^ 2 + cs_rate im * ukm ik im) corr_from (power_from (d_k h ik)) =
          over_masses (fun im => ss_rate im * ukm ik im ^ 2) corr_from (power_from (d_k h ik)) + over_masses (fun im => cs_rate im * ukm ik im) corr_from (power_from (d_k h ik))).
        { unfold over_masses. assert (Q := LI (d_nm h) (fun i => ln (d_m h i)) (fun i => d_m h i * (ss_rate i * ukm ik i ^ 2)) (fun i => d_m h i * (cs_rate i * ukm ik i)) 1 (ln corr_from) (ln (power_from (d_k h ik)))).
          rewrite Rmult_1_l in Q. rewrite <- Q. f_equal. apply arr_ext. intros. ring. }
        rewrite EO. unfold cs_rate. req. unfold Rdiv. ring.
  Qed.
  Lemma over_none : forall f a, over_masses f a a = 0.
  Proof. intros f a. unfold over_masses. assert (Q := AI (arr (d_nm h) (fun i => ln (d_m h i))) (arr (d_nm h) (fun i => d_m h i * f i)) (ln a) (ln a) (ln a)). lra. Qed.
  (** without the central condition's cut (tracer_mmin) and without the large-scale turnover the two total 1-halo terms are an exact pair *)
  Theorem c150_exact_pair : s = NFW Si Ci -> h_central hd = false -> tracer_mmin hd = None -> d_turnover h = false ->
    exists xi : R -> R,
      (forall n r T Tl f, grid n r -> density_table n r T -> lam_table n r Tl -> corr_1h_tracer I spline uspline hk (with_separations h n r) (mkTr hd ukm T (Some Tl)) = Ok f ->
         forall i, (i < n)%nat -> f (r i) = xi (r i)) /\
      (forall T Tl p ik b, power_1h_tracer I spline uspline h (mkTr hd ukm T Tl) = Ok p -> (ik < d_nk h)%nat -> 0 <= b -> contains_haloes b -> fourier xi (d_k h ik) (2 * b) (p (d_k h ik))).
  Proof.
    intros Es HC HM HT. destruct (c150_total Es (or_introl HC)) as [xi [A B]]. exists xi. split; auto. intros T Tl p ik b H Hk Pb Hb.
    eapply rint_eq; [exact (B T Tl p ik b H Hk Pb Hb)|]. unfold corr_from, power_from. rewrite HM, HT, over_none. req. unfold Rdiv. ring.
  Qed.
  (** with the turnover and no cut the power of satellite pairs is less than the transform of their correlation by the pairs in
      haloes smaller than a sphere of radius pi/(10k), and equals it where the whole mass grid is above that sphere *)
  Theorem c150_turnover : s = NFW Si Ci -> tracer_mmin hd = None -> d_turnover h = true ->
    exists xi : R -> R,
      (forall n r T Tl f, grid n r -> lam_table n r Tl -> corr_1h_ss I spline uspline hk (with_separations h n r) (mkTr hd ukm T (Some Tl)) = Ok f ->
         forall i, (i < n)%nat -> f (r i) = xi (r i)) /\
      (forall T Tl p ik b, power_1h_ss I spline uspline h (mkTr hd ukm T Tl) = Ok p -> (ik < d_nk h)%nat -> contains_haloes b ->
         let sphere := 4 / 3 * PI * (PI / (10 * d_k h ik)) ^ 3 * (d_delta h * d_rho0 h) in
         exists w, fourier (fun r => 1 + xi r) (d_k h ik) (2 * b) w /\ (sphere <= d_m h 0%nat -> w = p (d_k h ik)) /\
           (d_m h 0%nat <= sphere -> w = p (d_k h ik) + over_masses (fun im => ss_rate im * ukm ik im ^ 2) (d_m h 0%nat) sphere / den ^ 2) /\
           (q_positive I -> (forall im, (im < d_nm h)%nat -> 0 <= ss_rate im) -> p (d_k h ik) <= w)).
  Proof.
    intros Es HM HT. destruct (c150_satellite_satellite Es) as [xi [A B]]. exists xi. split; auto. intros T Tl p ik b H Hk Hb sphere.
    eexists. split; [exact (B T Tl p ik b H Hk Hb)|]. unfold corr_from, power_from. rewrite HM, HT. fold sphere. repeat split.
    - intros L. rewrite Rmax_left by auto. rewrite over_none. unfold Rdiv. ring.
    - intros L. now rewrite Rmax_right by auto.
    - intros QP HS. assert (P0 := m0_pos). assert (0 <= over_masses (fun im => ss_rate im * ukm ik im ^ 2) (d_m h 0%nat) (Rmax (d_m h 0%nat) sphere)).
      { unfold over_masses. apply QP.
        - assert (L := Rmax_l (d_m h 0%nat) sphere). destruct L as [L|L]; [left; apply ln_increasing; auto|rewrite <- L; lra].
        - intros i Hi. assert (0 < d_m h i) by now apply GM. apply Rmult_le_pos; [lra|]. apply Rmult_le_pos; auto. apply pow2_ge_0. }
      assert (0 <= / den ^ 2). { destruct (Req_dec den 0) as [E|E]; [rewrite E; replace (0 ^ 2) with 0 by ring; rewrite Rinv_0; lra|]. left. apply Rinv_0_lt_compat. replace (den ^ 2) with (Rsqr den) by (unfold Rsqr; ring). now apply Rsqr_pos_lt. }
      assert (0 <= over_masses (fun im => ss_rate im * ukm ik im ^ 2) (d_m h 0%nat) (Rmax (d_m h 0%nat) sphere) * / den ^ 2) by now apply Rmult_le_pos. unfold Rdiv. lra.
  Qed.
End Pairs.
(** the matter correlation function: its table of lam(r, m), integrated with numpy's trapezoidal rule in log10 m *)
Definition with_lam (h : dmhm) (n : nat) (r : nat -> R) (L : nat -> nat -> R) : dmhm :=
  mkDM (d_nm h) (d_m h) (d_dndm h) (d_bias h) (d_dlog10m h) (d_nk h) (d_k h) (d_khm h) (d_power h) (d_phc h) (d_plin h) (d_hc h) n r (d_ukm h) (Some L)
    (d_rho0 h) (d_rhoh h) (d_delta h) (d_turnover h) (d_unity h) (d_noexcl h) (d_sd h).
Lemma trap_S : forall dx f j, cumulative_trapezoid dx f (S j) = cumulative_trapezoid dx f j + dx * (f j + f (S j)) / 2.
Proof.
  intros dx f j. unfold cumulative_trapezoid, sum_over. rewrite seq_S, map_app. simpl map. unfold lsum. rewrite fold_right_app. simpl fold_right. rewrite Rplus_0_r.
  generalize (map (fun k => dx * (f k + f (S k)) / 2) (seq 0 j)). intros l. induction l as [|a l IH]; simpl; [ring|]. rewrite IH. ring.
Qed.
Lemma trap_0 : forall dx f, cumulative_trapezoid dx f 0 = 0.
Proof. reflexivity. Qed.
Lemma fourier_trapezoid : forall n dx (a : nat -> R) (D : R -> nat -> R) v k b, (0 < n)%nat ->
  (forall i, (i < n)%nat -> fourier (fun r => D r i) k b (v i)) -> fourier (fun r => np_trapezoid n dx (fun i => a i * D r i)) k b (np_trapezoid n dx (fun i => a i * v i)).
Proof.
  intros n dx a D v k b N H. unfold np_trapezoid. assert (K : forall j, (j < n)%nat -> fourier (fun r => cumulative_trapezoid dx (fun i => a i * D r i) j) k b (cumulative_trapezoid dx (fun i => a i * v i) j)).
  { induction j as [|j IH]; intros Hj.
    - assert (A := H 0%nat Hj). unfold fourier in *. apply (rscal _ _ _ _ 0) in A. rewrite trap_0. eapply rint_eq; [apply is_RInt_ext with (2 := A)|req; ring]. intros r _. cbv beta. rewrite trap_0. req. unfold Rdiv. ring.
    - assert (A := IH ltac:(lia)). assert (B := rlin _ _ (dx / 2 * a j) (dx / 2 * a (S j)) _ _ _ _ (H j ltac:(lia)) (H (S j) Hj)). assert (C := rlin _ _ 1 1 _ _ _ _ A B).
      unfold fourier in *. rewrite trap_S. eapply rint_eq; [apply is_RInt_ext with (2 := C)|].
      + intros r _. cbv beta. rewrite trap_S. req. unfold Rdiv. ring.
      + req. field. }
  apply K. lia.
Qed.
(** its transform is the 1-halo matter power with the power's mass integral (spline, from the first mass or the turnover) replaced by the
    trapezoidal rule over the whole mass grid *)
Theorem c150_matter : forall I spline uspline hk h Si Ci o (conc : nat -> R), q_linear I -> interpolates (spline 3%nat) -> grid (d_nm h) (d_m h) -> grid (d_nk h) (d_k h) ->
  sine_cosine_integrals Si Ci -> inst_ok o -> (forall im, (im < d_nm h)%nat -> 0 < conc im) -> 
  (forall ik im, (ik < d_nk h)%nat -> (im < d_nm h)%nat -> u (NFW Si Ci) o (d_k h ik) (d_m h im) (Some "m"%string) (Some (conc im)) "k" = Ok (d_ukm h ik im)) ->
  exists xi : R -> R,
    (forall n r L f, grid n r -> lam_table h (NFW Si Ci) o conc n r L -> corr_1h_matter I spline uspline hk (with_lam h n r L) = Ok f -> forall i, (i < n)%nat -> f (r i) = xi (r i)) /\
    (forall p ik b, power_1h_matter I spline uspline h = Ok p -> (ik < d_nk h)%nat -> contains_haloes h (NFW Si Ci) o conc b ->
       fourier (fun r => 1 + xi r) (d_k h ik) (2 * b)
         (p (d_k h ik) + (trapezoid_rule (ln 10 * d_dlog10m h) (d_nm h - 1) (fun im => d_m h im * (d_dndm h im * d_m h im ^ 2 * d_ukm h ik im ^ 2))
                          - over_masses I h (fun im => d_dndm h im * d_m h im ^ 2 * d_ukm h ik im ^ 2) (power_from h (d_k h ik)) (d_m h (d_nm h - 1)%nat)) / d_rho0 h ^ 2)).
Proof.
  intros I spline uspline hk h Si Ci o conc LI HI GM GK SC OK CP WU. set (la := lam_at h (NFW Si Ci) o conc).
  exists (fun r => np_trapezoid (d_nm h) (ln 10 * d_dlog10m h) (fun im => d_dndm h im * d_m h im ^ 3 * la r im) / d_rho0 h ^ 2 - 1). split.
  - intros n r L f Gr HT H i Hi. unfold corr_1h_matter in H. simpl d_lam in H. cbv iota in H. unfold bind in H. rewrite (efun_node _ _ _ _ _ _ _ _ _ _ HI Gr Hi H).
    simpl d_nm; simpl d_dlog10m; simpl d_dndm; simpl d_m; simpl d_rho0. do 2 f_equal. unfold np_trapezoid.
    assert (N : (0 < d_nm h)%nat) by apply GM. assert (Q : forall j, (j < d_nm h)%nat -> cumulative_trapezoid (ln 10 * d_dlog10m h) (fun im => d_dndm h im * d_m h im ^ 3 * L i im) j = cumulative_trapezoid (ln 10 * d_dlog10m h) (fun im => d_dndm h im * d_m h im ^ 3 * la (r i) im) j).
    { assert (EL : forall im, (im < d_nm h)%nat -> la (r i) im = L i im) by (intros im Hm; unfold la, lam_at; rewrite (HT i im Hi Hm); reflexivity).
      induction j as [|j IH]; intros Hj; [reflexivity|]. rewrite !trap_S, IH, !EL by lia. reflexivity. }
    apply Q. lia.
  - intros p ik b H Hk Hb. unfold power_1h_matter in H. rewrite (efun_node _ _ _ _ _ _ _ _ _ _ HI GK Hk H). unfold p1h_matter, do_1halo.
    rewrite power_from_eq by now apply GK. rewrite mint_eq by auto. unfold lo_lim, hi_lim.
    assert (N : (0 < d_nm h)%nat) by apply GM.
    assert (F := fourier_trapezoid (d_nm h) (ln 10 * d_dlog10m h) (fun im => d_dndm h im * d_m h im ^ 3) la (fun im => d_ukm h ik im ^ 2) (d_k h ik) (2 * b) N
      (fun im Hm => lam_fourier h (d_ukm h) Si Ci (NFW Si Ci) o conc GK SC OK CP WU ik im b eq_refl Hk Hm Hb)).
    unfold fourier in *. apply (rscal _ _ _ _ (/ d_rho0 h ^ 2)) in F. eapply rint_eq; [apply is_RInt_ext with (2 := F)|].
    + intros r _. cbv beta. req. unfold Rdiv. ring.
    + unfold over_masses. assert (ET : forall j, cumulative_trapezoid (ln 10 * d_dlog10m h) (fun im => d_dndm h im * d_m h im ^ 3 * d_ukm h ik im ^ 2) j = cumulative_trapezoid (ln 10 * d_dlog10m h) (fun im => d_m h im * (d_dndm h im * d_m h im ^ 2 * d_ukm h ik im ^ 2)) j).
      { induction j as [|j IH]; [reflexivity|]. rewrite !trap_S, IH. unfold Rdiv. ring. }
      rewrite <- cumtrap_rule. unfold np_trapezoid. rewrite ET. req. unfold Rdiv. ring.
Qed.
Print Assumptions c150_matter.
Print Assumptions c150_central_satellite.
Print Assumptions c150_satellite_satellite.
Print Assumptions c150_total.
Print Assumptions c150_exact_pair.
Print Assumptions c150_turnover.

(** the hypotheses are met: three masses, an NFW profile, Zehavi05 and Zheng05-like HODs, the step quadrature, linear interpolation *)
Definition table_of (f : nat -> nat -> res R) (i j : nat) : R := match f i j with Ok v => v | Raise _ => 0 end.
Definition ex_h : dmhm := mkDM 3 (d_m h0) (d_dndm h0) (d_bias h0) 1 1 (fun _ => 1) [1] (fun _ => 1) (fun _ => 1) (fun _ => 1) Linear 1 (fun _ => 1) (fun _ _ => 1) None 1 1 200 true true true None.
Example c150_met : exists Si Ci ukm, let s := NFW Si Ci in
  q_linear step_quad /\ q_additive step_quad /\ q_zero_outside step_quad /\ interpolates linterp /\ grid (d_nm ex_h) (d_m ex_h) /\ grid (d_nk ex_h) (d_k ex_h) /\
  sine_cosine_integrals Si Ci /\ inst_ok ex_inst /\
  (forall ik im, (ik < d_nk ex_h)%nat -> (im < d_nm ex_h)%nat -> u s ex_inst (d_k ex_h ik) (d_m ex_h im) (Some "m"%string) (Some 10) "k" = Ok (ukm ik im)) /\
  0 < h_mmin (Zehavi05 true 12 13 1) <= d_m ex_h 0%nat /\ (h_central (Zehavi05 true 12 13 1) = false \/ h_sharp (Zehavi05 true 12 13 1) = true) /\
  (h_central (Zehavi05 false 12 13 1) = false /\ tracer_mmin (Zehavi05 false 12 13 1) = None) /\
  exists b, 0 <= b /\ contains_haloes ex_h s ex_inst (fun _ => 10) b.
Proof.
  destruct sici_exist as [Si [Ci [HS _]]]. exists Si, Ci, (fun ik im => table_of (fun ik im => u (NFW Si Ci) ex_inst (d_k ex_h ik) (d_m ex_h im) (Some "m"%string) (Some 10) "k") ik im). cbv zeta.
  split; [exact step_quad_linear|]. split; [exact step_quad_additive|]. split; [exact step_quad_zero_outside|]. split; [exact interpolates_linterp|]. split; [exact h0_grid|].
  split; [repeat split; simpl; intros; try lia; lra|]. split; auto. split; [apply ex_inst_ok|]. split.
  { intros ik im _ _. unfold table_of. destruct (c149_transform_of_lam Si Ci ex_inst (d_m ex_h im) 10 (d_k ex_h ik) (Some "m"%string) HS (proj1 ex_inst_ok) ltac:(lra) ltac:(simpl; lra) (or_intror eq_refl)) as [rs [d [l [w [_ [_ [_ [_ [_ [_ U]]]]]]]]]]. now rewrite (U eq_refl). }
  split; [simpl; lra|]. split; [right; reflexivity|]. split; [split; reflexivity|].
  assert (P := fun m => rs_ok ex_inst (NFW Si Ci) m 10 ltac:(lra)).
  destruct (P (d_m ex_h 0%nat)) as [r0 [R0 [P0 _]]], (P (d_m ex_h 1%nat)) as [r1 [R1 [P1 _]]], (P (d_m ex_h 2%nat)) as [r2 [R2 [P2 _]]].
  exists (10 * (r0 + r1 + r2)). split; [lra|]. intros im H. change (d_nm ex_h) with 3%nat in H.
  destruct im as [|[|[|im]]]; [exists r0|exists r1|exists r2|lia]; (split; [assumption|lra]).
Qed.
