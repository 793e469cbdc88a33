(** Do the units of a marked tracer drop out of the statistics of a halo model (C147)?  Code under study: /repo/src/halomod/hod.py:490-569, halo_model.py:1190-1662, cross_correlations.py:283-337. *)
From Coq Require Import Reals List Bool Arith Lia Lra FunctionalExtensionality.
From Coquelicot Require Import Coquelicot.
From Verif Require Import Model.RBool Model.SpecialFn Model.Profiles Model.HOD Model.Exclusion Model.HaloModel Model.Cross Spec.HMSpec Proofs.HMProofs Proofs.HODProofs Proofs.ExclusionProofs Props.HaloModelProps Props.CrossProps.
Import ListNotations.
Local Open Scope R_scope.

(** every statistic of the tracer that is normalised by its density: one and the same for two descriptions t, t' of the tracer *)
Definition same_statistics I sp us hk (h : dmhm) (t t' : tracer) : Prop :=
  bias_effective_tracer I h t' = bias_effective_tracer I h t /\ mass_effective I h t' = mass_effective I h t /\
  satellite_fraction I h t' = satellite_fraction I h t /\ central_fraction I h t' = central_fraction I h t /\
  power_1h_ss I sp us h t' = power_1h_ss I sp us h t /\ power_1h_cs I sp us h t' = power_1h_cs I sp us h t /\ power_1h_tracer I sp us h t' = power_1h_tracer I sp us h t /\
  corr_1h_ss I sp us hk h t' = corr_1h_ss I sp us hk h t /\ corr_1h_cs I sp us h t' = corr_1h_cs I sp us h t /\ corr_1h_tracer I sp us hk h t' = corr_1h_tracer I sp us hk h t /\
  (* what every exclusion model works with, and the 2-halo term without exclusion *)
  tracer_exclusion I h t' = tracer_exclusion I h t /\ power_2h_tracer_noexcl I sp us hk h t' = power_2h_tracer_noexcl I sp us hk h t /\
  (* tracer-matter and tracer-tracer cross spectra *)
  power_1h_tm I sp us h t' = power_1h_tm I sp us h t /\ power_2h_tm I sp us h t' = power_2h_tm I sp us h t /\ corr_tm I sp us hk h t' = corr_tm I sp us hk h t /\
  (forall h2 t2, mean_tracer_den I h2 t2 <> 0 -> power_2h_cross I sp us h h2 t' t2 = power_2h_cross I sp us h h2 t t2 /\ power_2h_cross I sp us h2 h t2 t' = power_2h_cross I sp us h2 h t2 t).

(** the amounts of hd' are A times those of hd: another unit of the same tracer *)
Definition rescaled (A : R) (hd hd' : hod) : Prop :=
  (forall m, central_occupation hd' m = A * central_occupation hd m) /\ (forall m, satellite_occupation hd' m = A * satellite_occupation hd m) /\
  (forall m, ss_pairs hd' m = A ^ 2 * ss_pairs hd m) /\ (forall m, cs_pairs hd' m = A ^ 2 * cs_pairs hd m) /\ h_mmin hd' = h_mmin hd /\ h_central hd' = h_central hd.

Section S.
  Variables (I : quadrature) (sp : nat -> list R -> list R -> R -> R) (us : list R -> list R -> R -> R) (hk : tmode -> (R -> R) -> R -> R) (h : dmhm).
  Hypothesis L : q_linear I.
  Hypothesis G : grid (d_nm h) (d_m h).

  Lemma mint_scale : forall A f g x, (forall i, f i = A * g i) -> mint I h f x = A * mint I h g x.
  Proof. intros A f g x E. rewrite <- mint_scal by auto. apply mint_ext. auto. Qed.

  Section T.
    Variables (u rho : nat -> nat -> R) (lam : option (nat -> nat -> R)) (hd hd' : hod) (A : R).
    Let t := mkTr hd u rho lam. Let t' := mkTr hd' u rho lam.
    Hypothesis HA : A <> 0.
    Hypothesis S : rescaled A hd hd'.
    Hypothesis C : cut hd = false.
    Hypothesis C' : cut hd' = false.
    Hypothesis NC : h_central hd = false.
    Hypothesis N : mean_tracer_den I h t <> 0.
    Let HC : forall m, cen_int hd' m = A * cen_int hd m. Proof. intros m. unfold cen_int. rewrite C, C'. apply S. Qed.
    Let HT : forall m, tot_int hd' m = A * tot_int hd m. Proof. intros m. unfold tot_int. rewrite HC. destruct S as (_ & Q & _). rewrite Q. ring. Qed.
    Let TI : forall f f', (forall i, f' i = A * f i) -> tint I h t' f' = A * tint I h t f. Proof. intros f f' E. unfold tint, tracer_mmin. simpl t_hod. rewrite C, C'. now apply mint_scale. Qed.
    Let TI2 : forall f f', (forall i, f' i = A ^ 2 * f i) -> tint I h t' f' = A ^ 2 * tint I h t f. Proof. intros f f' E. unfold tint, tracer_mmin. simpl t_hod. rewrite C, C'. now apply mint_scale. Qed.
    Lemma den_scale : mean_tracer_den I h t' = A * mean_tracer_den I h t.
    Proof. unfold mean_tracer_den. apply TI. intros i. simpl t_hod. rewrite HT. ring. Qed.
    Let ratio : forall x n, n <> 0 -> (A * x) / (A * n) = x / n. Proof. intros; field; auto. Qed.
    Let ratio2 : forall x n, n <> 0 -> (A ^ 2 * x) / (A * n) ^ 2 = x / n ^ 2. Proof. intros; field; auto. Qed.
    Let HS : forall m, satellite_occupation hd' m = A * satellite_occupation hd m. Proof. apply S. Qed.
    Let HSS : forall m, ss_pairs hd' m = A ^ 2 * ss_pairs hd m. Proof. apply S. Qed.
    Let HCS : forall m, cs_pairs hd' m = A ^ 2 * cs_pairs hd m. Proof. apply S. Qed.
    Let HM : h_mmin hd' = h_mmin hd. Proof. apply S. Qed.
    Let NC' : h_central hd' = false. Proof. destruct S as (_ & _ & _ & _ & _ & Q). rewrite Q; auto. Qed.
    Lemma tcen_scale : forall ik im, tcen h t' ik im = A * tcen h t ik im.
    Proof. intros. unfold tcen. simpl t_hod. simpl t_ukm. rewrite HC, HS. ring. Qed.
    Lemma ss_same : forall ik, p1h_ss I h t' ik = p1h_ss I h t ik.
    Proof.
      intros ik. unfold p1h_ss, do_1halo. rewrite den_scale. simpl t_hod. rewrite HM. rewrite <- (ratio2 _ (mean_tracer_den I h t)) by exact N. f_equal. apply mint_scale. intros i. simpl t_ukm. rewrite HSS. ring.
    Qed.
    Lemma cs_same : forall ik, p1h_cs I h t' ik = p1h_cs I h t ik.
    Proof.
      intros ik. unfold p1h_cs, do_1halo. rewrite den_scale. simpl t_hod. rewrite HM. rewrite <- (ratio2 _ (mean_tracer_den I h t)) by exact N. f_equal. apply mint_scale. intros i. simpl t_ukm. rewrite HCS. ring.
    Qed.
    Lemma dens_same : forall im, d_dndm h im * tot_int hd' (d_m h im) / mean_tracer_den I h t' = d_dndm h im * tot_int hd (d_m h im) / mean_tracer_den I h t.
    Proof. intros im. rewrite den_scale, HT, <- (ratio _ (mean_tracer_den I h t)) by exact N. f_equal. ring. Qed.
    Lemma rspline_same : forall f g, (forall i, f i = g i) -> rspline sp us h f = rspline sp us h g.
    Proof. intros f g E. unfold rspline. rewrite (tab_ext _ f g) by auto. reflexivity. Qed.
    Lemma b_same : forall ik, b_cross I h t' ik = A * b_cross I h t ik.
    Proof.
      intros ik. unfold b_cross, tracer_mmin. simpl t_hod. rewrite C, C'. cbv zeta. rewrite <- simpson_scal. apply simpson_ext. intros i Hi. simpl t_ukm. rewrite HT. ring.
    Qed.
    Lemma rescaled_statistics : same_statistics I sp us hk h t t'.
    Proof.
      assert (SF : satellite_fraction I h t' = satellite_fraction I h t). { unfold satellite_fraction. rewrite den_scale, <- (ratio _ (mean_tracer_den I h t)) by exact N. f_equal. apply TI. intros i. simpl t_hod. rewrite HS. ring. }
      assert (BE : bias_effective_tracer I h t' = bias_effective_tracer I h t). { unfold bias_effective_tracer. rewrite den_scale, <- (ratio _ (mean_tracer_den I h t)) by exact N. f_equal. apply TI. intros i. simpl t_hod. rewrite HT. ring. }
      assert (PSS : power_1h_ss I sp us h t' = power_1h_ss I sp us h t). { unfold power_1h_ss. rewrite (tab_ext _ (p1h_ss I h t') (p1h_ss I h t)) by (intros; apply ss_same). reflexivity. }
      assert (PCS : power_1h_cs I sp us h t' = power_1h_cs I sp us h t). { unfold power_1h_cs. rewrite (tab_ext _ (p1h_cs I h t') (p1h_cs I h t)) by (intros; apply cs_same). reflexivity. }
      assert (XSS : corr_1h_ss I sp us hk h t' = corr_1h_ss I sp us hk h t).
      { unfold corr_1h_ss. rewrite PSS. simpl t_lam. generalize lam at 1 2; intros [l|]; [|reflexivity]. apply rspline_same. intros i. rewrite den_scale. f_equal. rewrite <- (ratio2 _ (mean_tracer_den I h t)) by exact N. f_equal. apply TI2. intros j. simpl t_hod. rewrite HSS. ring. }
      assert (XCS : corr_1h_cs I sp us h t' = corr_1h_cs I sp us h t).
      { unfold corr_1h_cs. apply rspline_same. intros i. rewrite den_scale. f_equal. rewrite <- (ratio2 _ (mean_tracer_den I h t)) by exact N. f_equal. apply TI2. intros j. simpl t_hod. simpl t_rho. rewrite HCS. ring. }
      assert (EX : tracer_exclusion I h t' = tracer_exclusion I h t).
      { unfold tracer_exclusion. simpl t_hod. unfold tracer_mmin. rewrite C, C'. f_equal; [apply functional_extensionality; intros im; apply dens_same|].
        apply functional_extensionality; intros ik; apply functional_extensionality; intros im. simpl t_ukm. rewrite dens_same. reflexivity. }
      assert (P1 : power_1h_tm I sp us h t' = power_1h_tm I sp us h t).
      { unfold power_1h_tm. rewrite (tab_ext _ (p1h_tm I h t') (p1h_tm I h t)); [reflexivity|]. intros ik _. unfold p1h_tm. rewrite den_scale.
        rewrite (TI (fun im => d_dndm h im * d_m h im * d_ukm h ik im * tcen h t ik im)) by (intros i; rewrite tcen_scale; ring). unfold Rdiv. rewrite !Rinv_mult. transitivity ((A * / A) * (tint I h t (fun im => d_dndm h im * d_m h im * d_ukm h ik im * tcen h t ik im) * (/ mean_tracer_den I h t * / d_rho0 h))); [ring|]. rewrite Rinv_r by auto. ring. }
      assert (P2 : power_2h_tm I sp us h t' = power_2h_tm I sp us h t).
      { unfold power_2h_tm. rewrite (tab_ext _ (p2h_tm I h t') (p2h_tm I h t)); [reflexivity|]. intros ik _. unfold p2h_tm. rewrite den_scale. unfold bt_tm.
        rewrite (TI (fun im => d_dndm h im * d_bias h im * tcen h t ik im)) by (intros i; rewrite tcen_scale; ring). unfold Rdiv. rewrite !Rinv_mult.
        transitivity ((A * / A) * (tint I h t (fun im => d_dndm h im * d_bias h im * tcen h t ik im) * bm_tm I h ik * d_phc h (d_k h ik) * (/ mean_tracer_den I h t * / d_rho0 h))); [ring|]. rewrite Rinv_r by auto. ring. }
      unfold same_statistics. split; [exact BE|]. split.
      { unfold mass_effective. rewrite den_scale. f_equal. f_equal. rewrite <- (ratio _ (mean_tracer_den I h t)) by exact N. f_equal. apply TI. intros i. simpl t_hod. rewrite HT. ring. }
      split; [exact SF|]. split; [unfold central_fraction; rewrite SF; reflexivity|]. split; [exact PSS|]. split; [exact PCS|]. split; [unfold power_1h_tracer; rewrite PSS, PCS; reflexivity|].
      split; [exact XSS|]. split; [exact XCS|]. split.
      { unfold corr_1h_tracer. rewrite XSS, XCS. simpl t_lam. generalize lam at 1 2; intros [l|]; [|reflexivity]. apply rspline_same. intros i. rewrite den_scale. rewrite <- (ratio2 _ (mean_tracer_den I h t)) by exact N. f_equal. apply TI2. intros j. simpl t_hod. simpl t_rho. rewrite NC, NC', HSS, HCS. ring. }
      split; [exact EX|]. split; [unfold power_2h_tracer_noexcl; rewrite EX, BE; reflexivity|]. split; [exact P1|]. split; [exact P2|]. split; [unfold corr_tm, to_corr; rewrite P1, P2; reflexivity|].
      intros h2 t2 _. unfold power_2h_cross. rewrite (tab_ext _ (p2h_cross I h h2 t' t2) (p2h_cross I h h2 t t2)), (tab_ext _ (p2h_cross I h2 h t2 t') (p2h_cross I h2 h t2 t)); [split; reflexivity| |];
        intros ik _; unfold p2h_cross; rewrite b_same, den_scale; unfold Rdiv; rewrite !Rinv_mult.
      - transitivity ((A * / A) * (b_cross I h2 t2 ik * b_cross I h t ik * d_phc h2 (d_k h2 ik) * (/ mean_tracer_den I h2 t2 * / mean_tracer_den I h t))); [ring|]. rewrite Rinv_r by auto. ring.
      - transitivity ((A * / A) * (b_cross I h t ik * b_cross I h2 t2 ik * d_phc h (d_k h ik) * (/ mean_tracer_den I h t * / mean_tracer_den I h2 t2))); [ring|]. rewrite Rinv_r by auto. ring.
    Qed.
  End T.

  (** bulk tracers, and the marked HOD without the central condition: multiplying the amount of tracer by 10^e multiplies the density by 10^e and changes no normalised statistic *)
  Theorem c147_units_drop_out : forall u rho lam flag Mmin M1 logA e alpha Mmax sigmaA,
    let fine := fun hd hd' => let t := mkTr hd u rho lam in let t' := mkTr hd' u rho lam in
      mean_tracer_den I h t <> 0 -> mean_tracer_den I h t' = Rpower 10 e * mean_tracer_den I h t /\ same_statistics I sp us hk h t t' in
    fine (Zehavi05Marked false Mmin M1 logA alpha Mmax) (Zehavi05Marked false Mmin M1 (logA + e) alpha Mmax) /\
    fine (ContinuousPowerLaw flag Mmin M1 logA alpha Mmax sigmaA) (ContinuousPowerLaw flag Mmin M1 (logA + e) alpha Mmax sigmaA) /\
    fine (ConstantHOD flag logA Mmin sigmaA) (ConstantHOD flag (logA + e) Mmin sigmaA).
  Proof.
    intros u rho lam flag Mmin M1 logA e alpha Mmax sigmaA fine.
    assert (P : pow10 (logA + e) = pow10 e * pow10 logA) by (unfold pow10; rewrite Rpower_plus; ring). assert (Q : Rpower 10 e <> 0) by (apply Rgt_not_eq, exp_pos).
    assert (F : forall hd hd', cut hd = false -> cut hd' = false -> h_central hd = false -> rescaled (Rpower 10 e) hd hd' -> fine hd hd').
    { intros hd hd' C C' NC S. unfold fine. intros N. split; [apply den_scale; auto|apply (rescaled_statistics u rho lam hd hd' (Rpower 10 e)); auto]. }
    split; [|split]; apply F; try reflexivity; unfold rescaled, ss_pairs, cs_pairs, satellite_occupation, nc, central_occupation, h_central; simpl; unfold marked_tpc, cpl_so, constant_so; change (Rpower 10 e) with (pow10 e); rewrite ?P; repeat split; intros; try (destruct (_ && _)); try (destruct (Rltb _ _)); ring.
  Qed.
End S.
Print Assumptions c147_units_drop_out.

(** finding: with the central condition (the default) they do not drop out, although the class promises the same result "for any normalised statistic": centrals are counted as one unit whatever logA
    is, satellites as 10^logA - so the satellite fraction takes every value between 0 and 1, and the effective bias changes unless the satellites have the same mean bias as the haloes above M_min *)
Theorem c147_central_condition_refuted : forall I h u rho lam Mmin M1 alpha Mmax, q_linear I -> grid (d_nm h) (d_m h) ->
  let t := fun logA => mkTr (Zehavi05Marked true Mmin M1 logA alpha Mmax) u rho lam in
  let above := fun f => mint I h f (Some (Rpower 10 Mmin)) in
  let sat := fun i => satellite_occupation (Zehavi05WithMax true Mmin M1 alpha Mmax) (d_m h i) in
  let haloes := above (d_dndm h) in let satellites := above (fun i => d_dndm h i * sat i) in
  let bias_haloes := above (fun i => d_dndm h i * d_bias h i) / haloes in let bias_satellites := above (fun i => d_dndm h i * sat i * d_bias h i) / satellites in
  0 < haloes -> 0 < satellites ->
  (forall a, mean_tracer_den I h (t a) = haloes + Rpower 10 a * satellites) /\
  (forall a a', a < a' -> satellite_fraction I h (t a) < satellite_fraction I h (t a')) /\ (forall f, 0 < f < 1 -> exists a, satellite_fraction I h (t a) = f) /\
  (forall a a', bias_effective_tracer I h (t a) = bias_effective_tracer I h (t a') <-> a = a' \/ bias_haloes = bias_satellites).
Proof.
  intros I h u rho lam Mmin M1 alpha Mmax L G t above sat haloes satellites bh bs PH PS.
  assert (SO : forall a i, satellite_occupation (t_hod (t a)) (d_m h i) = pow10 a * sat i).
  { intros a i. unfold sat, t, satellite_occupation, nc, central_occupation, h_central. simpl. unfold marked_tpc, one. assert (P := pow10_pos a). field. lra. }
  assert (D : forall a, mean_tracer_den I h (t a) = haloes + Rpower 10 a * satellites).
  { intros a. unfold mean_tracer_den, tint, haloes, satellites, above. change (tracer_mmin (t_hod (t a))) with (Some (Rpower 10 Mmin)). rewrite <- mint_lin by auto. apply mint_ext. intros i Hi. unfold tot_int. change (cen_int (t_hod (t a)) (d_m h i)) with 1. rewrite SO. unfold pow10. ring. }
  assert (F : forall a, satellite_fraction I h (t a) = Rpower 10 a * satellites / (haloes + Rpower 10 a * satellites)).
  { intros a. unfold satellite_fraction. rewrite D. f_equal. unfold tint, satellites, above. change (tracer_mmin (t_hod (t a))) with (Some (Rpower 10 Mmin)). rewrite <- mint_scal by auto. apply mint_ext. intros i Hi. rewrite SO. unfold pow10. ring. }
  assert (B : forall a, bias_effective_tracer I h (t a) = (bh * haloes + Rpower 10 a * (bs * satellites)) / (haloes + Rpower 10 a * satellites)).
  { intros a. unfold bias_effective_tracer. rewrite D. f_equal. unfold bh, bs, Rdiv. rewrite !Rmult_assoc, !Rinv_l, !Rmult_1_r by lra. unfold tint, above. change (tracer_mmin (t_hod (t a))) with (Some (Rpower 10 Mmin)). rewrite <- mint_lin by auto. apply mint_ext. intros i Hi. unfold tot_int. change (cen_int (t_hod (t a)) (d_m h i)) with 1. rewrite SO. unfold pow10. ring. }
  assert (P : forall a, 0 < Rpower 10 a) by (intros; apply exp_pos).
  split; [exact D|]. split; [|split].
  - intros a a' H. rewrite !F. assert (Q : Rpower 10 a < Rpower 10 a') by (apply Rpower_lt; lra). set (x := Rpower 10 a) in *. set (y := Rpower 10 a') in *. assert (Px := P a). fold x in Px.
    assert (K : y * satellites / (haloes + y * satellites) - x * satellites / (haloes + x * satellites) = satellites * haloes * (y - x) / ((haloes + y * satellites) * (haloes + x * satellites))).
    { field. split; nra. }
    assert (0 < satellites * haloes * (y - x) / ((haloes + y * satellites) * (haloes + x * satellites))); [|lra]. apply Rdiv_lt_0_compat; [|apply Rmult_lt_0_compat; nra]. apply Rmult_lt_0_compat; [|lra]. now apply Rmult_lt_0_compat.
  - intros f [F0 F1]. exists (ln (f * haloes / ((1 - f) * satellites)) / ln 10). rewrite F. assert (L10 : ln 10 <> 0) by (apply Rgt_not_eq; rewrite <- ln_1; apply ln_increasing; lra).
    assert (Q : 0 < f * haloes / ((1 - f) * satellites)) by (apply Rdiv_lt_0_compat; apply Rmult_lt_0_compat; lra).
    replace (Rpower 10 (ln (f * haloes / ((1 - f) * satellites)) / ln 10)) with (f * haloes / ((1 - f) * satellites)).
    + field. repeat split; lra.
    + unfold Rpower. rewrite <- (exp_ln _ Q) at 1. f_equal. field. exact L10.
  - intros a a'. rewrite !B. assert (X := P a). assert (Y := P a'). split.
    + intros E. destruct (Req_dec a a') as [|NE]; auto. right. assert (NQ : Rpower 10 a <> Rpower 10 a') by (intros Q; apply NE; apply (f_equal ln) in Q; unfold Rpower in Q; rewrite !ln_exp in Q; apply Rmult_eq_reg_r in Q; auto; apply Rgt_not_eq; rewrite <- ln_1; apply ln_increasing; lra).
      set (x := Rpower 10 a) in *. set (y := Rpower 10 a') in *.
      assert (K : (bh * haloes + x * (bs * satellites)) / (haloes + x * satellites) - (bh * haloes + y * (bs * satellites)) / (haloes + y * satellites) = (bh - bs) * (haloes * satellites * (y - x)) / ((haloes + x * satellites) * (haloes + y * satellites))) by (field; split; nra).
      assert (Z : (bh - bs) * (haloes * satellites * (y - x)) / ((haloes + x * satellites) * (haloes + y * satellites)) = 0) by lra.
      apply Rmult_integral in Z. destruct Z as [Z|Z]; [|exfalso; revert Z; apply Rinv_neq_0_compat; apply Rgt_not_eq; apply Rmult_lt_0_compat; nra].
      apply Rmult_integral in Z. destruct Z as [Z|Z]; [lra|]. exfalso. apply Rmult_integral in Z. destruct Z as [Z|Z]; [apply Rmult_integral in Z; destruct Z; lra|lra].
    + intros [->|E]; [reflexivity|]. rewrite E. assert (K : forall x, 0 < x -> (bs * haloes + x * (bs * satellites)) / (haloes + x * satellites) = bs) by (intros x Hx; field; nra). rewrite !K by auto. reflexivity.
Qed.
Print Assumptions c147_central_condition_refuted.

(** *** the hypotheses are met: the three-mass example; the satellites of 10^12 and 10^13 are biased differently from the haloes *)
Example c147_met : forall hd, (forall i, 0 < tot_int hd (d_m h0 i)) -> cut hd = false -> mean_tracer_den step_quad h0 (mkTr hd (fun _ _ => 1) (fun _ _ => 1) None) <> 0.
Proof.
  intros hd P C. unfold mean_tracer_den, tint, tracer_mmin. simpl t_hod. rewrite C, mint_eq by apply h0_grid. unfold lo_lim, hi_lim.
  set (lm := fun i => ln (d_m h0 i)). assert (S0 : lm 0%nat < lm 1%nat) by (apply ln_increasing; apply h0_grid; simpl; lia). assert (S1 : lm 1%nat < lm 2%nat) by (apply ln_increasing; apply h0_grid; simpl; lia).
  apply Rgt_not_eq. set (F := fun i => d_m h0 i * (d_dndm h0 i * tot_int hd (d_m h0 i))).
  assert (FP : forall i, (i < 3)%nat -> 0 < F i). { intros i Hi. unfold F. apply Rmult_lt_0_compat; [apply h0_grid; exact Hi|]. simpl d_dndm. rewrite Rmult_1_l. apply P. }
  assert (E : step_quad (arr 3 lm) (arr 3 F) (lm 0%nat) (lm 2%nat) = F 0%nat * (lm 1%nat - lm 0%nat) + F 1%nat * (lm 2%nat - lm 1%nat)).
  { unfold step_quad, arr, stepF. simpl map. cbv iota beta. unfold Rmax, Rmin. repeat destruct (Rle_dec _ _); try lra. }
  change (0 < step_quad (arr 3 lm) (arr 3 F) (lm 0%nat) (lm 2%nat)). rewrite E. assert (A := FP 0%nat ltac:(lia)). assert (B := FP 1%nat ltac:(lia)). apply Rplus_lt_0_compat; apply Rmult_lt_0_compat; lra.
Qed.
Example c147_refuted_met : let above := fun f => mint step_quad h0 f (Some (Rpower 10 11)) in let sat := fun i => satellite_occupation (Zehavi05WithMax true 11 13 1 18) (d_m h0 i) in
  0 < above (d_dndm h0) /\ 0 < above (fun i => d_dndm h0 i * sat i) /\
  above (fun i => d_dndm h0 i * d_bias h0 i) / above (d_dndm h0) <> above (fun i => d_dndm h0 i * sat i * d_bias h0 i) / above (fun i => d_dndm h0 i * sat i).
Proof.
  intros above sat. assert (E11 : Rpower 10 11 = 10 ^ 11) by (rewrite <- Rpower_pow by lra; f_equal; simpl; lra).
  set (lm := fun i => ln (d_m h0 i)). assert (S0 : lm 0%nat < lm 1%nat) by (apply ln_increasing; apply h0_grid; simpl; lia). assert (S1 : lm 1%nat < lm 2%nat) by (apply ln_increasing; apply h0_grid; simpl; lia).
  assert (E : forall f, above f = d_m h0 0 * f 0%nat * (lm 1%nat - lm 0%nat) + d_m h0 1 * f 1%nat * (lm 2%nat - lm 1%nat)).
  { intros f. unfold above. rewrite mint_eq by apply h0_grid. unfold lo_lim, hi_lim. rewrite E11.
    change (step_quad (arr 3 lm) (arr 3 (fun i => d_m h0 i * f i)) (lm 0%nat) (lm 2%nat) = d_m h0 0 * f 0%nat * (lm 1%nat - lm 0%nat) + d_m h0 1 * f 1%nat * (lm 2%nat - lm 1%nat)).
    set (F := fun i => d_m h0 i * f i). change (d_m h0 0 * f 0%nat) with (F 0%nat). change (d_m h0 1 * f 1%nat) with (F 1%nat). clearbody F lm. clear - S0 S1.
    unfold step_quad, arr, stepF. simpl map. cbv iota beta. unfold Rmax, Rmin. repeat destruct (Rle_dec _ _); try lra. }
  assert (s : forall i, (i < 3)%nat -> sat i = 10 ^ (11 + i) / 10 ^ 13).
  { intros i Hi. unfold sat, satellite_occupation, nc, central_occupation, h_central. simpl h_kind. simpl h_flag. simpl h_inherent. cbv iota beta delta [andb negb]. simpl h_co. simpl h_so. simpl h_tpc. unfold one, zehavi_so.
    assert (W : withmax_co 11 18 (d_m h0 i) = 1).
    { unfold withmax_co, pow10. rewrite E11. replace (Rpower 10 18) with (10 ^ 18) by (rewrite <- Rpower_pow by lra; f_equal; simpl; lra). change (d_m h0 i) with (10 ^ (11 + i)).
      replace (Rleb (10 ^ 11) (10 ^ (11 + i))) with true by (symmetry; apply Rleb_spec; apply Rle_pow; [lra|lia]). replace (Rleb (10 ^ (11 + i)) (10 ^ 18)) with true by (symmetry; apply Rleb_spec; apply Rle_pow; [lra|lia]). reflexivity. }
    change (10 * (10 * (10 * (10 * (10 * (10 * (10 * (10 * (10 * (10 * (10 * 10 ^ i))))))))))) with (d_m h0 i). rewrite W. unfold pow10. replace (Rpower 10 13) with (10 ^ 13) by (rewrite <- Rpower_pow by lra; f_equal; simpl; lra). change (d_m h0 i) with (10 ^ (11 + i)). rewrite Rpower_1; [field; apply pow_nonzero; lra|]. apply Rdiv_lt_0_compat; apply pow_lt; lra. }
  assert (s0 : sat 0%nat = / 100) by (rewrite s by lia; simpl; lra). assert (s1 : sat 1%nat = / 10) by (rewrite s by lia; simpl; lra).
  rewrite !E, s0, s1. assert (Q0 : d_m h0 0 = 10 ^ 11) by reflexivity. assert (Q1 : d_m h0 1 = 10 * d_m h0 0) by (simpl; lra). assert (P0 : 0 < d_m h0 0) by (rewrite Q0; apply pow_lt; lra). rewrite Q1. revert P0. generalize (d_m h0 0). intros M PM.
  simpl d_dndm. simpl d_bias. set (a := lm 1%nat - lm 0%nat). set (b := lm 2%nat - lm 1%nat). assert (Pa : 0 < a) by (unfold a; lra). assert (Pb : 0 < b) by (unfold b; lra). clearbody a b. clear - PM Pa Pb.
  assert (X : 0 < M * a) by now apply Rmult_lt_0_compat. assert (Y : 0 < M * b) by now apply Rmult_lt_0_compat.
  split; [|split].
  - nra.
  - nra.
  - set (x := M * a) in *. set (y := M * b) in *. 
    replace (M * (1 * (1 + 0)) * a + 10 * M * (1 * (1 + 1)) * b) with (x + 20 * y) by (unfold x, y; ring). replace (M * 1 * a + 10 * M * 1 * b) with (x + 10 * y) by (unfold x, y; ring).
    replace (M * (1 * / 100 * (1 + 0)) * a + 10 * M * (1 * / 10 * (1 + 1)) * b) with (/ 100 * x + 2 * y) by (unfold x, y; field). replace (M * (1 * / 100) * a + 10 * M * (1 * / 10) * b) with (/ 100 * x + y) by (unfold x, y; field).
    clearbody x y. intros K. assert (Z : (x + 20 * y) / (x + 10 * y) - (/ 100 * x + 2 * y) / (/ 100 * x + y) = - (9 / 10 * x * y) / ((x + 10 * y) * (/ 100 * x + y))) by (field; split; nra).
    assert (- (9 / 10 * x * y) / ((x + 10 * y) * (/ 100 * x + y)) < 0); [|lra]. unfold Rdiv. rewrite <- Ropp_mult_distr_l. apply Ropp_lt_gt_0_contravar. apply Rmult_lt_0_compat; [nra|]. apply Rinv_0_lt_compat. nra.
Qed.
