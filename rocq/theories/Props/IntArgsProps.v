(** C124: integer-typed arrays; C125: plain numbers as masses.
    Code under study: /repo/src/halomod/hod.py:158-675, concentration.py:552-605, integrate_corr.py:124-182,
    profiles.py:364-421, 689-725. *)
From Coq Require Import Reals Lra Lia String List Bool Arith ZArith Psatz.
From Coquelicot Require Import Coquelicot.
From Verif Require Import Model.RBool Model.SpecialFn Model.NumpyList Model.ExtSpline Model.HOD Model.HODFloat Model.Profiles Model.ProfileArrays Model.Concentration
  Spec.IntSpec Spec.ArraySpec Proofs.ExtSplineProofs Proofs.HODProofs Props.HODProps Proofs.Erf Proofs.ArrayProofs Props.ArrayProps Model.IntArgs Props.LudlowProps.
From Verif Require Model.IntegrateCorr.
Import ListNotations.
Local Open Scope R_scope.

Lemma trunc_drops : forall v, drops_fraction v (trunc v).
Proof.
  intros v. unfold drops_fraction, trunc. destruct (Rle_dec 0 v) as [H|H].
  - destruct (base_Int_part v) as [A B]. assert (P : (0 <= Int_part v)%Z). { apply Z.lt_pred_le. apply lt_IZR. rewrite <- Z.sub_1_r, minus_IZR. simpl. lra. }
    apply IZR_le in P. split; [eexists; reflexivity|]. split; [now apply Rmult_le_pos|]. rewrite !Rabs_pos_eq by lra. lra.
  - destruct (base_Int_part (- v)) as [A B]. assert (P : (0 <= Int_part (- v))%Z). { apply Z.lt_pred_le. apply lt_IZR. rewrite <- Z.sub_1_r, minus_IZR. simpl. lra. }
    apply IZR_le in P. split; [exists (- Int_part (- v))%Z; now rewrite opp_IZR|]. split; [nra|].
    rewrite Rabs_Ropp, (Rabs_pos_eq (IZR _)) by lra. rewrite Rabs_left by lra. lra.
Qed.
Lemma drops_unique : forall v w w', drops_fraction v w -> drops_fraction v w' -> w = w'.
Proof.
  intros v w w' [[z ->] [S [A B]]] [[z' ->] [S' [A' B']]].
  destruct (Rle_lt_dec 0 v) as [H|H].
  - rewrite (Rabs_pos_eq v) in * by lra. destruct (Req_dec v 0) as [->|N].
    + assert (Rabs (IZR z) = 0) by (assert (P := Rabs_pos (IZR z)); lra). assert (Rabs (IZR z') = 0) by (assert (P := Rabs_pos (IZR z')); lra).
      destruct (Req_dec (IZR z) 0) as [E|E]; [|now apply Rabs_no_R0 in E]. destruct (Req_dec (IZR z') 0) as [E'|E']; [|now apply Rabs_no_R0 in E']. lra.
    + assert (0 <= IZR z) by nra. assert (0 <= IZR z') by nra. rewrite !Rabs_pos_eq in * by lra. f_equal.
      assert (z < z' + 1)%Z by (apply lt_IZR; rewrite plus_IZR; simpl; lra). assert (z' < z + 1)%Z by (apply lt_IZR; rewrite plus_IZR; simpl; lra). lia.
  - rewrite (Rabs_left v) in * by lra. assert (IZR z <= 0) by nra. assert (IZR z' <= 0) by nra. rewrite !(Rabs_left1 (IZR _)) in * by lra. f_equal.
    assert (z < z' + 1)%Z by (apply lt_IZR; rewrite plus_IZR; simpl; lra). assert (z' < z + 1)%Z by (apply lt_IZR; rewrite plus_IZR; simpl; lra). lia.
Qed.
Lemma trunc_whole : forall v, trunc v = v <-> whole v.
Proof.
  intros v. split; [intros <-; destruct (trunc_drops v) as [[z Z] _]; now exists z|]. intros [z ->]. apply (drops_unique (IZR z)); [apply trunc_drops|].
  repeat split; [now exists z|apply Rle_0_sqr|lra|lra].
Qed.
Lemma trunc_small : forall v, Rabs v < 1 -> trunc v = 0.
Proof.
  intros v H. apply (drops_unique v); [apply trunc_drops|]. repeat split; [now exists 0%Z|rewrite Rmult_0_r; lra|rewrite Rabs_R0; apply Rabs_pos|rewrite Rabs_R0; lra].
Qed.
Lemma cast0 : forall d, cast d 0 = 0.
Proof. intros [|]; simpl; [reflexivity|]. apply trunc_whole. now exists 0%Z. Qed.
Lemma cast1 : forall d, cast d 1 = 1.
Proof. intros [|]; simpl; [reflexivity|]. apply trunc_whole. now exists 1%Z. Qed.

Lemma fill_const_arr : forall mask i v d l, fill_const mask i v (Arr d l) = Ok (map (fun m => cast d (if mask m then v else i)) l).
Proof. intros. unfold fill_const. rewrite scatter_map. f_equal. apply map_ext. intros m. now destruct (mask m). Qed.
Lemma fill_masked_arr : forall mask f d l, fill_masked mask f (Arr d l) = Ok (map (fun m => if mask m then cast d (f m) else 0) l).
Proof. intros. unfold fill_masked. now rewrite map_map, scatter_map. Qed.
Lemma map2_map : forall {A B C D} (op : B -> C -> D) (f : A -> B) (g : A -> C) l, map2 op (map f l) (map g l) = map (fun x => op (f x) (g x)) l.
Proof. intros. unfold map2. rewrite combine_map2, map_map. reflexivity. Qed.

(** element-by-element description of the four building blocks for an array of either type *)
Definition so_cast (c : pclass) (d : dtype) (m : R) : R := match c with CZheng _ _ _ _ _ => cast d (h_so (class_hod true c) m) | _ => h_so (class_hod true c) m end.
Definition tps_cast (c : pclass) (d : dtype) (m : R) : R := match c with CSpinelli _ => cast d (h_tps (class_hod true c) m) | _ => h_tps (class_hod true c) m end.
Lemma arr_blocks : forall flag c d l, let A := class_arrays flag c in let h := class_hod flag c in
  A_co A (Arr d l) = Ok (map (h_co h) l) /\ A_so A (Arr d l) = Ok (map (so_cast c d) l) /\ A_tpc A (Arr d l) = Ok (map (h_tpc h) l) /\ A_tps A (Arr d l) = Ok (map (tps_cast c d) l).
Proof.
  intros flag c d l. destruct c; cbn [class_arrays class_hod A_co A_so A_tpc A_tps h_co h_so h_tpc h_tps Zehavi05 Zheng05 Contreras13 Tinker05 Zehavi05WithMax Zehavi05Marked Spinelli19 poisson_hod so_cast tps_cast];
    unfold times; rewrite ?fill_const_arr, ?fill_masked_arr; unfold ufun; cbn [masses bind]; rewrite ?map2_map; repeat split; f_equal; apply map_ext; intros m.
  - unfold zehavi_co. destruct (Rltb m (pow10 Mmin)); [apply cast0|apply cast1].
  - unfold so_cast; cbn [class_hod h_so Zheng05 poisson_hod]; unfold zheng_so. destruct (Rltb (pow10 M0) m); [reflexivity|now rewrite cast0].
  - unfold zehavi_co. destruct (Rltb m (pow10 Mmin)); [apply cast0|apply cast1].
  - unfold so_cast; cbn [class_hod h_so Tinker05 poisson_hod]; unfold tinker_so, tinker_rest, zehavi_co. cbv zeta. destruct (Rltb m (pow10 Mmin)); rewrite ?cast0, ?cast1; ring.
  - unfold withmax_co, withmax_mask. destruct (Rleb (pow10 Mmin) m && Rleb m (pow10 Mmax)); [apply cast1|apply cast0].
  - unfold withmax_co, withmax_mask. destruct (Rleb (pow10 Mmin) m && Rleb m (pow10 Mmax)); rewrite ?cast0, ?cast1; reflexivity.
  - unfold so_cast; cbn [class_hod h_so Spinelli19]; unfold spinelli_so, spinelli_rest. cbv zeta. destruct (Rleb (10 ^ 11) m); rewrite ?cast0, ?cast1; unfold b2R; ring.
  - unfold spinelli_tpc. destruct (spinelli_in p m); [apply cast1|apply cast0].
  - unfold tps_cast; cbn [class_hod h_tps Spinelli19]; unfold spinelli_tps. destruct (spinelli_in p m); [reflexivity|now rewrite cast0].
Qed.

Lemma np_div_fin : forall a b, b <> 0 -> np_div a b = Fin (a / b).
Proof. intros a b H. unfold np_div. destruct (Reqb b 0) eqn:E; [apply Reqb_spec in E; contradiction|reflexivity]. Qed.
Lemma class_facts : forall flag c, h_kind (class_hod flag c) = Poisson /\ h_flag (class_hod flag c) = flag /\ A_flag (class_arrays flag c) = flag /\
  A_inherent (class_arrays flag c) = h_inherent (class_hod flag c) /\ (forall m, h_so (class_hod flag c) m = h_so (class_hod true c) m) /\ (forall m, h_tps (class_hod flag c) m = h_tps (class_hod true c) m).
Proof. intros flag c. destruct c; repeat split. Qed.

(** float arrays: the methods are the element-by-element functions studied elsewhere *)
Theorem c124_float_arrays : forall flag c l, let h := class_hod flag c in
  (forall m, In m l -> h_tpc h m <> 0 /\ h_tps h m <> 0) ->
  centralA (class_arrays flag c) (Arr DFloat l) = Ok (map (fun m => Fin (central_occupation h m)) l) /\
  satA (class_arrays flag c) (Arr DFloat l) = Ok (map (fun m => Fin (satellite_occupation h m)) l) /\
  ncA (class_arrays flag c) (Arr DFloat l) = Ok (map (fun m => Fin (nc h m)) l) /\
  nsA (class_arrays flag c) (Arr DFloat l) = Ok (map (fun m => Fin (ns h m)) l) /\
  totalA (class_arrays flag c) (Arr DFloat l) = Ok (map (fun m => Fin (total_occupation h m)) l).
Proof.
  intros flag c l h Ht. destruct (arr_blocks flag c DFloat l) as (Eco & Eso & Etc & Ets). fold h in Eco, Etc.
  destruct (class_facts flag c) as (K & F & AF & AI & SO & TS). fold h in K, F, AI, SO, TS.
  assert (SC : forall m, so_cast c DFloat m = h_so h m) by (intros m; rewrite SO; destruct c; reflexivity).
  assert (TC : forall m, tps_cast c DFloat m = h_tps h m) by (intros m; rewrite TS; destruct c; reflexivity).
  assert (C : centralA (class_arrays flag c) (Arr DFloat l) = Ok (map (fun m => Fin (central_occupation h m)) l)).
  { unfold centralA. rewrite Eco. unfold rmap; cbn [bind]. rewrite map_map. f_equal. apply map_ext. intros m. unfold central_occupation. now rewrite K. }
  assert (N : ncA (class_arrays flag c) (Arr DFloat l) = Ok (map (fun m => Fin (nc h m)) l)).
  { unfold ncA. rewrite Eco, Etc. cbn [bind]. rewrite map2_map. f_equal. apply map_ext_in. intros m Hm. rewrite np_div_fin by apply (Ht m Hm). unfold nc, central_occupation. now rewrite K. }
  assert (S : satA (class_arrays flag c) (Arr DFloat l) = Ok (map (fun m => Fin (satellite_occupation h m)) l)).
  { unfold satA, satellite_occupation, h_central. rewrite K, F, AF, AI. destruct (flag && negb (h_inherent h)).
    - rewrite N, Eso. cbn [bind]. rewrite map_map, map2_map. f_equal. apply map_ext. intros m. cbn [np_mul]. now rewrite SC.
    - rewrite Eso. unfold rmap; cbn [bind]. rewrite map_map. f_equal. apply map_ext. intros m. now rewrite SC. }
  repeat split; try assumption.
  - unfold nsA. rewrite S, Ets. cbn [bind]. rewrite map2_map. f_equal. apply map_ext_in. intros m Hm. cbn [fdiv]. rewrite TC, np_div_fin by apply (Ht m Hm). unfold ns. now rewrite K.
  - unfold totalA. rewrite Eco, S. cbn [bind]. rewrite map2_map. f_equal. apply map_ext. intros m. cbn [fadd]. unfold total_occupation, central_occupation. now rewrite K.
Qed.
Print Assumptions c124_float_arrays.

(** integer arrays: everything is as for the same masses in a float array, except the satellites of Zheng05 and Spinelli19's
    satellite number counts *)
Definition zheng_class (c : pclass) : bool := match c with CZheng _ _ _ _ _ => true | _ => false end.
Definition spinelli_class (c : pclass) : bool := match c with CSpinelli _ => true | _ => false end.
Theorem c124_integer_arrays_exact : forall flag c l, let A := class_arrays flag c in
  centralA A (Arr DInt l) = centralA A (Arr DFloat l) /\ ncA A (Arr DInt l) = ncA A (Arr DFloat l) /\
  (zheng_class c = false -> satA A (Arr DInt l) = satA A (Arr DFloat l) /\ totalA A (Arr DInt l) = totalA A (Arr DFloat l) /\
     (spinelli_class c = false -> nsA A (Arr DInt l) = nsA A (Arr DFloat l))).
Proof.
  intros flag c l A. destruct (arr_blocks flag c DFloat l) as (Eco & Eso & Etc & Ets). destruct (arr_blocks flag c DInt l) as (Ico & Iso & Itc & Its).
  fold A in Eco, Eso, Etc, Ets, Ico, Iso, Itc, Its.
  assert (N : ncA A (Arr DInt l) = ncA A (Arr DFloat l)) by (unfold ncA; now rewrite Eco, Etc, Ico, Itc).
  split; [unfold centralA; now rewrite Eco, Ico|]. split; [exact N|]. intros Z.
  assert (SI : A_so A (Arr DInt l) = A_so A (Arr DFloat l)) by (rewrite Eso, Iso; destruct c; [reflexivity|discriminate Z|reflexivity..]).
  assert (S : satA A (Arr DInt l) = satA A (Arr DFloat l)) by (unfold satA; now rewrite N, SI).
  split; [exact S|]. split; [unfold totalA; now rewrite S, Eco, Ico|]. intros P.
  unfold nsA. rewrite S, Ets, Its. destruct c; [reflexivity..|discriminate P].
Qed.
Print Assumptions c124_integer_arrays_exact.

(** Zheng05: the number of satellites of each halo loses its fraction (before the central weight) *)
Lemma zheng_so_nonneg : forall M1 alpha M0 m, 0 <= zheng_so M1 alpha M0 m.
Proof. intros. unfold zheng_so. destruct (Rltb (pow10 M0) m); [left; apply exp_pos|lra]. Qed.
Theorem c124_zheng_integer_satellites : forall flag Mmin M1 alpha M0 sig l, 
  exists w, (forall m, drops_fraction (satellite_occupation (Zheng05 false Mmin M1 alpha M0 sig) m) (w m)) /\
  satA (class_arrays flag (CZheng Mmin M1 alpha M0 sig)) (Arr DInt l) =
    Ok (map (fun m => Fin (if flag then central_occupation (Zheng05 flag Mmin M1 alpha M0 sig) m * w m else w m)) l).
Proof.
  intros flag Mmin M1 alpha M0 sig l. exists (fun m => trunc (zheng_so M1 alpha M0 m)). split; [intros m; apply trunc_drops|].
  set (c := CZheng Mmin M1 alpha M0 sig). destruct (arr_blocks flag c DInt l) as (Ico & Iso & Itc & Its).
  unfold satA. change (A_flag (class_arrays flag c)) with flag. change (A_inherent (class_arrays flag c)) with false. cbn [negb]. rewrite andb_true_r. destruct flag.
  - unfold ncA. rewrite Ico, Itc, Iso. cbn [bind]. rewrite map_map, !map2_map. f_equal. apply map_ext. intros m.
    unfold c. cbn [class_hod h_co h_tpc Zheng05 poisson_hod so_cast cast h_so]. unfold one. rewrite np_div_fin by lra. cbn [np_mul central_occupation h_kind h_co]. unfold so_cast; cbn [class_hod h_so Zheng05 poisson_hod cast]. f_equal. unfold central_occupation; cbn [h_kind h_co Zheng05 poisson_hod]. unfold Rdiv. rewrite Rinv_1. ring.
  - rewrite Iso. unfold rmap; cbn [bind]. rewrite map_map. reflexivity.
Qed.
Print Assumptions c124_zheng_integer_satellites.
Lemma zheng_co_pos : forall Mmin sig m, 0 < zheng_co Mmin sig m.
Proof. intros. unfold zheng_co. assert (E := erf_range ((log10 m - Mmin) / sig)). lra. Qed.
(** so integer masses give the float answer exactly for the haloes whose mean satellite number is whole *)
Theorem c124_zheng_integer_agrees_iff : forall flag Mmin M1 alpha M0 sig l, let h := Zheng05 flag Mmin M1 alpha M0 sig in
  satA (class_arrays flag (CZheng Mmin M1 alpha M0 sig)) (Arr DInt l) = satA (class_arrays flag (CZheng Mmin M1 alpha M0 sig)) (Arr DFloat l)
  <-> forall m, In m l -> whole (satellite_occupation (Zheng05 false Mmin M1 alpha M0 sig) m).
Proof.
  intros flag Mmin M1 alpha M0 sig l h. destruct (c124_float_arrays flag (CZheng Mmin M1 alpha M0 sig) l) as (_ & F & _); [intros; cbn; unfold one; lra|].
  rewrite F. destruct (c124_zheng_integer_satellites flag Mmin M1 alpha M0 sig l) as [w [W E]]. rewrite E.
  assert (PW : forall m, (Fin (if flag then central_occupation h m * w m else w m) = Fin (satellite_occupation h m)) <-> whole (satellite_occupation (Zheng05 false Mmin M1 alpha M0 sig) m)).
  { intros m. assert (T : w m = trunc (zheng_so M1 alpha M0 m)) by (apply (drops_unique _ _ _ (W m)); apply trunc_drops).
    change (satellite_occupation (Zheng05 false Mmin M1 alpha M0 sig) m) with (zheng_so M1 alpha M0 m). rewrite <- trunc_whole, T.
    assert (P := zheng_co_pos Mmin sig m). unfold h. destruct flag.
    - unfold satellite_occupation, nc, central_occupation. cbn [h_central h_kind h_flag Zheng05 poisson_hod h_inherent negb andb h_co h_so h_tpc]. unfold one. replace (zheng_co Mmin sig m / 1) with (zheng_co Mmin sig m) by field.
      split; [intros H; injection H as H; apply Rmult_eq_reg_l in H; [exact H|lra]|intros ->; reflexivity].
    - split; [intros H; injection H as H; exact H|intros ->; reflexivity]. }
  split.
  - intros H m Hm. apply PW. injection H as H. exact (ext_in_map H m Hm).
  - intros H. f_equal. apply map_ext_in. intros m Hm. now apply PW, H.
Qed.
Print Assumptions c124_zheng_integer_agrees_iff.
(** below one satellite per halo the answer is zero *)
Theorem c124_zheng_integer_none_below_M1_refuted : forall flag Mmin M1 alpha M0 sig m, 0 < alpha -> pow10 M0 < m < pow10 M0 + pow10 M1 ->
  0 < satellite_occupation (Zheng05 flag Mmin M1 alpha M0 sig) m /\
  satA (class_arrays flag (CZheng Mmin M1 alpha M0 sig)) (Arr DInt [m]) = Ok [Fin 0].
Proof.
  intros flag Mmin M1 alpha M0 sig m Ha [Hm Hm1]. assert (P1 := pow10_pos M1). assert (PC := zheng_co_pos Mmin sig m).
  assert (V : 0 < zheng_so M1 alpha M0 m < 1).
  { unfold zheng_so. rewrite (proj2 (Rltb_spec _ _) Hm). split; [apply exp_pos|]. set (x := (m - pow10 M0) / pow10 M1).
    assert (X : 0 < x < 1). { unfold x. split; [apply Rdiv_lt_0_compat; lra|]. apply (Rmult_lt_reg_r (pow10 M1)); [lra|]. unfold Rdiv. rewrite Rmult_assoc, Rinv_l by lra. lra. }
    unfold Rpower. rewrite <- exp_0. apply exp_increasing. assert (ln x < 0) by (rewrite <- ln_1; apply ln_increasing; lra). nra. }
  split.
  - destruct flag; [|exact (proj1 V)]. unfold satellite_occupation, nc, central_occupation. cbn [h_central h_kind h_flag Zheng05 poisson_hod h_inherent negb andb h_co h_so h_tpc]. unfold one. unfold Rdiv. rewrite Rinv_1, Rmult_1_r. apply Rmult_lt_0_compat; tauto.
  - destruct (c124_zheng_integer_satellites flag Mmin M1 alpha M0 sig [m]) as [w [W E]]. rewrite E. cbn [map].
    assert (T : w m = 0). { apply (drops_unique _ _ _ (W m)). change (satellite_occupation (Zheng05 false Mmin M1 alpha M0 sig) m) with (zheng_so M1 alpha M0 m). rewrite <- (trunc_small (zheng_so M1 alpha M0 m)) by (rewrite Rabs_pos_eq; lra). apply trunc_drops. }
    rewrite T. destruct flag; [rewrite Rmult_0_r|]; reflexivity.
Qed.
Print Assumptions c124_zheng_integer_none_below_M1_refuted.
(** Spinelli19: the satellite number counts of a halo below M_1_counts are infinite *)
Theorem c124_spinelli_integer_counts_refuted : forall p m, 0 < sp_alpha_counts p -> 10 ^ 11 <= m -> pow10 (sp_Mmin_counts p) <= m <= pow10 (sp_Mmax_counts p) -> m < pow10 (sp_M1_counts p) ->
  nsA (class_arrays false (CSpinelli p)) (Arr DInt [m]) = Ok [PInf] /\
  exists v, 0 < v /\ nsA (class_arrays false (CSpinelli p)) (Arr DFloat [m]) = Ok [Fin v].
Proof.
  intros p m Ha Hm [Hl Hh] H1. assert (M : 0 < m) by (assert (P := pow_lt 10 11 ltac:(lra)); lra).
  assert (IN : spinelli_in p m = true) by (unfold spinelli_in; rewrite (proj2 (Rleb_spec _ _) Hl), (proj2 (Rleb_spec _ _) Hh); reflexivity).
  assert (P1 := pow10_pos (sp_M1_counts p)).
  assert (X : 0 < m / pow10 (sp_M1_counts p) < 1). { split; [apply Rdiv_lt_0_compat; lra|]. apply (Rmult_lt_reg_r (pow10 (sp_M1_counts p))); [lra|]. unfold Rdiv. rewrite Rmult_assoc, Rinv_l by lra. lra. }
  assert (TP : 0 < spinelli_tps p m < 1). { unfold spinelli_tps. rewrite IN. split; [apply exp_pos|]. unfold Rpower. rewrite <- exp_0. apply exp_increasing. assert (ln (m / pow10 (sp_M1_counts p)) < 0) by (rewrite <- ln_1; apply ln_increasing; lra). nra. }
  assert (SO : 0 < spinelli_so p m). { unfold spinelli_so. cbv zeta. rewrite (proj2 (Rleb_spec _ _) Hm). unfold b2R. rewrite Rmult_1_r. repeat apply Rmult_lt_0_compat; try apply exp_pos; apply pow10_pos. }
  split.
  - unfold nsA, satA. destruct (arr_blocks false (CSpinelli p) DInt [m]) as (_ & Iso & _ & Its). change (A_flag (class_arrays false (CSpinelli p))) with false. cbn [andb]. rewrite Iso, Its. unfold rmap; cbn [bind map]. unfold map2; cbn [combine map fst snd fdiv].
    unfold so_cast, tps_cast. cbn [class_hod h_so h_tps Spinelli19 cast]. rewrite (trunc_small (spinelli_tps p m)) by (rewrite Rabs_pos_eq; lra).
    unfold np_div. rewrite (proj2 (Reqb_spec 0 0) eq_refl). destruct (Reqb (spinelli_so p m) 0) eqn:Z; [apply Reqb_spec in Z; lra|]. rewrite (proj2 (Rltb_spec _ _) SO). reflexivity.
  - exists (spinelli_so p m / spinelli_tps p m). split; [apply Rdiv_lt_0_compat; lra|].
    unfold nsA, satA. destruct (arr_blocks false (CSpinelli p) DFloat [m]) as (_ & Iso & _ & Its). change (A_flag (class_arrays false (CSpinelli p))) with false. cbn [andb]. rewrite Iso, Its. unfold rmap; cbn [bind map]. unfold map2; cbn [combine map fst snd fdiv].
    unfold so_cast, tps_cast. cbn [class_hod h_so h_tps Spinelli19 cast]. rewrite np_div_fin by lra. reflexivity.
Qed.
Print Assumptions c124_spinelli_integer_counts_refuted.
(** C76 for arrays of masses: with the central condition, the satellite counts of a halo outside the counts range are infinite from 10^11 on and NaN below *)
Theorem c76_spinelli_counts_array : forall p m, 0 < m -> 0 <= sp_a1 p -> 0 < sp_a2 p -> ~ (pow10 (sp_Mmin_counts p) <= m <= pow10 (sp_Mmax_counts p)) ->
  (10 ^ 11 <= m -> satA (class_arrays true (CSpinelli p)) (Arr DFloat [m]) = Ok [PInf] /\ nsA (class_arrays true (CSpinelli p)) (Arr DFloat [m]) = Ok [PInf]) /\
  (m < 10 ^ 11 -> satA (class_arrays true (CSpinelli p)) (Arr DFloat [m]) = Ok [NaN] /\ nsA (class_arrays true (CSpinelli p)) (Arr DFloat [m]) = Ok [NaN]).
Proof.
  intros p m Hm A1 A2 Out. destruct (c76_spinelli_not_finite p m Hm A1 A2 Out) as (NC & LOW & HIGH).
  assert (SA : satA (class_arrays true (CSpinelli p)) (Arr DFloat [m]) = Ok [spinelli_sat_float p m]).
  { unfold satA. destruct (arr_blocks true (CSpinelli p) DFloat [m]) as (Ico & Iso & Itc & Its). change (A_flag (class_arrays true (CSpinelli p)) && negb (A_inherent (class_arrays true (CSpinelli p))))%bool with true. cbv iota. unfold ncA. rewrite Ico, Iso, Itc. cbn [bind map]. unfold map2; cbn [combine map fst snd].
    reflexivity. }
  assert (T : A_tps (class_arrays true (CSpinelli p)) (Arr DFloat [m]) = Ok [0]).
  { destruct (arr_blocks true (CSpinelli p) DFloat [m]) as (_ & _ & _ & Its). rewrite Its. cbn [map]. f_equal. f_equal. unfold tps_cast. cbn [class_hod h_tps Spinelli19 cast]. unfold spinelli_tps. destruct (spinelli_in p m) eqn:X; [|reflexivity].
    exfalso. apply Out. unfold spinelli_in in X. apply andb_true_iff in X. destruct X as [X Y]. apply Rleb_spec in X. apply Rleb_spec in Y. auto. }
  split; intros L; (split; [rewrite SA|unfold nsA; rewrite SA, T; cbn [bind]; unfold map2; cbn [combine map fst snd]]); rewrite ?(HIGH L), ?(LOW L); try reflexivity.
  cbn [fdiv]. replace (Rltb 0 0) with false by (symmetry; apply Rltb_false; lra). reflexivity.
Qed.
Print Assumptions c76_spinelli_counts_array.

(** Ludlow16: with integer masses every concentration is a whole multiple of norm, and is the float answer only then *)
Lemma sequence_map : forall {A B} (f : A -> res B) l vs, sequence (map f l) = Ok vs <-> Forall2 (fun a v => f a = Ok v) l vs.
Proof.
  intros A B f l. induction l as [|a l IH]; intros vs; cbn [map sequence].
  - split; [intros H; injection H as <-; constructor|intros H; inversion H; reflexivity].
  - split.
    + destruct (f a) as [v|e] eqn:E; cbn [bind]; [|discriminate]. unfold rmap. destruct (sequence (map f l)) as [ws|e] eqn:S; cbn [bind]; [|discriminate].
      intros H. injection H as <-. constructor; [exact E|]. now apply IH.
    + intros H. inversion H as [|x y l1 l2 E H2]; subst. rewrite E. cbn [bind]. apply IH in H2. rewrite H2. reflexivity.
Qed.
Theorem c124_ludlow_integer_masses : forall E norm f C ms z cs, ludlow16_array E norm f C DFloat ms z = Ok cs ->
  exists ws, ludlow16_array E norm f C DInt ms z = Ok ws /\ Forall2 (fun c w => exists c0 w0, c = norm * c0 /\ w = norm * w0 /\ drops_fraction c0 w0) cs ws.
Proof.
  intros E norm f C ms z cs H. unfold ludlow16_array in *. destruct (sequence (map (fun m => lud_eq7 E f C m z) ms)) as [vs|e]; [|discriminate]. unfold rmap in *. cbn [bind] in *. injection H as <-.
  eexists. split; [reflexivity|]. induction vs as [|v vs IH]; cbn [map]; constructor; [|exact IH]. exists v, (trunc v). repeat split; try apply trunc_drops.
Qed.
Print Assumptions c124_ludlow_integer_masses.
Theorem c124_ludlow_float_masses : forall E norm f C ms z cs, ludlow16_array E norm f C DFloat ms z = Ok cs <-> Forall2 (fun m c => ludlow16 E norm f C m z = Ok c) ms cs.
Proof.
  intros E norm f C ms z cs. unfold ludlow16_array, ludlow16. split.
  - destruct (sequence (map (fun m => lud_eq7 E f C m z) ms)) as [vs|e] eqn:S; [|discriminate]. intros H. injection H as <-. apply sequence_map in S.
    induction S as [|m v ms vs A B IH]; cbn [map]; constructor; [|exact IH]. rewrite A. reflexivity.
  - intros H. assert (X : exists vs, Forall2 (fun m v => lud_eq7 E f C m z = Ok v) ms vs /\ cs = map (fun v => norm * v) vs).
    { induction H as [|m c ms cs A B IH]; [exists []; split; [constructor|reflexivity]|]. destruct IH as [vs [V ->]]. destruct (lud_eq7 E f C m z) as [v|e] eqn:L; [|discriminate]. injection A as <-. exists (v :: vs). split; [now constructor|reflexivity]. }
    destruct X as [vs [V ->]]. apply sequence_map in V. rewrite V. reflexivity.
Qed.
Print Assumptions c124_ludlow_float_masses.

(** projected correlation at integer separations *)
Theorem c124_projected_integer_separations : forall fit r xir rl rp i, (i < List.length rp)%nat ->
  match IntegrateCorr.projected_at fit r xir rl rp i with
  | IntegrateCorr.ProjOk v => nth i (projected_array fit r xir rl DFloat rp) None = Some v /\
      exists w, drops_fraction v w /\ nth i (projected_array fit r xir rl DInt rp) None = Some w
  | _ => nth i (projected_array fit r xir rl DFloat rp) None = None /\ nth i (projected_array fit r xir rl DInt rp) None = None
  end.
Proof.
  intros fit r xir rl rp i Hi. unfold projected_array.
  assert (N : forall d, nth i (map (fun i0 => option_map (cast d) (projected_value (IntegrateCorr.projected_at fit r xir rl rp i0))) (seq 0 (List.length rp))) None
     = option_map (cast d) (projected_value (IntegrateCorr.projected_at fit r xir rl rp i))).
  { intros d. rewrite (nth_indep _ None ((fun i0 => option_map (cast d) (projected_value (IntegrateCorr.projected_at fit r xir rl rp i0))) 0%nat)) by (rewrite map_length, seq_length; exact Hi).
    rewrite (map_nth (fun i0 => option_map (cast d) (projected_value (IntegrateCorr.projected_at fit r xir rl rp i0)))), seq_nth by exact Hi. reflexivity. }
  rewrite !N. destruct (IntegrateCorr.projected_at fit r xir rl rp i) as [v| |]; cbn [projected_value option_map cast]; [|split; reflexivity..].
  split; [reflexivity|]. exists (trunc v). split; [apply trunc_drops|reflexivity].
Qed.
Print Assumptions c124_projected_integer_separations.

(** NFW self-convolution and numerical Fourier transforms at integer arguments in units of the scale radius *)
Theorem c124_nfw_lam_float : forall s o x m norm c, nfw_lam_x s o DFloat x m norm c = nfw_lam_arr s o x m norm c "x".
Proof.
  intros. unfold nfw_lam_x, nfw_lam_arr. destruct (get_r_arr s o x m c "x") as [[[c0 r_s] x0]|e]; cbn [bind]; [|reflexivity].
  destruct (nfw_l_arr x0 c0) as [l|e]; [|reflexivity]. unfold rmap; cbn [bind]. assert (L : amap (cast DFloat) l = l) by (destruct l; reflexivity). rewrite L. reflexivity.
Qed.
(** one radius per column, in units of the scale radius of one halo: float and integer arrays give the same multiple of the
    dimensionless convolution and of its whole part *)
Theorem c124_nfw_lam_integer : forall s o n X m c norm, 0 < c -> norm = None \/ norm = Some "m"%string ->
  exists K a b, nfw_lam_x s o DFloat (v1 n X) (sc m) norm (Some (sc c)) = Ok a /\ nfw_lam_x s o DInt (v1 n X) (sc m) norm (Some (sc c)) = Ok b /\
    is_table a 1 n (fun _ j => nfw_l (X j) c * K) /\
    exists w, (forall j, drops_fraction (nfw_l (X j) c) (w j)) /\ is_table b 1 n (fun _ j => w j * K).
Proof.
  intros s o n X m c norm Hc Hn.
  assert (LC := like_sc c). assert (LX := like_v1 n X).
  destruct (nfw_l_like (v1 n X) (sc c) 0 1 1 1 n (fun _ => c) (fun _ j => X j) LC ltac:(lia) LX (bdim_1r n) (or_intror (conj (le_n 1) eq_refl)) (fun _ _ => Hc)) as [l [El Ll]].
  set (rs := rs_el s o m c).
  assert (A : exists a, rho_s_arr s o (sc c) (mkArr 0 1 1 (fun _ _ => rs)) norm = Ok (sc a)) by (destruct Hn as [-> | ->]; eexists; reflexivity).
  destruct A as [a EA]. exists (rs ^ 3 * a ^ 2).
  assert (G : forall d, exists t, nfw_lam_x s o d (v1 n X) (sc m) norm (Some (sc c)) = Ok t /\ is_table t 1 n (fun _ j => cast d (nfw_l (X j) c) * (rs ^ 3 * a ^ 2))).
  { intros d. assert (LL := like_map (cast d) _ _ _ _ _ Ll).
    destruct (like_ufunc2 (fun l r_s => l * r_s ^ 3) _ _ _ _ _ _ _ _ _ _ _ _ LL (like_sc rs) (bdim_refl 1) (bdim_1r n)) as [lr [E2 L2]].
    destruct (like_ufunc2 (fun lr a => lr * a ^ 2) _ _ _ _ _ _ _ _ _ _ _ _ L2 (like_sc a) (bdim_refl 1) (bdim_1r n)) as [t [E4 L4]].
    exists (reduce t). split.
    - unfold nfw_lam_x, get_r_arr. cbn [conc_of]. change (ufunc2 (rs_el s o) (sc m) (sc c)) with (Ok (mkArr 0 1 1 (fun _ _ => rs))). cbn [bind]. change (("x" =? "r")%string) with false. change (("x" =? "x")%string) with true. cbv iota. cbn [bind].
      change (sc rs) with (mkArr 0 1 1 (fun _ _ => rs)) in E2.
      destruct Hn as [-> | ->]; rewrite El; unfold rmap at 1; cbn [bind]; rewrite E2; cbn [bind]; rewrite EA; cbn [bind]; rewrite E4; reflexivity.
    - eapply table_ext; [exact (like_reduce _ _ _ _ _ L4)|]. intros i j Hi Hj. cbv beta. rewrite !(bidx_lt n j Hj). ring. }
  destruct (G DFloat) as [t [Et Lt]]. destruct (G DInt) as [t' [Et' Lt']]. exists t, t'. split; [exact Et|]. split; [exact Et'|]. split; [exact Lt|].
  exists (fun j => trunc (nfw_l (X j) c)). split; [intros; apply trunc_drops|exact Lt'].
Qed.
Print Assumptions c124_nfw_lam_integer.
(** the numerical transform at integer kappa: a table with one row per kappa and one column per halo *)
Theorem c124_kappa_integer : forall s o quad argsort spl n p K c m norm P, (forall j, (j < p)%nat -> s_h s (c j) <> 0) -> norm = Some "m"%string ->
  numeric_p_arr quad argsort spl (m2 n p K) (v1 p c) = Ok P ->
  exists a b, u_kappa s o quad argsort spl DFloat (m2 n p K) (v1 p m) norm (Some (v1 p c)) = Ok a /\ u_kappa s o quad argsort spl DInt (m2 n p K) (v1 p m) norm (Some (v1 p c)) = Ok b /\
    u_arr s o quad argsort spl true (m2 n p K) (v1 p m) norm (Some (v1 p c)) "kappa" = Ok a /\
    is_table a n p (fun i j => ent P i j / s_h s (c j)) /\
    exists w, (forall i j, drops_fraction (ent P i j) (w i j)) /\ is_table b n p (fun i j => w i j / s_h s (c j)).
Proof.
  intros s o quad argsort spl n p K c m norm P Hh -> HP.
  assert (SP : rank P = 2%nat /\ rows P = n /\ cols P = p).
  { revert HP. unfold numeric_p_arr. cbn [atleast_1d rank rows cols m2 v1 Nat.ltb Nat.leb bind]. rewrite Nat.eqb_refl. cbv zeta. destruct (_ || _); [discriminate|]. intros H. injection H as <-. repeat split. }
  assert (LP : like P 2 n p (ent P)) by (destruct SP as (A & B & C); repeat split; auto).
  assert (LH := like_map (s_h s) _ _ _ _ _ (like_v1 p c)).
  assert (RS : exists ra, ufunc2 (rs_el s o) (v1 p m) (v1 p c) = Ok ra) by (unfold ufunc2; cbn [rows cols v1]; rewrite !bdim_refl; eexists; reflexivity). destruct RS as [ra ER].
  assert (G : forall d, exists t, u_kappa s o quad argsort spl d (m2 n p K) (v1 p m) (Some "m"%string) (Some (v1 p c)) = Ok t /\ is_table t n p (fun i j => cast d (ent P i j) / s_h s (c j)) /\
     (d = DFloat -> u_arr s o quad argsort spl true (m2 n p K) (v1 p m) (Some "m"%string) (Some (v1 p c)) "kappa" = Ok t)).
  { intros d. assert (LL := like_map (cast d) _ _ _ _ _ LP).
    destruct (like_ufunc2 Rdiv _ _ _ _ _ _ _ _ _ _ _ _ LL LH (bdim_1r n) (bdim_refl p)) as [u [E2 L2]].
    exists (reduce u). split; [|split].
    - unfold u_kappa, get_k_arr. cbn [conc_of]. rewrite ER. cbn [bind]. change (("kappa" =? "k")%string) with false. change (("kappa" =? "kappa")%string) with true. cbv iota. cbn [bind]. rewrite HP. unfold rmap at 1; cbn [bind]. rewrite E2. reflexivity.
    - eapply table_ext; [exact (like_reduce _ _ _ _ _ L2)|]. intros i j Hi Hj. cbv beta. rewrite !(bidx_lt p j Hj), (bidx_lt n i Hi). reflexivity.
    - intros ->. unfold u_arr, get_k_arr. cbn [conc_of]. rewrite ER. cbn [bind]. change (("kappa" =? "k")%string) with false. change (("kappa" =? "kappa")%string) with true. cbv iota. cbn [bind]. rewrite HP. cbn [bind].
      assert (L : amap (cast DFloat) P = P) by (destruct P; reflexivity). rewrite L in E2. rewrite E2. reflexivity. }
  destruct (G DFloat) as [t [Et [Lt Ut]]]. destruct (G DInt) as [t' [Et' [Lt' _]]]. exists t, t'. split; [exact Et|]. split; [exact Et'|]. split; [now apply Ut|]. split; [exact Lt|].
  exists (fun i j => trunc (ent P i j)). split; [intros; apply trunc_drops|exact Lt'].
Qed.
Print Assumptions c124_kappa_integer.

(** Non-vacuity: haloes of 50 in a Zheng05 with M_0 = 1, M_1 = 100 have 0.49 satellites; an integer array loses them *)
Example c124_ex : pow10 0 < 50 < pow10 0 + pow10 2 /\ satA (class_arrays true (CZheng 1 2 1 0 1)) (Arr DInt [50]) = Ok [Fin 0] /\
  whole (satellite_occupation (Zheng05 false 1 2 1 0 1) 201) /\ ~ whole (satellite_occupation (Zheng05 false 1 2 1 0 1) 50).
Proof.
  assert (P0 : pow10 0 = 1) by (unfold pow10, Rpower; rewrite Rmult_0_l; apply exp_0).
  assert (P2 : pow10 2 = 100). { unfold pow10. replace 2 with (INR 2) by (simpl; lra). rewrite Rpower_pow by lra. simpl. lra. }
  assert (H : pow10 0 < 50 < pow10 0 + pow10 2) by (rewrite P0, P2; lra). split; [exact H|]. split; [apply c124_zheng_integer_none_below_M1_refuted; [lra|exact H]|].
  assert (S : forall m, 1 < m -> satellite_occupation (Zheng05 false 1 2 1 0 1) m = (m - 1) / 100).
  { intros m Hm. change (satellite_occupation (Zheng05 false 1 2 1 0 1) m) with (zheng_so 2 1 0 m). unfold zheng_so. rewrite P0, P2, (proj2 (Rltb_spec _ _) Hm). apply Rpower_1. apply Rdiv_lt_0_compat; lra. }
  rewrite !S by lra. split; [exists 2%Z; lra|]. intros [z Hz]. assert (A : (0 < z < 1)%Z) by (split; apply lt_IZR; lra). lia.
Qed.

(** * C125: a plain number as mass *)
(** every discrete model accepts a plain number in its central occupation; the satellites of Zheng05 and the satellite counts of
    Spinelli19 do not *)
Theorem c125_plain_number : forall flag c m, let A := class_arrays flag c in let h := class_hod flag c in
  h_tpc h m <> 0 -> h_tps h m <> 0 ->
  centralA A (Num m) = Ok [Fin (central_occupation h m)] /\ ncA A (Num m) = Ok [Fin (nc h m)] /\
  satA A (Num m) = (if zheng_class c then Raise TypeError else Ok [Fin (satellite_occupation h m)]) /\
  totalA A (Num m) = (if zheng_class c then Raise TypeError else Ok [Fin (total_occupation h m)]) /\
  nsA A (Num m) = (if zheng_class c || spinelli_class c then Raise TypeError else Ok [Fin (ns h m)]).
Proof.
  intros flag c m A h Htc Hts. destruct (class_facts flag c) as (K & F & AF & AI & SO & TS). fold A h in K, F, AF, AI, SO, TS.
  assert (Eco : A_co A (Num m) = Ok [h_co h m]).
  { unfold A, h. destruct c; cbn [class_arrays class_hod A_co h_co Zehavi05 Zheng05 Contreras13 Tinker05 Zehavi05WithMax Zehavi05Marked Spinelli19 poisson_hod]; try reflexivity. }
  assert (Etc : A_tpc A (Num m) = Ok [h_tpc h m]) by (unfold A, h; destruct c; reflexivity).
  assert (Eso : A_so A (Num m) = if zheng_class c then Raise TypeError else Ok [h_so h m]).
  { unfold A, h. destruct c; cbn [class_arrays class_hod A_so h_so Zehavi05 Zheng05 Contreras13 Tinker05 Zehavi05WithMax Zehavi05Marked Spinelli19 poisson_hod zheng_class]; try reflexivity.
    - unfold times, fill_const, ufun, map2. cbn [bind masses map combine fst snd]. unfold tinker_so, tinker_rest, zehavi_co. cbv zeta. do 2 f_equal. ring. }
  assert (Ets : A_tps A (Num m) = if spinelli_class c then Raise TypeError else Ok [h_tps h m]) by (unfold A, h; destruct c; reflexivity).
  assert (N : ncA A (Num m) = Ok [Fin (nc h m)]). { unfold ncA. rewrite Eco, Etc. cbn [bind]. unfold map2; cbn [combine map fst snd]. rewrite np_div_fin by exact Htc. unfold nc, central_occupation. now rewrite K. }
  assert (S : satA A (Num m) = if zheng_class c then Raise TypeError else Ok [Fin (satellite_occupation h m)]).
  { unfold satA, satellite_occupation, h_central. rewrite K, F, AF, AI. destruct (flag && negb (h_inherent h)).
    - rewrite N, Eso. cbn [bind]. destruct (zheng_class c); cbn [bind]; reflexivity.
    - rewrite Eso. destruct (zheng_class c); reflexivity. }
  split; [unfold centralA; rewrite Eco; unfold central_occupation; rewrite K; reflexivity|]. split; [exact N|]. split; [exact S|]. split.
  - unfold totalA. rewrite Eco, S. cbn [bind]. destruct (zheng_class c); cbn [bind]; [reflexivity|]. unfold total_occupation, central_occupation. rewrite K. reflexivity.
  - unfold nsA. rewrite S. destruct (zheng_class c); cbn [bind orb]; [reflexivity|]. rewrite Ets. destruct (spinelli_class c); cbn [bind]; [reflexivity|]. unfold map2; cbn [combine map fst snd fdiv]. rewrite np_div_fin by exact Hts. unfold ns. now rewrite K.
Qed.
Print Assumptions c125_plain_number.
(** on the classes that accept it, a plain number is a one-element float array *)
Theorem c125_number_is_singleton : forall flag c m, let A := class_arrays flag c in zheng_class c = false ->
  centralA A (Num m) = centralA A (Arr DFloat [m]) /\ satA A (Num m) = satA A (Arr DFloat [m]) /\ ncA A (Num m) = ncA A (Arr DFloat [m]) /\ totalA A (Num m) = totalA A (Arr DFloat [m]) /\
  (spinelli_class c = false -> nsA A (Num m) = nsA A (Arr DFloat [m])).
Proof.
  intros flag c m A Z. unfold A. clear A.
  assert (FC : forall mask i v, fill_const mask i v (Num m) = fill_const mask i v (Arr DFloat [m])) by (intros; rewrite fill_const_arr; reflexivity).
  assert (U : forall f, ufun f (Num m) = ufun f (Arr DFloat [m])) by reflexivity.
  assert (B : A_co (class_arrays flag c) (Num m) = A_co (class_arrays flag c) (Arr DFloat [m]) /\ A_so (class_arrays flag c) (Num m) = A_so (class_arrays flag c) (Arr DFloat [m]) /\ A_tpc (class_arrays flag c) (Num m) = A_tpc (class_arrays flag c) (Arr DFloat [m]) /\
     (spinelli_class c = false -> A_tps (class_arrays flag c) (Num m) = A_tps (class_arrays flag c) (Arr DFloat [m]))).
  { destruct c; try discriminate Z; cbn [class_arrays A_co A_so A_tpc A_tps spinelli_class]; unfold times; rewrite ?FC, ?U; repeat split; try discriminate. }
  destruct B as (B1 & B2 & B3 & B4).
  assert (N : ncA (class_arrays flag c) (Num m) = ncA (class_arrays flag c) (Arr DFloat [m])) by (unfold ncA; now rewrite B1, B3).
  assert (S : satA (class_arrays flag c) (Num m) = satA (class_arrays flag c) (Arr DFloat [m])) by (unfold satA; now rewrite N, B2).
  split; [unfold centralA; now rewrite B1|]. split; [exact S|]. split; [exact N|]. split; [unfold totalA; now rewrite B1, S|]. intros P. unfold nsA. now rewrite S, B4.
Qed.
Print Assumptions c125_number_is_singleton.
Example c125_ex : h_tpc (class_hod true (CZheng 1 2 1 0 1)) 50 <> 0 /\ satA (class_arrays true (CZheng 1 2 1 0 1)) (Num 50) = Raise TypeError /\ zheng_class (CZehavi 1 2 1) = false.
Proof. split; [cbn; unfold one; lra|]. split; [|reflexivity]. apply (c125_plain_number true (CZheng 1 2 1 0 1) 50); cbn; unfold one; lra. Qed.
Example c124_ex_ludlow : exists E ms cs, List.length ms = 2%nat /\ ludlow16_array E 1 1 650 DFloat ms 0 = Ok cs.
Proof.
  destruct LudlowProps.c87_solution_exists as [E [_ [_ H]]]. destruct (H 1 1 1) as [c1 H1]. destruct (H 1 2 1) as [c2 H2].
  exists E, [1; 2], [c1; c2]. split; [reflexivity|]. apply c124_ludlow_float_masses. repeat constructor; assumption.
Qed.
Example c124_ex_kappa : exists P, numeric_p_arr (fun _ a b => b - a) (fun _ => [0%nat]) (fun _ ys _ => nth 0 ys 0) (m2 2 1 (fun i _ => INR i + 1)) (v1 1 (fun _ => 5)) = Ok P.
Proof.
  unfold numeric_p_arr. cbn [atleast_1d rank rows cols m2 v1 Nat.ltb Nat.leb bind Nat.eqb]. cbv zeta. fold (m2 2 1 (fun i _ => INR i + 1)).
  assert (A : aall (Rltb 0) (m2 2 1 (fun i _ => INR i + 1)) = true).
  { unfold aall, m2. cbn [rows cols ent seq forallb]. simpl INR. rewrite !(proj2 (Rltb_spec _ _)) by lra. reflexivity. }
  assert (F : flat (m2 2 1 (fun i _ => INR i + 1)) = [0 + 1; 1 + 1]) by reflexivity.
  assert (L : Rltb (lmin (flat (m2 2 1 (fun i _ => INR i + 1)))) (lmax (flat (m2 2 1 (fun i _ => INR i + 1)))) = true).
  { apply Rltb_spec. rewrite F. assert (B := lmin_lb [0 + 1; 1 + 1] (0 + 1) ltac:(now left)). assert (C := lmax_ub [0 + 1; 1 + 1] (1 + 1) ltac:(now right; left)). lra. }
  rewrite A, L. eexists. reflexivity.
Qed.
