(** C54, C55, C67, C89: warm dark matter. *)
From Coq Require Import Reals Lra Lia Bool Psatz String List.
From Coquelicot Require Import Coquelicot.
From Verif Require Import Model.RBool Model.SpecialFn Model.HODFloat Model.Profiles Model.Concentration Model.WDM Proofs.Calc Proofs.BiasProofs Props.ConcProps.
Import ListNotations.
Local Open Scope R_scope.

(** ** C54 *)
Lemma rp1 : forall y, Rpower 1 y = 1.
Proof. intros. unfold Rpower. rewrite ln_1, Rmult_0_r, exp_0. reflexivity. Qed.
Lemma wdm_z0 : forall base g1 g2 b0 b1 m_hm m, wdm_cm base g1 g2 b0 b1 m_hm m 0 = base * Rpower (1 + g1 * m_hm / m) (- g2).
Proof. intros. unfold wdm_cm. rewrite Rplus_0_r, rp1. ring. Qed.
Lemma wdm_base_ge1 : forall g1 m_hm m, 0 <= g1 -> 0 <= m_hm -> 0 < m -> 1 <= 1 + g1 * m_hm / m.
Proof. intros. assert (0 <= g1 * m_hm / m); [|lra]. apply Rmult_le_pos; [now apply Rmult_le_pos|left; now apply Rinv_0_lt_compat]. Qed.
Theorem c54_never_above_base : forall base g1 g2 b0 b1 m_hm m, 0 < base -> 0 <= g1 -> 0 <= g2 -> 0 <= m_hm -> 0 < m ->
  0 < wdm_cm base g1 g2 b0 b1 m_hm m 0 <= base.
Proof.
  intros base g1 g2 b0 b1 mh m Hb H1 H2 H3 Hm. rewrite wdm_z0. assert (P := rp_pos (1 + g1 * mh / m) (- g2)). split; [now apply Rmult_lt_0_compat|].
  assert (Rpower (1 + g1 * mh / m) (- g2) <= 1); [|nra].
  assert (B := wdm_base_ge1 g1 mh m H1 H3 Hm). apply Rle_trans with (Rpower (1 + g1 * mh / m) 0); [apply Rle_Rpower; lra|rewrite Rpower_O; lra].
Qed.
Theorem c54_factor_rises_with_mass : forall base g1 g2 b0 b1 m_hm m1 m2, 0 < base -> 0 < g1 -> 0 < g2 -> 0 < m_hm -> 0 < m1 < m2 ->
  wdm_cm base g1 g2 b0 b1 m_hm m1 0 < wdm_cm base g1 g2 b0 b1 m_hm m2 0.
Proof.
  intros base g1 g2 b0 b1 mh m1 m2 Hb H1 H2 H3 Hm. rewrite !wdm_z0. apply Rmult_lt_compat_l; auto. apply rp_dec; [|lra].
  assert (0 < g1 * mh) by now apply Rmult_lt_0_compat. assert (/ m2 < / m1) by (apply Rinv_lt_contravar; [apply Rmult_lt_0_compat|]; lra). assert (0 < / m2) by (apply Rinv_0_lt_compat; lra). unfold Rdiv. split; nra.
Qed.
Theorem c54_massive_haloes_unaffected : forall base g1 g2 b0 b1 m_hm, 0 <= g1 -> 0 <= m_hm -> is_lim (fun m => wdm_cm base g1 g2 b0 b1 m_hm m 0) p_infty base.
Proof.
  intros base g1 g2 b0 b1 mh H1 H3.
  apply (is_lim_ext (fun m => base * exp (- g2 * ln (1 + g1 * mh * / m)))); [intros; rewrite wdm_z0; reflexivity|].
  replace (Finite base) with (Rbar_mult base (exp (- g2 * ln (1 + g1 * mh * 0)))) by (rewrite Rmult_0_r, Rplus_0_r, ln_1, Rmult_0_r, exp_0; simpl; f_equal; ring).
  apply is_lim_scal_l. apply (is_lim_comp (fun x => exp (- g2 * ln (1 + g1 * mh * x))) Rinv p_infty _ 0).
  - apply (is_lim_continuity (fun x => exp (- g2 * ln (1 + g1 * mh * x))) 0). apply continuity_pt_filterlim. apply (ex_derive_continuous (fun x => exp (- g2 * ln (1 + g1 * mh * x)))). auto_derive. rewrite Rmult_0_r. lra.
  - replace (Finite 0) with (Rbar_inv p_infty) by reflexivity. apply is_lim_inv; [apply is_lim_id|discriminate].
  - exists 0. intros y Hy K. injection K as K. assert (0 < / y) by now apply Rinv_0_lt_compat. lra.
Qed.
Theorem c54_zero_half_mode_mass : forall base g1 g2 b0 b1 m, 0 < m -> wdm_cm base g1 g2 b0 b1 0 m 0 = base.
Proof. intros. rewrite wdm_z0. replace (1 + g1 * 0 / m) with 1 by (field; lra). rewrite rp1. ring. Qed.
(** finding: at z > beta1/beta0 (1.54 for the defaults) massive haloes are MORE concentrated than in CDM *)
Theorem c54_any_redshift_refuted : forall base g1 g2 b0 b1 m_hm z, 0 < base -> 0 <= g1 -> 0 <= m_hm -> 0 < b0 -> b1 / b0 < z -> 0 < z ->
  exists M, 0 < M /\ forall m, M < m -> base < wdm_cm base g1 g2 b0 b1 m_hm m z.
Proof.
  intros base g1 g2 b0 b1 mh z Hb H1 H3 H0 Hz Hz0.
  assert (E : 0 < b0 * z - b1). { apply (Rmult_lt_compat_l b0) in Hz; auto. replace (b0 * (b1 / b0)) with b1 in Hz by (field; lra). lra. }
  set (Z := Rpower (1 + z) (b0 * z - b1)). assert (HZ : 1 < Z). { unfold Z. apply Rle_lt_trans with (Rpower (1 + z) 0); [rewrite Rpower_O; lra|apply Rpower_lt; lra]. }
  assert (L := c54_massive_haloes_unaffected base g1 g2 b0 b1 mh H1 H3).
  apply is_lim_spec in L. assert (P : 0 < base * (1 - / Z)). { apply Rmult_lt_0_compat; auto. assert (/ Z < 1) by (rewrite <- Rinv_1; apply Rinv_lt_contravar; lra). lra. }
  destruct (L (mkposreal _ P)) as [M HM]. exists (Rmax 1 M). split; [eapply Rlt_le_trans; [|apply Rmax_l]; lra|]. intros m Hm.
  assert (M < m) by (eapply Rle_lt_trans; [apply Rmax_r|exact Hm]). specialize (HM m H). simpl in HM. apply Rabs_def2 in HM. destruct HM as [_ HM].
  rewrite wdm_z0 in HM. unfold wdm_cm. fold Z. set (q := base * Rpower (1 + g1 * mh / m) (- g2)) in *. clearbody q.
  assert (base * / Z < q) by lra. apply (Rmult_lt_compat_r Z) in H2; [|lra]. rewrite Rmult_assoc, Rinv_l in H2 by lra. lra.
Qed.
Example c54_nonvacuous : 0.04 / 0.026 < 2.
Proof. apply Rmult_lt_reg_r with 0.026; [lra|]. unfold Rdiv. rewrite Rmult_assoc, Rinv_l by lra. lra. Qed.

(** ** C55 *)
Local Open Scope string_scope.
(** the four parameters of the rescaling and their values *)
Definition wdm_items : list (string * R) := [("g1", 60); ("g2", 0.17); ("beta0", 0.026); ("beta1", 0.04)].
Lemma step_cls : forall fuel w n, w_cls (wdm_step fuel w n) = w_cls w.
Proof. intros. unfold wdm_step, wdm_factory. destruct (lookup_defaults _ _ _); reflexivity. Qed.
Lemma lookup_cls : forall fuel w w' n, w_cls w = w_cls w' -> lookup_defaults fuel w n = lookup_defaults fuel w' n.
Proof. induction fuel as [|k IH]; intros w w' n E; simpl; auto. rewrite E. destruct (w_cls w' n) as [c|]; auto. destruct (c_own c); auto. destruct (c_base c); auto. Qed.
Lemma lookup_step : forall fuel w n x, lookup_defaults fuel (wdm_step fuel w n) x = lookup_defaults fuel w x.
Proof. intros. apply lookup_cls, step_cls. Qed.
Lemma lookup_run : forall fuel names w x, lookup_defaults fuel (wdm_run fuel w names) x = lookup_defaults fuel w x.
Proof. intros fuel names. induction names as [|n t IH]; intros w x; simpl; auto. unfold wdm_run in *. simpl. rewrite IH. apply lookup_step. Qed.
Lemma items_in : forall k v, In (k, v) wdm_items -> forall d, dset (dset (dset (dset d "g1" 60) "g2" 0.17) "beta0" 0.026) "beta1" 0.04 k = Some v.
Proof. intros k v H d. simpl in H. repeat destruct H as [H|H]; try (injection H as <- <-; reflexivity). destruct H. Qed.
Lemma step_heap : forall fuel w n d, (lookup_defaults fuel w (strip_wdm n) = Some d -> forall k v, In (k, v) wdm_items -> w_heap (wdm_step fuel w n) d k = Some v) /\
  (lookup_defaults fuel w (strip_wdm n) <> Some d -> forall k, w_heap (wdm_step fuel w n) d k = w_heap w d k) /\
  (forall k, ~ In k (map fst wdm_items) -> w_heap (wdm_step fuel w n) d k = w_heap w d k).
Proof.
  intros fuel w n d. unfold wdm_step, wdm_factory. destruct (lookup_defaults fuel w (strip_wdm n)) as [d'|] eqn:E.
  - simpl. unfold heap_set. repeat split.
    + intros H k v Hk. injection H as ->. rewrite Nat.eqb_refl. now apply items_in.
    + intros H k. destruct (Nat.eqb_spec d d'); [subst; congruence|reflexivity].
    + intros k Hk. destruct (Nat.eqb_spec d d'); auto. subst. unfold dset.
      assert (N : forall s, In s (map fst wdm_items) -> String.eqb k s = false). { intros s Hs. apply String.eqb_neq. intros ->. contradiction. }
      rewrite !N by (simpl; auto 6). reflexivity.
  - repeat split; intros; auto; discriminate.
Qed.
Lemma step_keeps : forall fuel w n d, (forall k v, In (k, v) wdm_items -> w_heap w d k = Some v) -> forall k v, In (k, v) wdm_items -> w_heap (wdm_step fuel w n) d k = Some v.
Proof.
  intros fuel w n d H k v Hk. destruct (step_heap fuel w n d) as [A [B _]].
  destruct (lookup_defaults fuel w (strip_wdm n)) as [d'|] eqn:E; [destruct (Nat.eq_dec d' d); [subst; now apply A|rewrite B; [now apply H|congruence]]|rewrite B; [now apply H|discriminate]].
Qed.
Lemma run_keeps : forall fuel names w d, (forall k v, In (k, v) wdm_items -> w_heap w d k = Some v) -> forall k v, In (k, v) wdm_items -> w_heap (wdm_run fuel w names) d k = Some v.
Proof. intros fuel names. induction names as [|n t IH]; intros w d H k v Hk; [now apply H|]. unfold wdm_run in *. simpl. apply IH; auto. intros. eapply step_keeps; eauto. Qed.
(** whatever the history, once a WDM version of a relation has been requested, every relation that shares
    its defaults dictionary - the CDM relation itself in particular - has the four WDM parameters as defaults *)
Theorem c55_leaks_into_base : forall fuel w names name victim d, In name names ->
  lookup_defaults fuel w (strip_wdm name) = Some d -> lookup_defaults fuel w victim = Some d ->
  forall k v, In (k, v) wdm_items -> defaults_of fuel (wdm_run fuel w names) victim k = Some v.
Proof.
  intros fuel w names name victim d Hin Hn Hv k v Hk. unfold defaults_of. rewrite lookup_run, Hv.
  revert w Hn Hv. induction names as [|n t IH]; intros w Hn Hv; [destruct Hin|]. unfold wdm_run in *. simpl. destruct Hin as [->|Hin].
  - apply (run_keeps fuel t (wdm_step fuel w name) d); auto. now apply step_heap.
  - apply IH; auto; rewrite lookup_step; auto.
Qed.
(** all other relations, and all other parameters, are untouched *)
Theorem c55_others_untouched : forall fuel w names victim,
  (forall name, In name names -> forall d, lookup_defaults fuel w (strip_wdm name) = Some d -> lookup_defaults fuel w victim <> Some d) ->
  forall k, defaults_of fuel (wdm_run fuel w names) victim k = defaults_of fuel w victim k.
Proof.
  intros fuel w names victim H k. unfold defaults_of. rewrite lookup_run. destruct (lookup_defaults fuel w victim) as [d|] eqn:V; auto.
  revert w H V. induction names as [|n t IH]; intros w H V; auto. unfold wdm_run in *. simpl. rewrite IH.
  - destruct (step_heap fuel w n d) as [_ [B _]]. apply B. intros E. exact (H n (or_introl eq_refl) d E eq_refl).
  - intros m Hm d' E. rewrite lookup_step in E. apply (H m); auto. now right.
  - now rewrite lookup_step.
Qed.
Theorem c55_other_parameters_untouched : forall fuel w names victim k, ~ In k (map fst wdm_items) ->
  defaults_of fuel (wdm_run fuel w names) victim k = defaults_of fuel w victim k.
Proof.
  intros fuel w names victim k H. unfold defaults_of. rewrite lookup_run. destruct (lookup_defaults fuel w victim) as [d|]; auto.
  revert w. induction names as [|n t IH]; intros w; auto. unfold wdm_run in *. simpl. rewrite IH. now apply step_heap.
Qed.
Lemma len_app : forall a b, String.length (a ++ b) = (String.length a + String.length b)%nat.
Proof. induction a; intros; simpl; auto. Qed.
Lemma take_app : forall a b, take_str (String.length a) (a ++ b) = a.
Proof. induction a; intros; simpl; auto. now rewrite IHa. Qed.
(** the suffix is optional and stripped once *)
Theorem c55_suffix : forall n, strip_wdm (n ++ "WDM") = n.
Proof.
  intros n. unfold strip_wdm. assert (E : ends_wdm (n ++ "WDM") = true) by (induction n; simpl; auto; rewrite IHn; apply orb_true_r). rewrite E.
  rewrite len_app. simpl. replace (String.length n + 3 - 3)%nat with (String.length n) by lia. apply take_app.
Qed.
(** a name that does not end in WDM is used as it is *)
Theorem c55_plain_name : forall n, (forall a, n <> a ++ "WDM") -> strip_wdm n = n.
Proof.
  intros n H. unfold strip_wdm. replace (ends_wdm n) with false; auto. symmetry. destruct (ends_wdm n) eqn:E; auto. exfalso.
  assert (G : exists a, n = a ++ "WDM"). { clear H. induction n as [|c n IH]; [discriminate E|]. change (String.eqb (String c n) "WDM" || ends_wdm n = true)%bool in E. apply orb_true_iff in E. destruct E as [E|E].
    - apply String.eqb_eq in E. exists "". exact E.
    - destruct (IH E) as [a ->]. exists (String c a). reflexivity. }
  destruct G as [a G]. exact (H a G).
Qed.
Example c55_plain_name_met : forall a, "Duffy08" <> a ++ "WDM".
Proof. intros a E. do 8 (destruct a as [|? a]; simpl in E; try discriminate; injection E; clear E; intros E; intros; subst; try discriminate). Qed.
Print Assumptions c55_plain_name.
(** in halomod itself: asking for the WDM version of the deprecated alias changes the defaults of Ludlow16,
    asking for Duffy08's does not touch Bullock01Power *)
Theorem c55_halomod : forall heap names, In "Ludlow2016WDM" names -> (forall n, In n names -> n = "Ludlow2016WDM" \/ n = "Duffy08WDM") ->
  let w := mkWorld cm_classes heap in
  defaults_of 5 (wdm_run 5 w names) "Ludlow16" "g1" = Some 60 /\ defaults_of 5 (wdm_run 5 w names) "Ludlow2016" "g1" = Some 60 /\
  forall k, defaults_of 5 (wdm_run 5 w names) "Bullock01Power" k = heap 2%nat k.
Proof.
  intros heap names H A w. repeat split.
  - apply (c55_leaks_into_base 5 w names "Ludlow2016WDM" "Ludlow16" 6); auto; simpl; auto.
  - apply (c55_leaks_into_base 5 w names "Ludlow2016WDM" "Ludlow2016" 6); auto; simpl; auto.
  - intros k. rewrite c55_others_untouched; [reflexivity|]. intros n Hn d E. destruct (A n Hn); subst n; vm_compute in E; injection E as <-; vm_compute; congruence.
Qed.
(** all ten relations of halomod, and the two deprecated names that stand for others *)
Definition relation_names : list string := ["CMRelation"; "Bullock01"; "Bullock01Power"; "Maccio07"; "Duffy08"; "Zehavi11"; "Ludlow16"; "Ludlow16Empirical"; "Ludlow2016"; "Ludlow2016Empirical"].
Definition canonical (n : string) : string := if String.eqb n "Ludlow2016" then "Ludlow16" else if String.eqb n "Ludlow2016Empirical" then "Ludlow16Empirical" else n.
Lemma owners : forall heap n v, In n relation_names -> In v relation_names -> exists d, lookup_defaults 5 (mkWorld cm_classes heap) (strip_wdm (n ++ "WDM")) = Some d /\
  (canonical n = canonical v -> lookup_defaults 5 (mkWorld cm_classes heap) v = Some d) /\ (canonical n <> canonical v -> lookup_defaults 5 (mkWorld cm_classes heap) v <> Some d).
Proof.
  intros heap n v Hn Hv. rewrite c55_suffix. unfold relation_names in *. simpl in Hn, Hv.
  repeat (destruct Hn as [Hn|Hn]; [subst n; repeat (destruct Hv as [Hv|Hv]; [subst v; vm_compute; eexists; split; [reflexivity|split; intros; congruence]|]); destruct Hv|]). destruct Hn.
Qed.
(** in halomod itself, after any history of requests: a relation has the WDM defaults as soon as the WDM version of it, or of its alias, was requested, and is
    untouched otherwise - the dictionaries of distinct relations (Duffy08 and Zehavi11 derive from Bullock01Power) are distinct *)
Theorem c55_halomod_exact : forall heap requests victim, (forall n, In n requests -> In n relation_names) -> In victim relation_names ->
  let w := mkWorld cm_classes heap in let after := wdm_run 5 w (map (fun n => n ++ "WDM") requests) in
  (forall n, In n requests -> canonical n = canonical victim -> forall k v, In (k, v) wdm_items -> defaults_of 5 after victim k = Some v) /\
  ((forall n, In n requests -> canonical n <> canonical victim) -> forall k, defaults_of 5 after victim k = defaults_of 5 w victim k).
Proof.
  intros heap reqs victim A V w after. split.
  - intros n Hn C k v Hk. destruct (owners heap n victim (A n Hn) V) as [d [D [E _]]].
    apply (c55_leaks_into_base 5 w _ (n ++ "WDM") victim d); auto. apply in_map_iff. eauto.
  - intros N. apply c55_others_untouched. intros n' Hn' d D. apply in_map_iff in Hn'. destruct Hn' as [n [<- Hn]].
    destruct (owners heap n victim (A n Hn) V) as [d' [D' [_ E]]]. unfold w in *. assert (d = d') by congruence. subst d'. apply E. auto.
Qed.
Print Assumptions c55_halomod_exact.
Local Close Scope string_scope.

(** ** C89: the generated class cannot be subclassed *)
Theorem c89_generated_class_works : forall limit rest, (2 <= limit)%nat -> call_method limit (Gen :: Base :: rest) = Some 2%nat.
Proof. intros [|[|l]] rest H; try lia. reflexivity. Qed.
(** any subclass chain above the generated class that does not override the method exhausts every recursion limit *)
Theorem c89_subclass_recurses_forever : forall limit n rest, call_method limit (repeat Sub (S n) ++ Gen :: rest) = None.
Proof.
  intros limit n rest. assert (F : forall k, find_method (repeat Sub k ++ Gen :: rest) = Some Gen) by (induction k; simpl; auto).
  assert (K : forall l start, find_method start = Some Gen -> run_method l (repeat Sub (S n) ++ Gen :: rest) start = None).
  { induction l as [|l IH]; intros start H; simpl; auto. rewrite H. simpl tl. rewrite IH; auto. }
  apply K. apply F.
Qed.

(** ** C67 *)
Theorem c67_densities_add_up : forall rho rho_h, rho <> 0 -> mean_density_halos rho_h + mean_density_smooth rho rho_h = rho.
Proof. intros. unfold mean_density_halos, mean_density_smooth, f_halos. field. auto. Qed.
Theorem c67_bias_consistency : forall rho rho_h b, rho <> 0 -> rho_h <> rho ->
  f_halos rho rho_h * b + (1 - f_halos rho rho_h) * bias_smooth rho rho_h b = 1.
Proof. intros. unfold bias_smooth. assert (1 - f_halos rho rho_h <> 0). { unfold f_halos. intros E. apply H0. apply (Rmult_eq_compat_r rho) in E. replace ((1 - rho_h / rho) * rho) with (rho - rho_h) in E by (field; auto). lra. } field. auto. Qed.
(** intended behaviour: if the halo-halo power is that of a linearly biased halo field the total is the linear power *)
Theorem c67_intended_total : forall rho rho_h b phc, rho <> 0 -> rho_h <> 0 -> rho_h <> rho ->
  let f := f_halos rho rho_h in
  (1 - f) ^ 2 * power_ss rho rho_h b phc + 2 * (1 - f) * f * power_sh rho rho_h b phc (b * rho_h) + f ^ 2 * (b ^ 2 * phc) = phc.
Proof.
  intros rho rho_h b phc H0 Hh Hne f. assert (C := c67_bias_consistency rho rho_h b H0 Hne). fold f in C. unfold power_ss, power_sh. set (s := bias_smooth rho rho_h b) in *. clearbody f s.
  replace (s * phc * (b * rho_h) / rho_h) with (s * phc * b) by (field; auto).
  replace ((1 - f) ^ 2 * (s ^ 2 * phc) + 2 * (1 - f) * f * (s * phc * b) + f ^ 2 * (b ^ 2 * phc)) with ((f * b + (1 - f) * s) ^ 2 * phc) by ring. rewrite C. ring.
Qed.
(** what the code computes where u = 1 (large scales) and the 1-halo term vanishes: the halo-halo 2-halo
    term, already normalised by the density in haloes, is divided by the halo fraction squared again *)
Theorem c67_large_scale_total_unforced : forall rho rho_h I phc, rho <> 0 -> rho_h <> 0 -> rho_h <> rho ->
  let f := f_halos rho rho_h in let b := wdm_bias_effective rho_h false I in
  power_auto_wdm rho rho_h b phc 0 (wdm_power_2h rho_h false I phc) I = phc * (1 + b ^ 2 * (1 - f ^ 2)).
Proof.
  intros rho rho_h I phc H0 Hh Hne f b. assert (C := c67_bias_consistency rho rho_h b H0 Hne). fold f in C.
  unfold power_auto_wdm, power_ss, power_sh, power_hh_matter, wdm_power_2h. fold f. set (s := bias_smooth rho rho_h b) in *.
  assert (Eb : I = b * rho_h) by (unfold b, wdm_bias_effective; field; auto).
  assert (Ef : rho_h = f * rho) by (unfold f, f_halos; field; auto). assert (F0 : f <> 0) by (intros Z; apply Hh; rewrite Ef, Z; ring).
  clearbody s. rewrite Eb. replace (s * phc * (b * rho_h) / rho_h) with (s * phc * b) by (field; auto).
  replace ((0 + (b * rho_h / rho_h) ^ 2 * 1 * phc) * rho ^ 2 / rho_h ^ 2) with (b ^ 2 * phc / f ^ 2) by (rewrite Ef; field; split; auto). clearbody f b.
  replace ((1 - f) ^ 2 * (s ^ 2 * phc) + 2 * (1 - f) * f * (s * phc * b) + f ^ 2 * (b ^ 2 * phc / f ^ 2)) with
    ((((1 - f) * s) ^ 2 + 2 * ((1 - f) * s) * (f * b) + b ^ 2) * phc) by (field; auto).
  replace ((1 - f) * s) with (1 - f * b) by lra. ring.
Qed.
Theorem c67_large_scale_total_forced : forall rho rho_h I phc, rho <> 0 -> rho_h <> 0 -> rho_h <> rho -> I <> 0 ->
  let f := f_halos rho rho_h in
  power_auto_wdm rho rho_h (wdm_bias_effective rho_h true I) phc 0 (wdm_power_2h rho_h true I phc) I = phc * ((1 - f) ^ 2 + 2 * f * (1 - f) * (I / rho_h) + 1).
Proof.
  intros rho rho_h I phc H0 Hh Hne HI f. unfold power_auto_wdm, power_ss, power_sh, power_hh_matter, wdm_power_2h, wdm_bias_effective. fold f.
  assert (Ef : rho_h = f * rho) by (unfold f, f_halos; field; auto). assert (F0 : f <> 0) by (intros Z; apply Hh; rewrite Ef, Z; ring).
  assert (F1 : 1 - f <> 0). { intros E. apply Hne. rewrite Ef. replace f with 1 by lra. ring. }
  assert (S : bias_smooth rho rho_h 1 = 1) by (unfold bias_smooth; fold f; field; auto). rewrite S. clearbody f.
  replace ((0 + (I / rho_h) ^ 2 * (1 / (I / rho_h)) ^ 2 * phc) * rho ^ 2 / rho_h ^ 2) with (phc / f ^ 2) by (rewrite Ef; field; repeat split; auto). field. split; auto.
Qed.
(** finding: the total matter power on large scales is the linear power only if all mass is in haloes (or the halo bias vanishes) *)
Theorem c67_total_is_linear_refuted : forall rho rho_h I phc, 0 < rho_h < rho -> I <> 0 -> phc <> 0 ->
  power_auto_wdm rho rho_h (wdm_bias_effective rho_h false I) phc 0 (wdm_power_2h rho_h false I phc) I <> phc.
Proof.
  intros rho rho_h I phc H HI HP. rewrite c67_large_scale_total_unforced by lra. intros E.
  assert (F : 0 < f_halos rho rho_h < 1). { unfold f_halos. split; [apply Rdiv_lt_0_compat; lra|]. apply Rmult_lt_reg_r with rho; [lra|]. unfold Rdiv. rewrite Rmult_assoc, Rinv_l by lra. lra. }
  set (f := f_halos rho rho_h) in *. set (b := wdm_bias_effective rho_h false I) in *. assert (B : b <> 0) by (unfold b, wdm_bias_effective; intros Z; apply HI; apply (Rmult_eq_compat_r rho_h) in Z; replace (I / rho_h * rho_h) with I in Z by (field; lra); lra).
  assert (Z : b ^ 2 * (1 - f ^ 2) = 0). { apply Rmult_eq_reg_l with phc; auto. lra. }
  apply Rmult_integral in Z. destruct Z as [Z|Z]; [|nra]. apply B. nra.
Qed.

Print Assumptions c54_massive_haloes_unaffected.
Print Assumptions c54_any_redshift_refuted.
Print Assumptions c55_leaks_into_base.
Print Assumptions c55_halomod.
Print Assumptions c89_subclass_recurses_forever.
Print Assumptions c67_total_is_linear_refuted.
