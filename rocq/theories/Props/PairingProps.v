(** C117: the mass function that goes with a bias model.  Code under study: bias.py, halo_model.py:129-139, tools.py:698-715. *)
From Coq Require Import Reals Bool String List Lia Lra.
From Coquelicot Require Import Coquelicot.
From Verif Require Import Model.RBool Model.Bias Model.Pairing Spec.BiasSpec Proofs.BiasProofs Props.BiasProps.
Import ListNotations.
Local Open Scope R_scope.

(** the pairs, stated independently of the class hierarchy *)
Definition paired_with (reg : registry) (b : biascls) (h : string) : Prop :=
  match b with
  | BUnity => In (h, true) reg
  | BMo96 => h = "PS"%string
  | BST99 | BSMT01 | BTinker05 | BMandelbaum05 => h = "SMT"%string
  | BManera10 => h = "Manera"%string
  | BTinker10PBSplit => h = "Tinker10"%string
  | BBias | BJing98 | BSeljak04 | BSeljak04Cosmo | BPillepich10 | BTinker10 => False
  end.
Lemma pair_spec : forall reg b h, In h (pair_hmf reg b) <-> paired_with reg b h.
Proof.
  intros reg b h. destruct b; simpl; try (split; [intros [H|[]]; auto|intros ->; auto]; fail); try tauto.
  unfold pair_hmf, lookup, own_pair. rewrite in_map_iff. split.
  - intros [[x t] [E H]]. apply filter_In in H. simpl in *. destruct H as [H T]. subst. exact H.
  - intros H. exists (h, true). split; auto. apply filter_In. auto.
Qed.
Lemma exb : forall h l, existsb (String.eqb h) l = true <-> In h l.
Proof. intros. rewrite existsb_exists. split; [intros [x [A B]]; apply String.eqb_eq in B; now subst|intros H; exists h; split; auto; apply String.eqb_refl]. Qed.
(** each warning is given exactly when it applies, in every state reachable by any updates *)
Theorem c117_warnings_iff : forall reg norm s, (In Unnormalised (norm_warn reg norm s) <-> norm (f_hmf s) = false) /\
  (In Unpaired (norm_warn reg norm s) <-> ~ paired_with reg (f_bias s) (f_hmf s)) /\
  (norm_warn reg norm s = [] <-> norm (f_hmf s) = true /\ paired_with reg (f_bias s) (f_hmf s)).
Proof.
  intros reg norm s. rewrite <- pair_spec, <- exb. unfold norm_warn. destruct (norm (f_hmf s)); destruct (existsb _ _); simpl; repeat split; intros; try tauto; try discriminate; intuition (try discriminate).
Qed.
(** finding: with six of the models every mass function - also one fitted together with the bias - draws the warning *)
Theorem c117_always_warns : forall reg norm s, In (f_bias s) [BBias; BJing98; BSeljak04; BSeljak04Cosmo; BPillepich10; BTinker10] -> In Unpaired (norm_warn reg norm s).
Proof. intros reg norm s H. apply c117_warnings_iff. simpl in H. intros P. destruct H as [H|[H|[H|[H|[H|[H|[]]]]]]]; rewrite <- H in P; exact P. Qed.
(** a framework built without hmf_model starts from a mass function paired with its bias whenever there is one *)
Theorem c117_default_is_paired : forall reg b, (exists h, paired_with reg b h) -> paired_with reg b (f_hmf (fw_init reg b None)) /\ f_bias (fw_init reg b None) = b.
Proof.
  intros reg b [h H]. split; auto. apply pair_spec. apply pair_spec in H. unfold fw_init. simpl. destruct (pair_hmf reg b) as [|x l]; [destruct H|left; reflexivity].
Qed.
(** ... and from Tinker10 otherwise, whatever the bias; a given mass function is used as it is *)
Theorem c117_default_without_pair : forall reg b h, f_hmf (fw_init reg b (Some h)) = h /\ ((forall x, ~ paired_with reg b x) -> f_hmf (fw_init reg b None) = "Tinker10"%string).
Proof.
  intros reg b h. split; auto. intros N. unfold fw_init. simpl. destruct (pair_hmf reg b) as [|x l] eqn:E; auto. exfalso. apply (N x). apply pair_spec. rewrite E. left. reflexivity.
Qed.
(** finding: changing the bias later does not change the mass function, so the result differs from a framework built with the new bias -
    and warns - unless both are paired with the same first mass function *)
Theorem c117_update_keeps_mass_function : forall reg b l, List.Forall (fun u => c_hmf u = None) l -> f_hmf (fw_run (fw_init reg b None) l) = f_hmf (fw_init reg b None).
Proof.
  intros reg b l H. unfold fw_run. generalize (fw_init reg b None). induction H as [|u l U _ IH]; intros s; simpl; auto. rewrite IH. unfold fw_update. simpl. now rewrite U.
Qed.
Theorem c117_update_is_not_rebuild_refuted : forall reg norm b b', let s := fw_run (fw_init reg b None) [mkFwCall (Some b') None] in
  (s = fw_init reg b' None <-> f_hmf (fw_init reg b None) = f_hmf (fw_init reg b' None)) /\
  (norm_warn reg norm (fw_init reg b' None) = [] -> b' <> BUnity -> f_hmf (fw_init reg b None) <> f_hmf (fw_init reg b' None) -> In Unpaired (norm_warn reg norm s)).
Proof.
  intros reg norm b b' s. split.
  - split; [intros H; rewrite <- H; reflexivity|intros H; unfold s; simpl; unfold fw_update; simpl; unfold fw_init in *; simpl in *; now rewrite H].
  - intros W U N. apply c117_warnings_iff. apply c117_warnings_iff in W. destruct W as [_ W]. intros P. apply N. change (f_bias s) with b' in P. change (f_hmf s) with (f_hmf (fw_init reg b None)) in P. change (f_bias (fw_init reg b' None)) with b' in W. destruct b'; simpl in P, W |- *; try congruence; tauto.
Qed.
(** the last given value of each is the one in use *)
Theorem c117_last_given : forall l s, f_bias (fw_run s l) = fold_left (fun a u => match c_bias u with Some b => b | None => a end) l (f_bias s) /\
  f_hmf (fw_run s l) = fold_left (fun a u => match c_hmf u with Some h => h | None => a end) l (f_hmf s).
Proof. induction l as [|u l IH]; intros s; simpl; auto. apply (IH (fw_update s u)). Qed.
(** finding: Tinker05, Mandelbaum05 inherit the pair of the model they re-fit: with a normalised SMT mass function Mandelbaum05 is silent, but its bias
    is not the peak-background bias of that mass function at any nu above 27 *)
Theorem c117_silent_but_inconsistent_refuted : forall reg norm delta_c nu, norm "SMT"%string = true -> 0 < delta_c -> 27 < nu ->
  norm_warn reg norm (fw_init reg BMandelbaum05 None) = [] /\ ~ pbs_bias (st_multiplicity 0.707 0.3) delta_c nu (st99 0.73 0.15 delta_c nu).
Proof.
  intros reg norm dc nu N D H. split; [apply c117_warnings_iff; split; [exact N|reflexivity]|]. intros P.
  assert (E := c46_peak_background_unique _ _ _ _ _ P (c46_st99_is_peak_background 0.707 0.3 dc nu ltac:(lra) ltac:(lra) ltac:(lra))). unfold st99 in E.
  set (u := Rpower (0.73 * nu) 0.15) in *. set (v := Rpower (0.707 * nu) 0.3) in *. assert (U : 0 < u) by apply exp_pos. assert (V : 0 < v) by apply exp_pos.
  assert (A : 0 < / (1 + u)) by (apply Rinv_0_lt_compat; lra). assert (B : / (1 + v) < 1) by (rewrite <- Rinv_1; apply Rinv_lt_contravar; lra). 
  assert (K : forall q a w, 0 < w -> dc * (1 + (q - 1) / dc + a / dc / (1 + w)) = dc + (q - 1) + a * / (1 + w)) by (intros; field; lra).
  assert (F := K (0.73 * nu) (2 * 0.15) u U). assert (G := K (0.707 * nu) (2 * 0.3) v V).
  rewrite E, G in F. lra.
Qed.
(** the pairs that are consistent: the silent frameworks of Mo96 and ST99 have the peak-background bias of their mass function everywhere *)
Theorem c117_silent_and_consistent : forall reg norm delta_c nu, norm "PS"%string = true -> norm "SMT"%string = true -> 0 < delta_c -> 0 < nu ->
  (norm_warn reg norm (fw_init reg BMo96 None) = [] /\ pbs_bias ps_multiplicity delta_c nu (mo96 delta_c nu)) /\
  (norm_warn reg norm (fw_init reg BST99 None) = [] /\ pbs_bias (st_multiplicity 0.707 0.3) delta_c nu (st99 0.707 0.3 delta_c nu)).
Proof.
  intros reg norm dc nu N1 N2 D H. split; (split; [apply c117_warnings_iff; split; [assumption|reflexivity]|]); [apply c46_mo96_is_peak_background|apply c46_st99_is_peak_background]; lra.
Qed.
(** finding: with UnityBias, whose bias is 1 for every halo, a normalised mass function defined after the import of halomod draws the warning all the same *)
Theorem c117_unity_late_model_refuted : forall reg norm h, ~ In h (map fst reg) -> norm h = true -> norm_warn reg norm (fw_init reg BUnity (Some h)) = [Unpaired].
Proof.
  intros reg norm h N T. unfold norm_warn. simpl f_hmf. rewrite T. simpl negb. cbv iota. simpl app. replace (existsb _ _) with false; auto. symmetry. apply not_true_iff_false. rewrite exb. intros H. apply pair_spec in H. simpl in H. apply N. apply in_map_iff. exists (h, true). auto.
Qed.
Print Assumptions c117_silent_but_inconsistent_refuted.
(** concrete case *)
Example c117_nonvacuous : let reg := [("Tinker08", false); ("PS", true); ("SMT", true)]%string in let norm h := existsb (fun p => String.eqb h (fst p) && snd p) reg in
  f_hmf (fw_init reg BMo96 None) = "PS"%string /\ norm_warn reg norm (fw_init reg BMo96 None) = [] /\ norm_warn reg norm (fw_run (fw_init reg BMo96 None) [mkFwCall (Some BST99) None]) = [Unpaired] /\
  f_hmf (fw_init reg BUnity None) = "PS"%string /\ norm_warn reg norm (fw_init reg BTinker10 (Some "Tinker08"%string)) = [Unnormalised; Unpaired].
Proof. repeat split. Qed.
