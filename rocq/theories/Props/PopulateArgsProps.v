(** A catalogue made from a halo model ignores the tracer's profile (C136). *)
From Coq Require Import List Reals Bool String Lia Lra.
From Verif Require Import Model.RBool Model.NumpyList Model.Populate Model.TracerUpdate Model.PopulateArgs Props.TracerUpdateProps.
Import ListNotations.

Section C136.
  Variables (K H X : Type) (dX : X) (keqb : K -> K -> bool).
  Hypothesis keqb_spec : forall a b, keqb a b = true <-> a = b.
  Variable sampler : prof K -> nat -> nat -> X -> vec3 -> list vec3.
  Variables (central : H -> bool) (cgal sgal : H -> list nat).
  Notation call := (populate_call K H X dX sampler central cgal sgal).

  (** with a halo model the profile and HOD arguments do nothing, and neither do the tracer's profile and concentration: the satellites come from the matter profile *)
  Theorem c136_matter_profile_used : forall c h profile hodmod tp tpp tc tcp centres masses empty edges,
    call (Some (c, h)) profile hodmod centres masses empty edges =
      call None (Some (mkProf K (hp_model K c) (hp_params K c) (mkConc K (hc_model K c) (hc_params K c) (hp_model K c) (hp_params K c)))) (Some h) centres masses empty edges /\
    call (Some (mkConf K (hp_model K c) (hp_params K c) (hc_model K c) (hc_params K c) tp tpp tc tcp, h)) None None centres masses empty edges =
      call (Some (c, h)) profile hodmod centres masses empty edges.
  Proof. intros. split; reflexivity. Qed.

  (** so they follow the profile the power spectra use for the tracer exactly when that is the matter profile: no tracer profile model, or the same model with
      no or the same parameters and the same concentration *)
  Theorem c136_tracer_profile_used_iff : forall c : conf K, tracer_profile K keqb c = halo_profile K c <->
    tp_model K c = None \/
    (tp_model K c = Some (hp_model K c) /\ (tp_params K c = [] \/ tp_params K c = hp_params K c) /\
     (tc_model K c = None \/ (tc_model K c = Some (hc_model K c) /\ (tc_params K c = [] \/ tc_params K c = hc_params K c)))).
  Proof.
    intros c. assert (RF : forall a, keqb a a = true) by (intros; now apply keqb_spec).
    unfold tracer_profile, halo_profile. destruct (tp_model K c) as [m|] eqn:TP; [|split; auto].
    assert (PE : forall p q : params, (if falsy p then q else p) = q <-> p = [] \/ p = q).
    { intros [|x p] q; simpl; split; intros Z; auto. destruct Z as [Z|Z]; [discriminate|auto]. }
    split.
    - intros E. right. injection E as E1 E2 E3. subst m. unfold tr_profile_params in E2. rewrite RF, andb_true_r in E2. split; auto. split; [now apply PE|].
      unfold tracer_concentration in E3. destruct (tc_model K c) as [cm|]; auto. right. rewrite TP in E3. injection E3 as F1 F2 F3. subst cm. rewrite RF, andb_true_r in F2. split; auto. now apply PE.
    - intros [A|[A [B C]]]; [discriminate|]. injection A as ->. unfold tr_profile_params. rewrite RF, andb_true_r. assert (B' := B). apply PE in B. rewrite B. f_equal.
      unfold tracer_concentration, halo_concentration. destruct C as [-> | [-> C]]; auto. rewrite TP. unfold tr_profile_params. rewrite !RF, !andb_true_r, B. apply PE in C. now rewrite C.
  Qed.

  (** without a halo model: no HOD is an AttributeError; no profile is one exactly when some satellite was drawn *)
  Theorem c136_missing_components : forall profile centres masses empty edges,
    call None profile None centres masses empty edges = PAttributeError /\
    (forall h, call None None (Some h) centres masses empty edges = PAttributeError <-> exists n, In n (sgal h) /\ n <> 0).
  Proof.
    intros. split; [unfold populate_call; simpl; destruct profile; reflexivity|]. intros h. unfold populate_call. cbn [components].
    assert (Z : nsum (sgal h) = 0 <-> forall n, In n (sgal h) -> n = 0).
    { induction (sgal h) as [|a l IH]; [split; [intros _ n []|auto]|]. unfold nsum in *. simpl. split.
      - intros E n [<-|Hn]; [lia|]. apply IH; auto. lia.
      - intros Q. rewrite (Q a) by auto. apply IH. intros n Hn. apply Q. auto. }
    destruct (Nat.eqb (nsum (sgal h)) 0) eqn:E.
    - apply PeanoNat.Nat.eqb_eq in E. split; [unfold of_outcome; destruct (populate _ _ _ _ _ _ _ _ _ _); discriminate|]. intros [n [Hn Q]]. exfalso. apply Q. now apply Z.
    - split; auto. intros _. apply PeanoNat.Nat.eqb_neq in E. clear -E. induction (sgal h) as [|a l IH]; [now elim E|]. destruct (PeanoNat.Nat.eq_dec a 0) as [->|N].
      + destruct IH as [n [A B]]; [exact E|]. exists n. split; [right|]; auto.
      + exists a. split; [now left|auto].
  Qed.
End C136.
Print Assumptions c136_matter_profile_used.
Print Assumptions c136_tracer_profile_used_iff.
Print Assumptions c136_missing_components.
(** finding: a halo model with a tracer profile of its own, whose catalogue is not drawn from it: the only satellite is put where the matter profile (1) puts it, not the tracer profile (7) *)
Theorem c136_tracer_profile_ignored_refuted : exists c : conf nat, tracer_profile nat Nat.eqb c <> halo_profile nat c /\
  populate_call nat unit unit tt (fun p _ _ _ _ => [(INR (p_model nat p), 0, 0)%R]) (fun _ => false) (fun _ => [0]) (fun _ => [1]) (Some (c, tt)) None None [(0, 0, 0)%R] [tt] [(0, 0, 0)%R] None
    = PReturned ([(1, 0, 0)%R], [0], 0).
Proof.
  exists (mkConf nat 1 [] 2 [] (Some 7) [] None []). split; [discriminate|]. vm_compute populate_call. reflexivity.
Qed.
