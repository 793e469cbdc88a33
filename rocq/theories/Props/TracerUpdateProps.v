(** The tracer-density protocol (C56) and tracer profile / concentration defaults (C65). *)
From Coq Require Import Reals List Bool String Lra.
From Verif Require Import Model.Profiles Model.TracerUpdate.
Import ListNotations.
Local Open Scope R_scope.
Local Open Scope string_scope.

(** what is assumed of the base class: an assigned key reads back; assigning one key twice is assigning it
    once; a successful base update stores hod_params if given and keeps it otherwise *)
Definition reads_back (assign : dict -> dict -> dict) := forall d u k v, u k = Some v -> assign d u k = Some v.
Definition last_wins (assign : dict -> dict -> dict) := forall d k a b, assign (assign d (single k a)) (single k b) = assign d (single k b).
Definition stores {P K} (assign : dict -> dict -> dict) (base : P -> dict -> option dict -> K -> P * dict * res unit) :=
  forall p d u k p' d', base p d u k = (p', d', Ok tt) -> d' = match u with Some u => assign d u | None => d end.
(** both merging and replacing satisfy them *)
Definition merge (d u : dict) : dict := fun k => match u k with Some v => Some v | None => d k end.
Definition replace_ (d u : dict) : dict := u.
Example rules_exist : reads_back merge /\ last_wins merge /\ reads_back replace_ /\ last_wins replace_.
Proof.
  unfold reads_back, last_wins, merge, replace_. repeat split; intros; auto; try now rewrite H.
  apply FunctionalExtensionality.functional_extensionality. intros x. unfold single. now destruct (String.eqb k x).
Qed.

Section C56.
  Context {P K : Type}.
  Variables (assign : dict -> dict -> dict) (Mmin : P -> R) (solve : P -> dict -> R -> res R) (base : P -> dict -> option dict -> K -> P * dict * res unit).
  Notation init := (init P assign Mmin solve).
  Notation update := (update P K assign Mmin solve base).
  Notation run := (run P K assign Mmin solve base).
  Notation find := (find_m_min P assign Mmin solve).
  Notation state := (state P).
  (** the stored M_min solves for the stored density under the parameters now in force *)
  Definition in_force (s : state) : Prop := forall ng, dens P s = Some ng -> exists m, hodp P s "M_min" = Some m /\ find (oth P s) (hodp P s) ng = Ok m.

  Lemma resolve_ok : reads_back assign -> last_wins assign -> forall s s', resolve P assign Mmin solve s = (s', Ok tt) -> in_force s' /\ dens P s' = dens P s /\ oth P s' = oth P s.
  Proof.
    intros RB LW s s' H. unfold resolve in H. destruct (dens P s) as [ng|] eqn:D.
    - destruct (find_m_min P assign Mmin solve (oth P s) (hodp P s) ng) as [m|e] eqn:F; [|discriminate]. injection H as <-. split; [|split; auto].
      intros ng' H. simpl in H. injection H as <-. exists m. simpl. split; [apply RB; reflexivity|]. unfold find_m_min in *. now rewrite LW.
    - injection H as <-. split; [|split; auto]. intros ng H. rewrite D in H. discriminate.
  Qed.

  (** after a successful construction or update the protocol holds *)
  Theorem c56_after_construction : reads_back assign -> last_wins assign -> forall p hp td s, init p hp td = (s, Ok tt) -> in_force s /\ dens P s = td.
  Proof. intros RB LW p hp td s H. apply resolve_ok in H; auto. destruct H as [H1 [H2 _]]. auto. Qed.
  Theorem c56_after_update : reads_back assign -> last_wins assign -> forall s c s', update s c = (s', Ok tt) -> in_force s'.
  Proof.
    intros RB LW s c s' H. unfold TracerUpdate.update in H. destruct (base _ _ _ _) as [[p d] [u|e]]; [|discriminate]. apply resolve_ok in H; auto. apply H.
  Qed.
  (** any history: whatever happened before (failures included), one successful update restores the protocol *)
  Theorem c56_any_history : reads_back assign -> last_wins assign -> forall s l c s', update (run s l) c = (s', Ok tt) -> in_force s' /\ run s (l ++ [c]) = s'.
  Proof.
    intros RB LW s l c s' H. split; [eapply c56_after_update; eauto|]. unfold TracerUpdate.run in *. rewrite fold_left_app. simpl. now rewrite H.
  Qed.

  (** which density is in force after a history: decided by the last call that mentions it *)
  Theorem c56_precedence : forall s c s', update s c = (s', Ok tt) ->
    (forall d, c_dens K c = Some d -> dens P s' = d) /\
    (c_dens K c = None -> (exists u v, c_hod K c = Some u /\ u "M_min" = Some v) -> dens P s' = None) /\
    (c_dens K c = None -> (forall u, c_hod K c = Some u -> u "M_min" = None) -> dens P s' = dens P s).
  Proof.
    intros s c s' H. unfold TracerUpdate.update in H. destruct (base _ _ _ _) as [[p d] [u|e]]; [|discriminate].
    assert (E : dens P s' = new_density P K s c).
    { unfold resolve in H; simpl in H. destruct (new_density P K s c) as [ng|] eqn:N; [destruct (find_m_min P assign Mmin solve p d ng); [|discriminate]|]; injection H as <-; exact N || reflexivity. }
    rewrite E. unfold new_density. split; [intros x ->; auto|]. split.
    - intros -> [u' [v [-> ->]]]. reflexivity.
    - intros -> Q. destruct (c_hod K c) as [u'|]; auto. rewrite (Q u'); auto.
  Qed.
  (** an explicit M_min without a density is kept as given *)
  Theorem c56_given_mmin_kept : reads_back assign -> stores assign base -> forall s c u v s', c_dens K c = None -> c_hod K c = Some u -> u "M_min" = Some v ->
    update s c = (s', Ok tt) -> hodp P s' "M_min" = Some v.
  Proof.
    intros RB ST s c u v s' D C U H. unfold TracerUpdate.update in H. destruct (base (oth P s) (hodp P s) (c_hod K c) (c_oth K c)) as [[p d] [[]|e]] eqn:B; [|discriminate].
    unfold new_density in H. rewrite D, C, U in H. unfold resolve in H. simpl in H. injection H as <-. simpl. apply ST in B. rewrite C in B. rewrite B. now apply RB.
  Qed.
  (** a density passed together with an M_min wins: M_min is the solution, whatever was passed *)
  Theorem c56_density_beats_mmin : reads_back assign -> last_wins assign -> forall s c ng s', c_dens K c = Some (Some ng) -> update s c = (s', Ok tt) ->
    exists m, hodp P s' "M_min" = Some m /\ find (oth P s') (hodp P s') ng = Ok m.
  Proof. intros RB LW s c ng s' D H. apply (c56_after_update RB LW _ _ _ H). apply (proj1 (c56_precedence _ _ _ H) _ D). Qed.
  (** the clone made by the solver is updated with M_min only, so solving never recurses: that update calls no solver *)
  Theorem c56_solver_does_not_recurse : forall solve' s c u v, c_dens K c = None -> c_hod K c = Some u -> u "M_min" = Some v ->
    update s c = TracerUpdate.update P K assign Mmin solve' base s c.
  Proof. intros solve' s c u v D C U. unfold TracerUpdate.update. destruct (base _ _ _ _) as [[p d] [x|e]]; auto. unfold new_density. rewrite D, C, U. reflexivity. Qed.
  (** the solution does not depend on the M_min held before *)
  Theorem c56_solution_ignores_old_mmin : last_wins assign -> forall p d m ng, find p (assign d (single "M_min" m)) ng = find p d ng.
  Proof. intros LW p d m ng. unfold find_m_min. now rewrite LW. Qed.
  (** re-applying the density changes nothing *)
  Theorem c56_idempotent : last_wins assign -> forall s s', resolve P assign Mmin solve s = (s', Ok tt) -> resolve P assign Mmin solve s' = (s', Ok tt).
  Proof.
    intros LW s s' H. unfold resolve in *. destruct (dens P s) as [ng|] eqn:D; [|injection H as <-; now rewrite D].
    destruct (find_m_min P assign Mmin solve (oth P s) (hodp P s) ng) as [m|e] eqn:F; [|discriminate]. injection H as <-. simpl. unfold find_m_min in *. rewrite LW, F, LW. reflexivity.
  Qed.

  (** finding: a failed update leaves the new density recorded, with hod_params as the base update left them *)
  Theorem c56_failure_keeps_new_density : forall s c s' e, update s c = (s', Raise e) -> dens P s' = new_density P K s c /\
    exists p d r, base (oth P s) (hodp P s) (c_hod K c) (c_oth K c) = (p, d, r) /\ oth P s' = p /\ hodp P s' = d.
  Proof.
    intros s c s' e H. unfold TracerUpdate.update in H. destruct (base _ _ _ _) as [[p d] [x|e']] eqn:B.
    - unfold resolve in H; simpl in H. destruct (new_density P K s c) as [ng|] eqn:N; [|discriminate]. destruct (find_m_min P assign Mmin solve p d ng); [discriminate|]. injection H as <- _. simpl. split; auto. exists p, d, (Ok x). auto.
    - injection H as <- _. simpl. split; auto. exists p, d, (Raise e'). auto.
  Qed.
  Theorem c56_failure_breaks_protocol : forall s c s' e ng, update s c = (s', Raise e) -> new_density P K s c = Some ng -> (exists e', find (oth P s') (hodp P s') ng = Raise e') -> ~ in_force s'.
  Proof. intros s c s' e ng H N [e' F] Q. destruct (Q ng) as [m [_ G]]; [rewrite (proj1 (c56_failure_keeps_new_density _ _ _ _ H)); exact N|]. rewrite F in G. discriminate. Qed.
  (** finding: assigning a parameter directly (hm.z = ...) keeps M_min; the protocol survives exactly when the
      new parameters have the same solution *)
  Definition set_direct (s : state) (p : P) : state := mkS P p (hodp P s) (dens P s).
  Theorem c56_direct_assignment : forall s p ng m, dens P s = Some ng -> hodp P s "M_min" = Some m ->
    (in_force (set_direct s p) <-> find p (hodp P s) ng = Ok m).
  Proof.
    intros s p ng m D H. split.
    - intros Q. destruct (Q ng D) as [m' [H1 H2]]. simpl in *. rewrite H in H1. injection H1 as <-. exact H2.
    - intros F ng' D'. simpl in *. rewrite D in D'. injection D' as <-. exists m. auto.
  Qed.
  (** finding: an M_min assigned directly to hod_params is silently replaced by the next update of anything else *)
  Theorem c56_direct_mmin_is_lost : reads_back assign -> last_wins assign -> stores assign base -> forall s v ng c s', dens P s = Some ng -> c_dens K c = None -> c_hod K c = None ->
    update (mkS P (oth P s) (assign (hodp P s) (single "M_min" v)) (dens P s)) c = (s', Ok tt) -> exists m, hodp P s' "M_min" = Some m /\ find (oth P s') (hodp P s) ng = Ok m.
  Proof.
    intros RB LW ST s v ng c s' D C1 C2 H. unfold TracerUpdate.update in H. simpl in H. destruct (base (oth P s) _ (c_hod K c) (c_oth K c)) as [[p d] [[]|e]] eqn:B; [|discriminate].
    apply ST in B. rewrite C2 in B. subst d. unfold new_density in H. rewrite C1, C2 in H. unfold resolve in H. simpl in H. rewrite D in H.
    destruct (find_m_min P assign Mmin solve p _ ng) as [m|e] eqn:F; [|discriminate]. injection H as <-. simpl. exists m. split; [apply RB; reflexivity|]. unfold find_m_min in *. rewrite LW in F. exact F.
  Qed.
End C56.

(** non-vacuity: a solver that always succeeds and one that fails *)
Definition base0 (p : R) (d : dict) (u : option dict) (z : option R) : R * dict * res unit :=
  (match z with Some z => z | None => p end, match u with Some u => merge d u | None => d end, Ok tt).
Definition solve0 (p : R) (d : dict) (ng : R) : res R := if Rle_dec ng 10 then Ok (p + ng) else Raise NGException.
Example c56_nonvacuous : stores merge base0 /\
  exists s, init R merge (fun _ => 10) solve0 1 None (Some 3) = (s, Ok tt) /\ hodp R s "M_min" = Some 4 /\
  (exists s2, update R (option R) merge (fun _ => 10) solve0 base0 s (mkC (option R) None None (Some 5)) = (s2, Ok tt) /\ hodp R s2 "M_min" = Some 8) /\
  (exists s2, update R (option R) merge (fun _ => 10) solve0 base0 s (mkC (option R) (Some (Some 11)) None None) = (s2, Raise NGException) /\ dens R s2 = Some 11 /\ hodp R s2 "M_min" = Some 4) /\
  (exists s2, update R (option R) merge (fun _ => 10) solve0 base0 s (mkC (option R) None (Some (single "M_min" 7)) None) = (s2, Ok tt) /\ dens R s2 = None /\ hodp R s2 "M_min" = Some 7).
Proof.
  split. { intros p d u k p' d' H. unfold base0 in H. injection H as _ <-. reflexivity. }
  unfold init, resolve, find_m_min; simpl. unfold solve0. destruct (Rle_dec 3 10); [|lra]. eexists. split; [reflexivity|]. split; [cbn; unfold merge, single; cbn; f_equal; lra|].
  unfold update, base0, resolve, find_m_min, solve0, new_density; simpl. split; [|split].
  - destruct (Rle_dec 3 10); [|lra]. eexists. split; [reflexivity|]. cbn; unfold merge, single; cbn; f_equal; lra.
  - destruct (Rle_dec 11 10); [lra|]. eexists. split; [reflexivity|]. split; [reflexivity|]. cbn; unfold merge, single; cbn; f_equal; lra.
  - eexists. split; [reflexivity|]. split; reflexivity.
Qed.

(** ** C65 *)
Section C65.
  Context {M : Type}.
  Variable meqb : M -> M -> bool.
  Hypothesis meqb_spec : forall a b, meqb a b = true <-> a = b.
  Notation conf := (conf M).
  Notation tprof := (tracer_profile M meqb).
  Notation tconc := (tracer_concentration M meqb).
  Notation hprof := (halo_profile M).
  Notation hconc := (halo_concentration M).

  (** profile: model and parameters *)
  Theorem c65_profile : forall c : conf,
    (tp_model M c = None -> tprof c = hprof c) /\
    (forall m, tp_model M c = Some m -> p_model M (tprof c) = m) /\
    (forall m, tp_model M c = Some m -> tp_params M c = [] -> m = hp_model M c -> p_params M (tprof c) = hp_params M c) /\
    (forall m, tp_model M c = Some m -> tp_params M c <> [] \/ m <> hp_model M c -> p_params M (tprof c) = tp_params M c).
  Proof.
    intros c. unfold tracer_profile. split; [intros ->; auto|]. split; [intros m ->; auto|]. split.
    - intros m -> E H. unfold tr_profile_params. simpl. unfold tr_profile_params. rewrite E. simpl. replace (meqb m (hp_model M c)) with true by (symmetry; now apply meqb_spec). reflexivity.
    - intros m -> H. simpl. unfold tr_profile_params. destruct (tp_params M c) as [|x l] eqn:E; simpl; auto. destruct H as [H|H]; [congruence|]. destruct (meqb m (hp_model M c)) eqn:Q; auto. apply meqb_spec in Q. contradiction.
  Qed.
  Theorem c65_concentration : forall c : conf,
    (tc_model M c = None -> tconc c = hconc c) /\
    (forall m, tc_model M c = Some m -> c_model M (tconc c) = m) /\
    (forall m, tc_model M c = Some m -> tc_params M c = [] -> m = hc_model M c -> c_params M (tconc c) = hc_params M c) /\
    (forall m, tc_model M c = Some m -> tc_params M c <> [] \/ m <> hc_model M c -> c_params M (tconc c) = tc_params M c).
  Proof.
    intros c. unfold tracer_concentration. split; [intros ->; auto|]. split; [intros m ->; destruct (tp_model M c); auto|]. split.
    - intros m -> E H. rewrite E. simpl. replace (meqb m (hc_model M c)) with true by (symmetry; now apply meqb_spec). destruct (tp_model M c); reflexivity.
    - intros m -> H. destruct (tc_params M c) as [|x l] eqn:E; simpl; [|destruct (tp_model M c); reflexivity]. destruct H as [H|H]; [congruence|]. destruct (meqb m (hc_model M c)) eqn:Q; [apply meqb_spec in Q; contradiction|]. destruct (tp_model M c); reflexivity.
  Qed.
  (** with a tracer profile model, the profile carries the tracer concentration *)
  Theorem c65_profile_uses_tracer_concentration : forall (c : conf) m, tp_model M c = Some m -> p_conc M (tprof c) = tconc c.
  Proof. intros c m H. unfold tracer_profile. rewrite H. reflexivity. Qed.
  (** a tracer concentration model is built for the tracer's own profile *)
  Theorem c65_concentration_knows_profile : forall (c : conf) m, tc_model M c = Some m -> c_prof_model M (tconc c) = p_model M (tprof c) /\ c_prof_params M (tconc c) = p_params M (tprof c).
  Proof. intros c m H. unfold tracer_concentration, tracer_profile. rewrite H. destruct (tp_model M c); split; reflexivity. Qed.
  (** finding: without a tracer profile model the tracer profile ignores the tracer concentration (model and
      parameters) and any tracer profile parameters *)
  Theorem c65_concentration_ignored_without_profile_model : forall (c : conf) cm cp pp, tp_model M c = None ->
    tprof (mkConf M (hp_model M c) (hp_params M c) (hc_model M c) (hc_params M c) None pp cm cp) = tprof c.
  Proof. intros c cm cp pp H. unfold tracer_profile. rewrite H. reflexivity. Qed.
  (** so the tracer profile has the tracer concentration exactly when a profile model is given or the two
      concentrations coincide *)
  Theorem c65_consistent_iff : forall c : conf, p_conc M (tprof c) = tconc c <-> (exists m, tp_model M c = Some m) \/ tconc c = hconc c.
  Proof.
    intros c. destruct (tp_model M c) as [m|] eqn:E.
    - split; [left; eauto|]. intros _. eapply c65_profile_uses_tracer_concentration; eauto.
    - unfold tracer_profile. rewrite E. simpl. split; [right; congruence|]. intros [[m Q]|Q]; [discriminate|congruence].
  Qed.
  (** finding: tracer concentration parameters without a tracer concentration model are ignored *)
  Theorem c65_concentration_params_ignored : forall (c : conf) cp, tc_model M c = None ->
    tconc (mkConf M (hp_model M c) (hp_params M c) (hc_model M c) (hc_params M c) (tp_model M c) (tp_params M c) None cp) = tconc c /\
    tprof (mkConf M (hp_model M c) (hp_params M c) (hc_model M c) (hc_params M c) (tp_model M c) (tp_params M c) None cp) = tprof c.
  Proof. intros c cp H. unfold tracer_profile, tracer_concentration. simpl. rewrite H. split; reflexivity. Qed.
  (** finding: a tracer profile model without a tracer concentration model gets the concentration built for the halo's profile *)
  Theorem c65_concentration_of_other_profile : forall (c : conf) m, tp_model M c = Some m -> tc_model M c = None -> c_prof_model M (p_conc M (tprof c)) = hp_model M c /\ p_conc M (tprof c) = hconc c.
  Proof. intros c m H1 H2. unfold tracer_profile, tracer_concentration. rewrite H1, H2. split; reflexivity. Qed.
End C65.
Example c65_nonvacuous : let c := mkConf nat 1%nat [("a", 1)] 2%nat [("b", 2)] None [("x", 5)] (Some 3%nat) [("y", 6)] in
  p_conc nat (tracer_profile nat Nat.eqb c) <> tracer_concentration nat Nat.eqb c /\
  p_params nat (tracer_profile nat Nat.eqb (mkConf nat 1%nat [("a", 1)] 2%nat [("b", 2)] (Some 1%nat) [] None [])) = [("a", 1)].
Proof. cbv zeta. split; [intros H; discriminate H|reflexivity]. Qed.

Print Assumptions c56_any_history.
Print Assumptions c56_precedence.
Print Assumptions c56_direct_mmin_is_lost.
Print Assumptions c65_profile.
Print Assumptions c65_consistent_iff.
