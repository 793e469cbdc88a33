(** Extending and configuring the profiles (C145).  Code under study: /repo/src/halomod/profiles.py:149-166, 241, 364-473, 548-623, 992-1033. *)
From Coq Require Import Reals List Bool String Lra.
From Verif Require Import Model.RBool Model.Profiles Model.ProfileExtend.
Local Open Scope R_scope.

(** what _get_k_variables needs: a known coordinate (untruncated profiles ignore it) *)
Definition known_coord (k : profile_class) (coord : string) : Prop := from_inf k = true \/ coord = "k"%string \/ coord = "kappa"%string.
Definition known_norm (norm : option string) : Prop := norm = None \/ norm = Some "m"%string.

(** C145: every class shipped, and every class a user derives from Profile, has a transform for every wavenumber, mass, concentration; a class derived from ProfileInf that leaves the
    transform to the base class has none: u raises TypeError whatever its arguments *)
Theorem c145_transform : forall s o k kk m norm c coord, known_coord k coord -> known_norm norm ->
  ((exists v, u_call s o k kk m norm c coord = Ok v) <-> k <> CustomInf) /\ (k = CustomInf -> u_call s o k kk m norm c coord = Raise TypeError).
Proof.
  intros s o k kk m norm c coord HC HN.
  assert (G : exists c' K, (if from_inf k then get_k_variables s o kk m None "k" else get_k_variables s o kk m c coord) = Ok (c', K)).
  { destruct (from_inf k) eqn:F.
    - unfold get_k_variables, rs_from_m. destruct (s_moore s); simpl; eauto.
    - destruct HC as [HC|HC]; [congruence|]. unfold get_k_variables, rs_from_m. destruct HC as [-> | ->]; destruct (s_moore s); simpl; eauto. }
  destruct G as (c' & K & G). unfold u_call. rewrite G. cbv beta iota delta [bind].
  destruct k; simpl from_inf; simpl p_of; cbv beta iota delta [call1 call2]; destruct HN as [-> | ->]; simpl; split; try split; intros; try discriminate; eauto; try (destruct H as [v H]; discriminate); try congruence.
Qed.
Print Assumptions c145_transform.

(** the mass is not optional in cdf, although documented as such; if a concentration is given as well, it is the concentration that counts, not the relation at that mass *)
Theorem c145_cdf : forall s o cm_none r c m coord,
  (forall v, cdf_call s o cm_none r c None coord <> Ok v) /\ (forall c0, c = Some c0 -> cdf_call s o cm_none r c None coord = Raise TypeError) /\
  (forall c0 cm', c = Some c0 -> cdf_call s (mkInst (delta_halo o) (mean_dens o) (mean_density0 o) (eta_bloat o) (nu_fn o) cm') cm_none r c (Some m) coord = cdf_call s o cm_none r c (Some m) coord) /\
  (forall c0, c = Some c0 -> cdf_call s o cm_none r c (Some m) "s" = Ok (s_h s (r * c0) / s_h s c0)).
Proof.
  intros s o cm_none r c m coord. split; [|split; [|split]].
  - intros v. unfold cdf_call. destruct c; [discriminate|]. destruct cm_none; discriminate.
  - intros c0 ->. reflexivity.
  - intros c0 cm' ->. unfold cdf_call, cdf, get_r_variables, rs_from_m. destruct (s_moore s); reflexivity.
  - intros c0 ->. unfold cdf_call, cdf, get_r_variables, rs_from_m. destruct (s_moore s); reflexivity.
Qed.
Print Assumptions c145_cdf.

(** Einasto: the table is used exactly for alpha = 0.18 with use_interp (the table was made for that slope), with a warning exactly when a table was asked for and is not used *)
Theorem c145_einasto : forall alpha use_interp table numerical,
  (alpha = 0.18 /\ use_interp = true -> forall K c, einasto_p alpha use_interp table numerical K c = table K c) /\
  (~ (alpha = 0.18 /\ use_interp = true) -> forall K c, einasto_p alpha use_interp table numerical K c = numerical alpha K c) /\
  (snd (einasto_init alpha use_interp) = true <-> use_interp = true /\ fst (einasto_init alpha use_interp) = false).
Proof.
  intros alpha ui table numerical. unfold einasto_p, einasto_init. destruct (Reqb alpha 0.18) eqn:E.
  - apply Reqb_spec in E. destruct ui; simpl; split; [intros _ K c; reflexivity|split; [intros H; exfalso; apply H; auto|split; [discriminate|intros [_ H]; discriminate]]|intros [_ H]; discriminate|].
    split; [intros; reflexivity|split; [discriminate|intros [H _]; discriminate]].
  - assert (N : alpha <> 0.18). { intros H. apply Reqb_spec in H. congruence. } destruct ui; simpl; (split; [intros [H _]; contradiction|split; [intros; reflexivity|]]); split; auto; try discriminate. intros [H _]; discriminate.
Qed.
Print Assumptions c145_einasto.
(** *** concrete cases *)
Example c145_met : known_coord CustomInf "s" /\ known_norm (Some "m"%string) /\ known_coord CNFW "kappa" /\ snd (einasto_init 0.2 true) = true.
Proof.
  split; [left; reflexivity|]. split; [right; reflexivity|]. split; [right; right; reflexivity|]. unfold einasto_init. destruct (Reqb 0.2 0.18) eqn:E; [apply Reqb_spec in E; lra|reflexivity].
Qed.
(** the call spelt out here is the transform the other theorems (C37 to C42, C78, C83) are about *)
Theorem c145_same_transform : forall s o k kk m norm c coord, k <> CustomInf -> s_inf s = from_inf k -> (from_inf k = true -> forall K c c', s_p s K c = s_p s K c') ->
  u_call s o k kk m norm c coord = u s o kk m norm c coord.
Proof.
  intros s o k kk m norm c coord NC E HP. unfold u_call, u. rewrite E. destruct (if from_inf k then _ else _) as [[c' K]|e]; [|reflexivity]. cbv beta iota delta [bind].
  destruct k; simpl from_inf in *; simpl p_of; cbv beta iota delta [call1 call2]; try reflexivity; try congruence; rewrite (HP eq_refl K 0 c'); reflexivity.
Qed.
Print Assumptions c145_same_transform.
