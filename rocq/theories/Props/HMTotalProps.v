(** C98: on every positive wavenumber/separation grid the spectra and correlation functions exist (no exception is raised);
    and the non-vacuity witnesses for the Ok-hypotheses of C57-C64, C66, C69, C90-C93, C96, C97. *)
From Coq Require Import Reals List Bool Arith Lia Lra.
From Verif Require Import Model.RBool Model.SpecialFn Model.Quad Model.ExtSpline Model.Exclusion Model.Profiles Model.HOD Model.HaloModel Model.Cross.
From Verif Require Import Spec.HMSpec Spec.CrossSpec Spec.FindSpec Proofs.HMProofs Proofs.HODProofs Props.HaloModelProps Props.HaloModelProps2 Props.FindMminProps Props.CrossProps.
Import ListNotations.
Local Open Scope R_scope.

Definition known (a : ext_arg) : Prop := a <> ExtOther.
Lemma gef_total : forall us spl fnc x y m mx, known fnc -> (forall v, In v x -> 0 < v) -> exists w f, get_extension_func us spl fnc x y m mx = ExtOk w f.
Proof.
  intros us spl fnc x y m mx K P. destruct fnc as [g| | | |]; simpl; [| |eauto|eauto|now destruct K].
  - destruct m; simpl; eauto. destruct (Reqb (g mx) 0); eauto.
  - replace (forallb (fun v => Rltb 0 v) x) with true. 2: { symmetry. apply forallb_forall. intros v Hv. apply Rltb_spec. auto. } simpl. destruct (_ || _); eauto.
Qed.
Lemma in_firstn : forall {A} n (l : list A) v, In v (firstn n l) -> In v l.
Proof. induction n; intros [|a l] v; simpl; auto; try tauto. intros [H|H]; auto. Qed.
Lemma in_skipn : forall {A} n (l : list A) v, In v (skipn n l) -> In v l.
Proof. induction n; intros [|a l] v; simpl; auto. Qed.
Lemma efun_total : forall sp us n x y lo up ml, grid n x -> known lo -> known up -> exists f, efun sp us (tab n x) y lo up ml = Ok f.
Proof.
  intros sp us n x y lo up ml [G1 [G2 _]] K1 K2. assert (P : forall v, In v (tab n x) -> 0 < v). { intros v Hv. unfold tab in Hv. apply in_map_iff in Hv. destruct Hv as [i [<- Hi]]. apply in_seq in Hi. apply G2. lia. }
  unfold efun, ext_spline_init. cbn [orb]. cbv zeta.
  destruct (gef_total us (sp 3%nat (tab n x) y) lo (firstn 10 (tab n x)) (firstn 10 y) ml (lmin (tab n x)) K1) as [w [f ->]]. { intros v Hv. apply P. eapply in_firstn; eauto. }
  destruct (gef_total us (sp 3%nat (tab n x) y) up (py_last 10 (tab n x)) (py_last 10 y) true (lmax (tab n x)) K2) as [w2 [f2 ->]]. { intros v Hv. apply P. unfold py_last in Hv. eapply in_skipn; eauto. }
  eauto.
Qed.
Section Total.
  Variables (I : quadrature) (sp : nat -> list R -> list R -> R -> R) (us : list R -> list R -> R -> R) (hk : tmode -> (R -> R) -> R -> R) (simp : list R -> list R -> R).
  Ltac kn := first [discriminate | match goal with |- known (if ?b then _ else _) => destruct b; discriminate end | unfold lower_1h; match goal with |- known (if ?b then _ else _) => destruct b; discriminate end].
  Ltac et := match goal with |- exists f, efun _ _ _ _ _ _ _ = Ok f => apply efun_total; [assumption|kn|kn] end.
  Lemma bind_total : forall A B (x : res A) (f : A -> res B), (exists a, x = Ok a) -> (forall a, exists b, f a = Ok b) -> exists b, bind x f = Ok b.
  Proof. intros A B x f [a ->] H. apply H. Qed.
  Lemma rspline_total : forall h t, grid (d_nr h) (d_r h) -> exists f, rspline sp us h t = Ok f.
  Proof. intros h t G. unfold rspline. et. Qed.
  (** the matter spectra and correlations *)
  Theorem c98_matter_total : forall h, grid (d_nk h) (d_k h) -> grid (d_nr h) (d_r h) -> d_noexcl h = true -> d_sd h = None ->
    (exists p, power_1h_matter I sp us h = Ok p) /\ (exists p, power_2h_matter_noexcl I sp us hk h = Ok p) /\ (exists x, corr_1h_matter I sp us hk h = Ok x) /\
    (forall xi2, (exists x, xi2 = Ok x) -> exists x, corr_matter I sp us hk xi2 h = Ok x).
  Proof.
    intros h GK GR N S. assert (A : exists p, power_1h_matter I sp us h = Ok p) by (unfold power_1h_matter; et).
    assert (C : exists x, corr_1h_matter I sp us hk h = Ok x). { unfold corr_1h_matter. apply bind_total; [|intros; et]. destruct (d_lam h); eauto. destruct A as [p ->]. simpl. eauto. }
    split; auto. split; [|split; auto].
    - unfold power_2h_matter_noexcl, power_2h_auto, prim_2h. cbv zeta. rewrite N, S. simpl andb. cbv iota. et.
    - intros xi2 X. unfold corr_matter. apply bind_total; auto. intros a. apply bind_total; eauto.
  Qed.
  (** the tracer spectra and correlations *)
  Theorem c98_tracer_total : forall h t, grid (d_nk h) (d_k h) -> grid (d_nr h) (d_r h) -> d_noexcl h = true -> d_sd h = None ->
    (exists p, power_1h_tracer I sp us h t = Ok p) /\ (exists p, power_2h_tracer_noexcl I sp us hk h t = Ok p) /\ (exists x, corr_1h_tracer I sp us hk h t = Ok x) /\
    (exists x, corr_tm I sp us hk h t = Ok x).
  Proof.
    intros h t GK GR N S. assert (SS : exists p, power_1h_ss I sp us h t = Ok p) by (unfold power_1h_ss; et).
    assert (CS : exists p, power_1h_cs I sp us h t = Ok p) by (unfold power_1h_cs; cbv zeta; et). split; [|split; [|split]].
    - unfold power_1h_tracer. apply bind_total; auto. intros a. apply bind_total; eauto.
    - unfold power_2h_tracer_noexcl, power_2h_auto, prim_2h. cbv zeta. rewrite N, S. simpl andb. cbv iota. et.
    - unfold corr_1h_tracer. destruct (t_lam t) as [lam|] eqn:L; [now apply rspline_total|]. apply bind_total; [unfold corr_1h_cs; now apply rspline_total|]. intros a. apply bind_total; eauto.
      unfold corr_1h_ss. rewrite L. apply bind_total; auto. intros. now apply rspline_total.
    - unfold corr_tm, to_corr. apply bind_total. { apply bind_total; [unfold power_1h_tm; et|intros; now apply rspline_total]. }
      intros a. apply bind_total; eauto. apply bind_total; [unfold power_2h_tm; et|intros; now apply rspline_total].
  Qed.
  (** the cross spectra and correlations: only the first model's grids matter, once the arrays have compatible shapes (for that see C144) *)
  Theorem c98_cross_total : forall h1 h2 t1 t2 c, grid (d_nk h1) (d_k h1) -> grid (d_nr h1) (d_r h1) ->
    (exists p, power_cross I sp us simp h1 h2 t1 t2 c = Ok p) /\ (exists x, corr_cross I sp us hk simp h1 h2 t1 t2 c = Ok x).
  Proof.
    intros h1 h2 t1 t2 c GK GR. assert (A : exists p, power_1h_cross I sp us simp h1 h2 t1 t2 c = Ok p) by (unfold power_1h_cross; et).
    assert (B : exists p, power_2h_cross I sp us h1 h2 t1 t2 = Ok p) by (unfold power_2h_cross; et). split.
    - unfold power_cross. apply bind_total; auto. intros. apply bind_total; eauto.
    - unfold corr_cross, corr_1h_cross, corr_2h_cross, to_corr. apply bind_total. { apply bind_total; auto. intros; now apply rspline_total. }
      intros a. apply bind_total; eauto. apply bind_total; auto. intros; now apply rspline_total.
  Qed.
End Total.
(** finding: with exclusion or a scale-dependent bias, whether anything is returned at all depends on k_hm: a
    low wavenumber in it (below 0.01) while its length differs from that of k raises IndexError *)
Theorem c98_lowk_overwrite_raises_iff : forall h eff out, (exists i, overwrite_lowk h eff out = Raise i) <-> (exists k, In k (d_khm h) /\ k < 1 / 100) /\ length (d_khm h) <> d_nk h.
Proof.
  intros h eff out. unfold overwrite_lowk. destruct (existsb _ _) eqn:E.
  - apply existsb_exists in E. destruct E as [b [Hb ->]]. apply in_map_iff in Hb. destruct Hb as [k [Hk1 Hk2]]. apply Rltb_spec in Hk1. rewrite map_length. destruct (length (d_khm h) =? d_nk h)%nat eqn:Q; simpl.
    + apply Nat.eqb_eq in Q. split; [intros [i H]; discriminate|tauto].
    + apply Nat.eqb_neq in Q. split; eauto.
  - split; [intros [i H]; discriminate|]. intros [[k [H1 H2]] _]. exfalso. assert (Z : existsb (fun b : bool => b) (map (fun k => Rltb k (1 / 100)) (d_khm h)) = true); [|congruence].
    apply existsb_exists. exists true. split; auto. apply in_map_iff. exists k. split; auto. now apply Rltb_spec.
Qed.

(** ** concrete witnesses *)
Definition half : (bool -> R) -> R := fun f => (f true + f false) / 2.
Example expectation_nonvacuous : expectation half.
Proof. unfold half. split; [intros; lra|]. split; [lra|]. split; [intros f H; assert (A := H true); assert (B := H false); lra|]. intros f g H. now rewrite !H. Qed.
(** a fair coin: both tracers have one satellite, or both have none: perfectly correlated *)
Example pairs_nonvacuous : let T := fun b : bool => if b then 1 else 0 in half T = 1 / 2 /\ is_sd half T (1 / 2) /\ is_corr half T T (1 / 2) (1 / 2) 1.
Proof. unfold is_sd, is_corr, covariance, half; simpl. repeat split; lra. Qed.
Lemma interpolates_linterp : interpolates linterp.
Proof.
  intros n x y i [G1 [G2 G3]] Hi. assert (K := linterp_interpolates). unfold interpolates_list in K.
  specialize (K (arr n x) (arr n y) i). unfold arr in *. rewrite !map_length, seq_length in K.
  assert (Nx : forall (f : nat -> R) j, (j < n)%nat -> nth j (map f (seq 0 n)) 0 = f j). { intros f j Hj. rewrite (nth_indep _ 0 (f 0%nat)) by (rewrite map_length, seq_length; lia). rewrite map_nth, seq_nth by lia. f_equal. }
  rewrite !Nx in K by auto. apply K; auto. intros a b Hab. rewrite ?map_length, ?seq_length in Hab. rewrite !Nx by lia. apply G3. lia.
Qed.
(** a concrete model: h0 with a wavenumber grid 1..4 and separations 1..5 *)
Definition h1_ex : dmhm := mkDM 3 (d_m h0) (d_dndm h0) (d_bias h0) 1 4 (fun i => INR (S i)) [1] (fun _ => 1) (fun k => / k) (fun _ => 1) Linear 5 (fun i => INR (S i)) (fun _ _ => 1) None 1 1 200 false false true None.
Lemma grid_INR : forall n, (0 < n)%nat -> grid n (fun i => INR (S i)).
Proof. intros n H. split; auto. split; [intros; apply lt_0_INR; lia|intros; apply lt_INR; lia]. Qed.
Example c98_nonvacuous : forall us hk, exists P xi, power_2h_tracer_noexcl step_quad (fun _ => linterp) us hk h1_ex t0 = Ok P /\ corr_tm step_quad (fun _ => linterp) us hk h1_ex t0 = Ok xi.
Proof.
  intros us hk. destruct (c98_tracer_total step_quad (fun _ => linterp) us hk h1_ex t0) as [_ [[P HP] [_ [x Hx]]]]; simpl; auto; try (apply grid_INR; lia). eauto.
Qed.
(** the self-cross theorem C69 applies to it at every tabulated wavenumber *)
Lemma den_h1_ex : 0 < mean_tracer_den step_quad h1_ex t0.
Proof. assert (K := c58_nonvacuous). exact (proj1 (proj2 K)). Qed.
Example c69_nonvacuous : forall us hk P i, (i < 4)%nat -> power_2h_tracer_noexcl step_quad (fun _ => linterp) us hk h1_ex t0 = Ok P -> p2h_cross step_quad h1_ex h1_ex t0 t0 i = P (d_k h1_ex i).
Proof.
  intros us hk P i Hi H. eapply c69_self_cross_2h; eauto; try reflexivity; try exact step_quad_linear; try exact interpolates_linterp; [apply grid_INR; simpl; lia|]. assert (K := den_h1_ex). lra.
Qed.
Example c97_nonvacuous : forall us hk simp c, exists xi, corr_cross step_quad (fun _ => linterp) us hk simp h1_ex h1_ex t0 t0 c = Ok xi /\ xi 6 = 1.
Proof.
  intros us hk simp c. destruct (c98_cross_total step_quad (fun _ => linterp) us hk simp h1_ex h1_ex t0 t0 c) as [_ [xi Hx]]; try (apply grid_INR; simpl; lia). exists xi. split; auto.
  assert (G1 : grid (d_nk h1_ex) (d_k h1_ex)) by (apply grid_INR; simpl; lia). assert (G2 : grid (d_nr h1_ex) (d_r h1_ex)) by (apply grid_INR; simpl; lia).
  assert (A : exists p, power_1h_cross step_quad (fun _ => linterp) us simp h1_ex h1_ex t0 t0 c = Ok p) by (apply efun_total; auto; discriminate).
  assert (B : exists p, power_2h_cross step_quad (fun _ => linterp) us h1_ex h1_ex t0 t0 = Ok p) by (apply efun_total; auto; discriminate). destruct A as [p1 A], B as [p2 B].
  destruct (c97_corr_cross step_quad (fun _ => linterp) us hk simp h1_ex h1_ex t0 t0 c xi p1 p2 0%nat interpolates_linterp G2 ltac:(simpl; lia) A B Hx) as [_ K]. apply K. simpl. lra.
Qed.
Print Assumptions c98_tracer_total.
Print Assumptions c98_lowk_overwrite_raises_iff.
