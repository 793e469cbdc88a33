From Coq Require Import Reals List Bool ZArith Lra Lia.
From Verif Require Import Model.NumpyList Model.RBool Model.ExtSpline Model.SplineInt
  Spec.ExtSpec.
Import ListNotations.
Local Open Scope R_scope.

(** ** lists of reals *)
Lemma fold_min_le : forall l a, fold_left Rmin l a <= a.
Proof.
  induction l as [|x l IH]; intros a; simpl; [lra|].
  eapply Rle_trans; [apply IH|apply Rmin_l].
Qed.
Lemma fold_max_ge : forall l a, a <= fold_left Rmax l a.
Proof.
  induction l as [|x l IH]; intros a; simpl; [lra|].
  eapply Rle_trans; [|apply IH]. apply Rmax_l.
Qed.
Lemma lmin_le_lmax : forall l, lmin l <= lmax l.
Proof.
  destruct l as [|x l]; simpl; [lra|].
  pose proof (fold_min_le l x). pose proof (fold_max_ge l x). lra.
Qed.
Lemma fold_min_lb : forall l a x, In x l -> fold_left Rmin l a <= x.
Proof.
  induction l as [|y l IH]; intros a x H; simpl in *; [tauto|].
  destruct H as [->|H]; [|apply IH; exact H].
  eapply Rle_trans; [apply fold_min_le|apply Rmin_r].
Qed.
Lemma fold_max_ub : forall l a x, In x l -> x <= fold_left Rmax l a.
Proof.
  induction l as [|y l IH]; intros a x H; simpl in *; [tauto|].
  destruct H as [->|H]; [|apply IH; exact H].
  eapply Rle_trans; [|apply fold_max_ge]. apply Rmax_r.
Qed.
Lemma lmin_lb : forall l x, In x l -> lmin l <= x.
Proof.
  intros [|y l] x H; simpl in *; [tauto|]. destruct H as [->|H].
  - apply fold_min_le. - apply fold_min_lb; exact H.
Qed.
Lemma lmax_ub : forall l x, In x l -> x <= lmax l.
Proof.
  intros [|y l] x H; simpl in *; [tauto|]. destruct H as [->|H].
  - apply fold_max_ge. - apply fold_max_ub; exact H.
Qed.
Lemma fold_min_in : forall l a, In (fold_left Rmin l a) (a :: l).
Proof.
  induction l as [|y l IH]; intros a; simpl; [left; reflexivity|].
  destruct (IH (Rmin a y)) as [H|H].
  - unfold Rmin in *. destruct (Rle_dec a y); rewrite <- H; auto.
  - right; right; exact H.
Qed.
Lemma fold_max_in : forall l a, In (fold_left Rmax l a) (a :: l).
Proof.
  induction l as [|y l IH]; intros a; simpl; [left; reflexivity|].
  destruct (IH (Rmax a y)) as [H|H].
  - unfold Rmax in *. destruct (Rle_dec a y); rewrite <- H; auto.
  - right; right; exact H.
Qed.
Lemma lmin_in : forall l, l <> [] -> In (lmin l) l.
Proof. intros [|x l] H; [congruence|]. apply fold_min_in. Qed.
Lemma lmax_in : forall l, l <> [] -> In (lmax l) l.
Proof. intros [|x l] H; [congruence|]. apply fold_max_in. Qed.

(** ** mask / scatter *)
Lemma combine_map2 : forall {A B C} (f : A -> B) (g : A -> C) l,
  combine (map f l) (map g l) = map (fun x => (f x, g x)) l.
Proof. induction l as [|x l IH]; simpl; auto. rewrite IH; reflexivity. Qed.

Lemma scatter_map : forall {A B} (f : A -> bool) (g h : A -> B) (l : list A),
  scatter (map f l) (map g (bmask (map f l) l)) (map h l)
  = map (fun x => if f x then g x else h x) l.
Proof.
  induction l as [|x l IH]; simpl; auto.
  destruct (f x); simpl; rewrite IH; reflexivity.
Qed.

Lemma call_array_pointwise : forall d s xs, es_xmin s <= es_xmax s ->
  call_array d s xs = map (fun x => cast d (call_scalar s x)) xs.
Proof.
  intros d s xs H. unfold call_array. rewrite combine_map2, map_map. cbn [fst snd].
  rewrite !map_map. rewrite !scatter_map. apply map_ext. intros x. unfold call_scalar.
  destruct (Rltb x (es_xmin s)) eqn:E1; destruct (Rltb (es_xmax s) x) eqn:E2; simpl; auto.
  apply Rltb_spec in E1. apply Rltb_spec in E2. lra.
Qed.

Section Ctor.
  Variable spline : nat -> list R -> list R -> R -> R.
  Variable uspline : list R -> list R -> R -> R.

  Lemma ctor_fields : forall x y lo up ml mu d0 d1 k ln_ un s,
    ext_spline_init spline uspline x y lo up ml mu d0 d1 k ln_ un = CtorOk s ->
    es_xmin s = lmin x /\ es_xmax s = lmax x /\ es_spl s = spline k x y /\
    (exists w, get_extension_func uspline (spline k x y) lo (firstn ln_ x) (firstn ln_ y) ml (lmin x)
               = ExtOk w (es_lfunc s)) /\
    (exists w, get_extension_func uspline (spline k x y) up (py_last un x) (py_last un y) mu (lmax x)
               = ExtOk w (es_ufunc s)).
  Proof.
    intros x y lo up ml mu d0 d1 k ln_ un s H. unfold ext_spline_init in H.
    destruct (_ || _); [discriminate|].
    destruct (get_extension_func uspline (spline k x y) lo (firstn ln_ x) (firstn ln_ y) ml (lmin x)) as [w1 lf| |] eqn:E1;
      try discriminate.
    destruct (get_extension_func uspline (spline k x y) up (py_last un x) (py_last un y) mu (lmax x)) as [w2 uf| |] eqn:E2;
      try discriminate.
    inversion H; subst; simpl. eauto 10.
  Qed.

  Lemma call_elementwise : forall x y lo up ml mu d0 d1 k ln_ un s,
    ext_spline_init spline uspline x y lo up ml mu d0 d1 k ln_ un = CtorOk s ->
    forall d v, call_array d s v = map (fun t => cast d (call_scalar s t)) v.
  Proof.
    intros x y lo up ml mu d0 d1 k ln_ un s H d v.
    apply call_array_pointwise. apply ctor_fields in H. destruct H as (-> & -> & _).
    apply lmin_le_lmax.
  Qed.

  (* the three regions, in terms of the constructor's data *)
  Lemma call_regions : forall x y lo up ml mu d0 d1 k ln_ un s,
    ext_spline_init spline uspline x y lo up ml mu d0 d1 k ln_ un = CtorOk s ->
    forall t,
    (lmin x <= t <= lmax x -> call_scalar s t = spline k x y t) /\
    (t < lmin x -> exists w lf,
       get_extension_func uspline (spline k x y) lo (firstn ln_ x) (firstn ln_ y) ml (lmin x) = ExtOk w lf
       /\ call_scalar s t = lf t) /\
    (lmax x < t -> exists w uf,
       get_extension_func uspline (spline k x y) up (py_last un x) (py_last un y) mu (lmax x) = ExtOk w uf
       /\ call_scalar s t = uf t).
  Proof.
    intros x y lo up ml mu d0 d1 k ln_ un s H t.
    apply ctor_fields in H. destruct H as (E1 & E2 & E3 & (w1 & E4) & (w2 & E5)).
    unfold call_scalar. rewrite E1, E2, E3.
    pose proof (lmin_le_lmax x) as Hm.
    split; [|split]; intros Ht.
    - replace (Rltb t (lmin x)) with false by (symmetry; apply Rltb_false; lra).
      replace (Rltb (lmax x) t) with false by (symmetry; apply Rltb_false; lra). reflexivity.
    - replace (Rltb t (lmin x)) with true by (symmetry; apply Rltb_spec; lra).
      exists w1, (es_lfunc s). split; [exact E4|reflexivity].
    - replace (Rltb t (lmin x)) with false by (symmetry; apply Rltb_false; lra).
      replace (Rltb (lmax x) t) with true by (symmetry; apply Rltb_spec; lra).
      exists w2, (es_ufunc s). split; [exact E5|reflexivity].
  Qed.

  (** extensions *)
  Lemma ext_matched : forall spl g xs ys mx, g mx <> 0 ->
    exists f, get_extension_func uspline spl (ExtCallable g) xs ys true mx = ExtOk false f /\
      f mx = spl mx /\ forall t, f t = g t * (spl mx / g mx).
  Proof.
    intros spl g xs ys mx H. eexists. simpl.
    replace (Reqb (g mx) 0) with false by (symmetry; apply Reqb_false; exact H).
    split; [reflexivity|]. unfold normed_callable. split; [field; exact H|reflexivity].
  Qed.
  Lemma ext_vanishing : forall spl g xs ys mx, g mx = 0 ->
    get_extension_func uspline spl (ExtCallable g) xs ys true mx = ExtOk false g.
  Proof.
    intros spl g xs ys mx H. simpl.
    replace (Reqb (g mx) 0) with true by (symmetry; apply Reqb_spec; exact H). reflexivity.
  Qed.
  Lemma ext_unmatched : forall spl g xs ys mx,
    get_extension_func uspline spl (ExtCallable g) xs ys false mx = ExtOk false g.
  Proof. reflexivity. Qed.
  Lemma ext_boundary : forall spl xs ys mtch mx,
    exists f, get_extension_func uspline spl ExtBoundary xs ys mtch mx = ExtOk false f /\
      forall t, f t = spl mx.
  Proof.
    intros. eexists; split; [reflexivity|]. intros t; unfold boundary_extension; ring.
  Qed.

  Lemma forallb_ltb0 : forall l, forallb (fun v => Rltb 0 v) l = true <-> Forall (fun v => 0 < v) l.
  Proof.
    intros l. rewrite forallb_forall, Forall_forall. split; intros H v Hv.
    - apply Rltb_spec; auto. - apply Rltb_spec; auto.
  Qed.

  Lemma ext_powerlaw_pos : forall spl xs ys mtch mx,
    Forall (fun v => 0 < v) xs -> Forall (fun v => 0 < v) ys -> ys <> [] ->
    exists f, get_extension_func uspline spl ExtPowerLaw xs ys mtch mx = ExtOk false f /\
      (forall t, f t = exp (uspline (map ln xs) (map ln ys) (ln t))) /\
      (forall t, 0 < f t).
  Proof.
    intros spl xs ys mtch mx Hx Hy Hn.
    destruct ys as [|y0 ys]; [congruence|]. eexists. unfold get_extension_func.
    rewrite (proj2 (forallb_ltb0 xs) Hx), (proj2 (forallb_ltb0 (y0 :: ys)) Hy). simpl.
    inversion Hy as [|? ? Hy0 Hy']; subst. simpl.
    replace (Rltb y0 0) with false by (symmetry; apply Rltb_false; lra). simpl.
    split; [reflexivity|].
    assert (E : map (fun v : R => ln (v * 1)) ys = map ln ys)
      by (apply map_ext; intros; f_equal; ring).
    split; intros t; unfold power_law_extension.
    - rewrite E, !Rmult_1_r. reflexivity.
    - rewrite Rmult_1_r. apply exp_pos.
  Qed.

  Lemma ext_powerlaw_otherwise : forall spl xs ys mtch mx,
    Forall (fun v => 0 < v) xs -> ~ Forall (fun v => 0 < v) ys ->
    exists f, get_extension_func uspline spl ExtPowerLaw xs ys mtch mx = ExtOk true f /\
      forall t, f t = 0.
  Proof.
    intros spl xs ys mtch mx Hx Hy. eexists. simpl.
    rewrite (proj2 (forallb_ltb0 xs) Hx). simpl.
    destruct (forallb (fun v => Rltb 0 v) ys) eqn:E.
    - exfalso. apply Hy. apply forallb_ltb0. exact E.
    - simpl. split; [reflexivity|]. reflexivity.
  Qed.

  Lemma ext_powerlaw_assert : forall spl xs ys mtch mx,
    get_extension_func uspline spl ExtPowerLaw xs ys mtch mx = ExtAssertionError
    <-> ~ Forall (fun v => 0 < v) xs.
  Proof.
    intros spl xs ys mtch mx. simpl.
    destruct (forallb (fun v => Rltb 0 v) xs) eqn:E; simpl.
    - split; intros H; [|exfalso; apply H; apply forallb_ltb0; exact E].
      destruct (_ || _); discriminate.
    - split; intros H; [|reflexivity]. intros K. apply forallb_ltb0 in K. congruence.
  Qed.

  Lemma ext_powerlaw_affine : forall spl xs ys mtch mx a b,
    Forall (fun v => 0 < v) xs -> Forall (fun v => 0 < v) ys -> ys <> [] ->
    (forall u, uspline (map ln xs) (map ln ys) u = a + b * u) ->
    exists f, get_extension_func uspline spl ExtPowerLaw xs ys mtch mx = ExtOk false f /\
      forall t, 0 < t -> f t = exp a * Rpower t b.
  Proof.
    intros spl xs ys mtch mx a b Hx Hy Hn Hu.
    destruct (ext_powerlaw_pos spl xs ys mtch mx Hx Hy Hn) as (f & E & F & _).
    exists f. split; [exact E|]. intros t Ht. rewrite F, Hu, exp_plus. reflexivity.
  Qed.

  Lemma ext_valueerror : forall spl fnc xs ys mtch mx,
    get_extension_func uspline spl fnc xs ys mtch mx = ExtValueError <-> fnc = ExtOther.
  Proof.
    intros spl fnc xs ys mtch mx. split; intros H; [|subst; reflexivity].
    destruct fnc as [g| | | |]; simpl in H; try congruence.
    - destruct mtch; simpl in H; [destruct (Reqb _ _)|]; discriminate.
    - destruct (negb _); [discriminate|]. destruct (_ || _); discriminate.
  Qed.
End Ctor.

(** ** spline_integral *)
Section SI.
  Variable I : list R -> list R -> R -> R -> R.

  Lemma si_log_value : forall x f xmin xmax,
    value (spline_integral I x f xmin xmax true)
    = I (map ln x) (xtimesf x f)
        (ln (match xmin with Some v => v | None => lmin x end))
        (ln (match xmax with Some v => v | None => lmax x end)).
  Proof. intros x f [a|] [b|]; reflexivity. Qed.

  Lemma truthy_some : forall v, v <> 0 -> truthy (Some v) = true.
  Proof.
    intros v H; simpl. replace (Reqb v 0) with false by (symmetry; apply Reqb_false; exact H).
    reflexivity.
  Qed.
  Lemma truthy_zero : truthy (Some 0) = false.
  Proof.
    simpl. replace (Reqb 0 0) with true by (symmetry; apply Reqb_spec; reflexivity). reflexivity.
  Qed.

  Definition honoured (o : option R) (d : R) : R :=
    match o with Some v => v | None => d end.

  Lemma si_lin_value : forall x f xmin xmax,
    xmin <> Some 0 -> xmax <> Some 0 ->
    value (spline_integral I x f xmin xmax false)
    = I x f (honoured xmin (lmin x)) (honoured xmax (lmax x)).
  Proof.
    intros x f xmin xmax H1 H2. unfold spline_integral, value, or_default, honoured.
    assert (E : forall o d, o <> Some 0 ->
      (if truthy o then match o with Some v => v | None => d end else d)
      = match o with Some v => v | None => d end).
    { intros [v|] d H; [|reflexivity].
      rewrite truthy_some; [reflexivity|]. intros ->; apply H; reflexivity. }
    rewrite !E by assumption. reflexivity.
  Qed.

  Lemma si_lin_zero_lower : forall x f xmax,
    spline_integral I x f (Some 0) xmax false = spline_integral I x f None xmax false.
  Proof.
    intros x f xmax. unfold spline_integral, or_default. rewrite truthy_zero. reflexivity.
  Qed.
  Lemma si_lin_zero_upper : forall x f xmin,
    spline_integral I x f xmin (Some 0) false = spline_integral I x f xmin None false.
  Proof.
    intros x f xmin. unfold spline_integral, or_default. rewrite truthy_zero. reflexivity.
  Qed.

  Lemma si_warn_lower : forall x f xmin xmax lg,
    warn_lower (spline_integral I x f xmin xmax lg) = true
    <-> exists v, xmin = Some v /\ v <> 0 /\ v < lmin x.
  Proof.
    intros x f xmin xmax lg. unfold spline_integral, warn_lower. rewrite andb_true_iff.
    split.
    - intros [H1 H2]. destruct xmin as [v|]; [|discriminate]. exists v.
      split; [reflexivity|]. split.
      + intros ->. rewrite truthy_zero in H1. discriminate.
      + apply Rltb_spec; exact H2.
    - intros (v & -> & H1 & H2). split; [apply truthy_some; exact H1|apply Rltb_spec; exact H2].
  Qed.
  Lemma si_warn_upper : forall x f xmin xmax lg,
    warn_upper (spline_integral I x f xmin xmax lg) = true
    <-> exists v, xmax = Some v /\ v <> 0 /\ lmax x < v.
  Proof.
    intros x f xmin xmax lg. unfold spline_integral, warn_upper. rewrite andb_true_iff.
    split.
    - intros [H1 H2]. destruct xmax as [v|]; [|discriminate]. exists v.
      split; [reflexivity|]. split.
      + intros ->. rewrite truthy_zero in H1. discriminate.
      + apply Rltb_spec; exact H2.
    - intros (v & -> & H1 & H2). split; [apply truthy_some; exact H1|apply Rltb_spec; exact H2].
  Qed.

  Lemma si_additive : (forall xs ys a b c, I xs ys a b + I xs ys b c = I xs ys a c) ->
    forall x f lg a b c, (lg = false -> a <> Some 0 /\ b <> 0 /\ c <> Some 0) ->
    value (spline_integral I x f a (Some b) lg) + value (spline_integral I x f (Some b) c lg)
    = value (spline_integral I x f a c lg).
  Proof.
    intros Hadd x f lg a b c H. destruct lg.
    - rewrite !si_log_value. apply Hadd.
    - destruct (H eq_refl) as (H1 & H2 & H3).
      assert (Hb : Some b <> Some 0) by (intros E; inversion E; contradiction).
      rewrite !si_lin_value by assumption. simpl. apply Hadd.
  Qed.

  Lemma xtimesf_lin : forall x f g s t, length f = length x -> length g = length x ->
    xtimesf x (map (fun p => s * fst p + t * snd p) (combine f g))
    = map (fun p => s * fst p + t * snd p) (combine (xtimesf x f) (xtimesf x g)).
  Proof.
    induction x as [|x0 x IH]; intros [|f0 f] [|g0 g] s t Hf Hg; simpl in *; try discriminate; auto.
    unfold xtimesf in *. simpl. rewrite IH by congruence. f_equal. ring.
  Qed.
  Lemma xtimesf_len : forall x f, length f = length x -> length (xtimesf x f) = length x.
  Proof.
    intros x f H. unfold xtimesf. rewrite map_length, combine_length, H. apply Nat.min_id.
  Qed.

  Lemma si_linear :
    (forall xs ys zs a b s t, length ys = length xs -> length zs = length xs ->
       I xs (map (fun p => s * fst p + t * snd p) (combine ys zs)) a b
       = s * I xs ys a b + t * I xs zs a b) ->
    forall x f g xmin xmax lg s t, length f = length x -> length g = length x ->
    value (spline_integral I x (map (fun p => s * fst p + t * snd p) (combine f g)) xmin xmax lg)
    = s * value (spline_integral I x f xmin xmax lg)
      + t * value (spline_integral I x g xmin xmax lg).
  Proof.
    intros Hlin x f g xmin xmax lg s t Hf Hg. destruct lg.
    - rewrite !si_log_value, xtimesf_lin by assumption. apply Hlin;
        rewrite map_length; apply xtimesf_len; assumption.
    - unfold spline_integral, value. apply Hlin; assumption.
  Qed.
End SI.

From Coquelicot Require Import Coquelicot.

Section Continuity.
  Variable spline : nat -> list R -> list R -> R -> R.
  Variable uspline : list R -> list R -> R -> R.

  Lemma matched_lower_cont : forall x y g up mu d0 d1 k ln_ un s,
    ext_spline_init spline uspline x y (ExtCallable g) up true mu d0 d1 k ln_ un = CtorOk s ->
    g (lmin x) <> 0 ->
    (forall t, t < lmin x -> call_scalar s t = g t * (spline k x y (lmin x) / g (lmin x))) /\
    (continuous g (lmin x) ->
     filterlim (call_scalar s) (at_left (lmin x)) (locally (call_scalar s (lmin x)))).
  Proof.
    intros x y g up mu d0 d1 k ln_ un s H Hg.
    assert (A : forall t, t < lmin x -> call_scalar s t = g t * (spline k x y (lmin x) / g (lmin x))).
    { intros t Ht. destruct (call_regions _ _ _ _ _ _ _ _ _ _ _ _ _ _ H t) as (_ & L & _).
      destruct (L Ht) as (w & lf & E & ->).
      destruct (ext_matched uspline (spline k x y) g (firstn ln_ x) (firstn ln_ y) (lmin x) Hg)
        as (f & E' & _ & F). rewrite E' in E. inversion E; subst. apply F. }
    split; [exact A|]. intros Hc.
    destruct (call_regions _ _ _ _ _ _ _ _ _ _ _ _ _ _ H (lmin x)) as (M & _ & _).
    rewrite M by (pose proof (lmin_le_lmax x); lra).
    apply filterlim_ext_loc with (fun t => g t * (spline k x y (lmin x) / g (lmin x))).
    { exists (mkposreal 1 Rlt_0_1). intros t _ Ht. symmetry. apply A. exact Ht. }
    apply (filterlim_filter_le_1 (F := locally (lmin x))).
    { intros P [e He]. exists e. intros t Ht _. apply He; exact Ht. }
    assert (C : continuous (fun t => g t * (spline k x y (lmin x) / g (lmin x))) (lmin x)).
    { apply (continuous_mult (K := R_AbsRing) g (fun _ => spline k x y (lmin x) / g (lmin x))).
      exact Hc. apply continuous_const. }
    unfold continuous in C.
    replace (g (lmin x) * (spline k x y (lmin x) / g (lmin x))) with (spline k x y (lmin x)) in C
      by (field; exact Hg).
    exact C.
  Qed.

  Lemma matched_upper_cont : forall x y g lo ml d0 d1 k ln_ un s,
    ext_spline_init spline uspline x y lo (ExtCallable g) ml true d0 d1 k ln_ un = CtorOk s ->
    g (lmax x) <> 0 ->
    (forall t, lmax x < t -> call_scalar s t = g t * (spline k x y (lmax x) / g (lmax x))) /\
    (continuous g (lmax x) ->
     filterlim (call_scalar s) (at_right (lmax x)) (locally (call_scalar s (lmax x)))).
  Proof.
    intros x y g lo ml d0 d1 k ln_ un s H Hg.
    assert (A : forall t, lmax x < t -> call_scalar s t = g t * (spline k x y (lmax x) / g (lmax x))).
    { intros t Ht. destruct (call_regions _ _ _ _ _ _ _ _ _ _ _ _ _ _ H t) as (_ & _ & L).
      destruct (L Ht) as (w & lf & E & ->).
      destruct (ext_matched uspline (spline k x y) g (py_last un x) (py_last un y) (lmax x) Hg)
        as (f & E' & _ & F). rewrite E' in E. inversion E; subst. apply F. }
    split; [exact A|]. intros Hc.
    destruct (call_regions _ _ _ _ _ _ _ _ _ _ _ _ _ _ H (lmax x)) as (M & _ & _).
    rewrite M by (pose proof (lmin_le_lmax x); lra).
    apply filterlim_ext_loc with (fun t => g t * (spline k x y (lmax x) / g (lmax x))).
    { exists (mkposreal 1 Rlt_0_1). intros t _ Ht. symmetry. apply A. exact Ht. }
    apply (filterlim_filter_le_1 (F := locally (lmax x))).
    { intros P [e He]. exists e. intros t Ht _. apply He; exact Ht. }
    assert (C : continuous (fun t => g t * (spline k x y (lmax x) / g (lmax x))) (lmax x)).
    { apply (continuous_mult (K := R_AbsRing) g (fun _ => spline k x y (lmax x) / g (lmax x))).
      exact Hc. apply continuous_const. }
    unfold continuous in C.
    replace (g (lmax x) * (spline k x y (lmax x) / g (lmax x))) with (spline k x y (lmax x)) in C
      by (field; exact Hg).
    exact C.
  Qed.

  Lemma ext_value_ok : forall spl fnc xs ys mtch mx w f t,
    get_extension_func uspline spl fnc xs ys mtch mx = ExtOk w f ->
    ext_value uspline spl fnc xs ys mtch mx t (f t).
  Proof.
    intros spl fnc xs ys mtch mx w f t H. destruct fnc as [g| | | |]; simpl.
    - split.
      + intros [->|E].
        * simpl in H. inversion H; reflexivity.
        * destruct mtch; [|simpl in H; inversion H; reflexivity].
          rewrite ext_vanishing in H by exact E. inversion H; reflexivity.
      + intros -> E. destruct (ext_matched uspline spl g xs ys mx E) as (f' & E' & _ & F).
        rewrite E' in H. inversion H; subst. apply F.
    - assert (Hx : List.Forall (fun v => 0 < v) xs).
      { destruct (forallb (fun v => Rltb 0 v) xs) eqn:E; [apply forallb_ltb0; exact E|].
        exfalso. assert (~ List.Forall (fun v => 0 < v) xs) as K
          by (intros K; apply forallb_ltb0 in K; congruence).
        apply (ext_powerlaw_assert uspline spl xs ys mtch mx) in K. congruence. }
      split.
      + intros Hy Hn. destruct (ext_powerlaw_pos uspline spl xs ys mtch mx Hx Hy Hn) as (f' & E' & F & P).
        rewrite E' in H. inversion H; subst. split; [apply F|apply P].
      + intros Hy. destruct (ext_powerlaw_otherwise uspline spl xs ys mtch mx Hx Hy) as (f' & E' & F).
        rewrite E' in H. inversion H; subst. apply F.
    - simpl in H. inversion H. unfold boundary_extension. ring.
    - simpl in H. inversion H. reflexivity.
    - discriminate H.
  Qed.

  Lemma ctor_extension_values : forall x y lo up ml mu d0 d1 k ln_ un s,
    ext_spline_init spline uspline x y lo up ml mu d0 d1 k ln_ un = CtorOk s ->
    (forall t, lmin x <= t <= lmax x -> call_scalar s t = spline k x y t) /\
    (forall t, t < lmin x ->
       ext_value uspline (spline k x y) lo (firstn ln_ x) (firstn ln_ y) ml (lmin x) t (call_scalar s t)) /\
    (forall t, lmax x < t ->
       ext_value uspline (spline k x y) up (py_last un x) (py_last un y) mu (lmax x) t (call_scalar s t)).
  Proof.
    intros x y lo up ml mu d0 d1 k ln_ un s H.
    pose proof (call_regions _ _ _ _ _ _ _ _ _ _ _ _ _ _ H) as C.
    split; [|split]; intros t Ht; destruct (C t) as (A & B & D).
    - apply A; exact Ht.
    - destruct (B Ht) as (w & lf & E & ->). eapply ext_value_ok; exact E.
    - destruct (D Ht) as (w & lf & E & ->). eapply ext_value_ok; exact E.
  Qed.
End Continuity.

Lemma py_last_nonempty : forall n (l : list R), l <> [] -> py_last n l <> [].
Proof.
  intros [|n] l H; simpl; [exact H|]. intros E.
  apply (f_equal (@length R)) in E. rewrite skipn_length in E.
  assert (length l <> 0)%nat by (destruct l; [congruence|discriminate]).
  change (length (@nil R)) with 0%nat in E. lia.
Qed.
