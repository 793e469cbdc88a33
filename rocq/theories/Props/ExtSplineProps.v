(** Theorems about ExtendedSpline and spline_integral (C18-C21).  scipy's
    splines ([spline], [uspline], [I]) are arbitrary. *)
From Coq Require Import Reals List Bool Lra Lia.
From Verif Require Import Model.RBool Model.ExtSpline Model.SplineInt Spec.ExtSpec
  Proofs.ExtSplineProofs.
From Coquelicot Require Import Coquelicot.
Import ListNotations.
Local Open Scope R_scope.

(** C18: array evaluation is element-wise scalar evaluation (float arrays);
    an integer array is silently truncated element by element. *)
Theorem extended_spline_elementwise :
  forall spline uspline x y lo up ml mu d0 d1 k n1 n2 s,
  ext_spline_init spline uspline x y lo up ml mu d0 d1 k n1 n2 = CtorOk s ->
  forall v, call_array DFloat s v = map (call_scalar s) v /\
            call_array DInt s v = map (fun t => trunc (call_scalar s t)) v.
Proof.
  intros spline uspline x y lo up ml mu d0 d1 k n1 n2 s H v.
  exact (conj (call_elementwise spline uspline x y lo up ml mu d0 d1 k n1 n2 s H DFloat v)
              (call_elementwise spline uspline x y lo up ml mu d0 d1 k n1 n2 s H DInt v)).
Qed.
Print Assumptions extended_spline_elementwise.

(** C18, C19, C20: the value at every point, for every option at each end. *)
Theorem extended_spline_piecewise :
  forall spline uspline x y lo up ml mu d0 d1 k n1 n2 s,
  ext_spline_init spline uspline x y lo up ml mu d0 d1 k n1 n2 = CtorOk s ->
  (forall t, lmin x <= t <= lmax x -> call_scalar s t = spline k x y t) /\
  (forall t, t < lmin x ->
     ext_value uspline (spline k x y) lo (firstn n1 x) (firstn n1 y) ml (lmin x) t
       (call_scalar s t)) /\
  (forall t, lmax x < t ->
     ext_value uspline (spline k x y) up (py_last n2 x) (py_last n2 y) mu (lmax x) t
       (call_scalar s t)).
Proof. exact ctor_extension_values. Qed.
Print Assumptions extended_spline_piecewise.

(** C19: continuity at a matched end. *)
Theorem extended_spline_matched_lower_continuous :
  forall spline uspline x y g up mu d0 d1 k n1 n2 s,
  ext_spline_init spline uspline x y (ExtCallable g) up true mu d0 d1 k n1 n2 = CtorOk s ->
  g (lmin x) <> 0 ->
  (forall t, t < lmin x -> call_scalar s t = g t * (spline k x y (lmin x) / g (lmin x))) /\
  (continuous g (lmin x) ->
   filterlim (call_scalar s) (at_left (lmin x)) (locally (call_scalar s (lmin x)))).
Proof. exact matched_lower_cont. Qed.
Print Assumptions extended_spline_matched_lower_continuous.

Theorem extended_spline_matched_upper_continuous :
  forall spline uspline x y g lo ml d0 d1 k n1 n2 s,
  ext_spline_init spline uspline x y lo (ExtCallable g) ml true d0 d1 k n1 n2 = CtorOk s ->
  g (lmax x) <> 0 ->
  (forall t, lmax x < t -> call_scalar s t = g t * (spline k x y (lmax x) / g (lmax x))) /\
  (continuous g (lmax x) ->
   filterlim (call_scalar s) (at_right (lmax x)) (locally (call_scalar s (lmax x)))).
Proof. exact matched_upper_cont. Qed.
Print Assumptions extended_spline_matched_upper_continuous.

Theorem extension_invalid_option_iff : forall uspline spl fnc xs ys mtch mx,
  get_extension_func uspline spl fnc xs ys mtch mx = ExtValueError <-> fnc = ExtOther.
Proof. exact ext_valueerror. Qed.

(** C19: construction succeeds exactly when every sample abscissa is in the declared domain, both options are known and a power law is
    asked for only over positive abscissae; data outside the domain raise ValueError whatever the options *)
Definition option_ok (opt : ext_arg) (xs : list R) : Prop := opt <> ExtOther /\ (opt = ExtPowerLaw -> List.Forall (fun v => 0 < v) xs).
Definition in_domain (d0 d1 : option R) (v : R) : Prop := (forall d, d0 = Some d -> d <= v) /\ (forall d, d1 = Some d -> v <= d).
Theorem extended_spline_constructed_iff : forall spline uspline x y lo up ml mu d0 d1 k n1 n2, x <> nil ->
  ((exists s, ext_spline_init spline uspline x y lo up ml mu d0 d1 k n1 n2 = CtorOk s) <->
   (List.Forall (in_domain d0 d1) x /\ option_ok lo (firstn n1 x) /\ option_ok up (py_last n2 x))) /\
  (~ List.Forall (in_domain d0 d1) x -> ext_spline_init spline uspline x y lo up ml mu d0 d1 k n1 n2 = CtorValueError).
Proof.
  intros spline uspline x y lo up ml mu d0 d1 k n1 n2 Hx.
  assert (D : List.Forall (in_domain d0 d1) x <-> match d0 with Some d => Rltb (lmin x) d | None => false end || match d1 with Some d => Rltb d (lmax x) | None => false end = false).
  { rewrite orb_false_iff, Forall_forall. split.
    - intros H. split; [destruct d0 as [d|]|destruct d1 as [d|]]; auto; apply Rltb_false.
      + apply (proj1 (H _ (lmin_in x Hx))). reflexivity.
      + apply (proj2 (H _ (lmax_in x Hx))). reflexivity.
    - intros [A B] v Hv. split; intros d ->; [apply Rltb_false in A; assert (M := lmin_lb x v Hv); lra|apply Rltb_false in B; assert (M := lmax_ub x v Hv); lra]. }
  assert (G : forall spl opt xs ys mt mx, (exists w f, get_extension_func uspline spl opt xs ys mt mx = ExtOk w f) <-> option_ok opt xs).
  { intros spl opt xs ys mt mx. unfold option_ok. assert (V := ext_valueerror uspline spl opt xs ys mt mx). split.
    - intros [w [f E]]. split; [intros ->; discriminate|]. intros ->. destruct (Forall_dec (fun v => 0 < v) (fun v => Rlt_dec 0 v) xs) as [F|F]; auto. apply (ext_powerlaw_assert uspline spl xs ys mt mx) in F. congruence.
    - intros [N P]. destruct (get_extension_func uspline spl opt xs ys mt mx) as [w f| |] eqn:E; [eauto| |exfalso; apply N; now apply V].
      exfalso. destruct opt as [g| | | |]; simpl in E; try discriminate; [destruct mt; simpl in E; [destruct (Reqb _ _)|]; discriminate|]. change (get_extension_func uspline spl ExtPowerLaw xs ys mt mx = ExtAssertionError) in E. apply ext_powerlaw_assert in E. apply E. now apply P. }
  split.
  - rewrite D. rewrite <- (G (spline k x y) lo (firstn n1 x) (firstn n1 y) ml (lmin x)), <- (G (spline k x y) up (py_last n2 x) (py_last n2 y) mu (lmax x)). unfold ext_spline_init. destruct (_ || _).
    + split; [intros [s H]; discriminate|intros [H _]; discriminate].
    + destruct (get_extension_func uspline (spline k x y) lo _ _ ml _) as [w1 f1| |].
      * destruct (get_extension_func uspline (spline k x y) up _ _ mu _) as [w2 f2| |].
        -- split; [intros _|intros _; eexists; reflexivity]. split; [reflexivity|]. split; eauto.
        -- split; [intros [s H]; discriminate|intros [_ [_ [w [f H]]]]; discriminate].
        -- split; [intros [s H]; discriminate|intros [_ [_ [w [f H]]]]; discriminate].
      * split; [intros [s H]; discriminate|intros [_ [[w [f H]] _]]; discriminate].
      * split; [intros [s H]; discriminate|intros [_ [[w [f H]] _]]; discriminate].
  - intros N. rewrite D in N. apply not_false_iff_true in N. unfold ext_spline_init. now rewrite N.
Qed.
Print Assumptions extended_spline_constructed_iff.
(** C20: one warning for each end where a power law is replaced by zero because a sample there is not positive, and no other *)
Definition degraded (opt : ext_arg) (ys : list R) : nat := match opt with ExtPowerLaw => if Forall_dec (fun v => 0 < v) (fun v => Rlt_dec 0 v) ys then 0%nat else 1%nat | _ => 0%nat end.
Theorem extended_spline_warnings : forall spline uspline x y lo up ml mu d0 d1 k n1 n2 s, (1 <= n1)%nat -> x <> nil -> length x = length y ->
  ext_spline_init spline uspline x y lo up ml mu d0 d1 k n1 n2 = CtorOk s ->
  es_warnings s = (degraded lo (firstn n1 y) + degraded up (py_last n2 y))%nat.
Proof.
  intros spline uspline x y lo up ml mu d0 d1 k n1 n2 s Hn Hx Hl H.
  assert (W : forall spl opt xs ys mt mx w f, ys <> nil -> get_extension_func uspline spl opt xs ys mt mx = ExtOk w f -> (if w then 1 else 0)%nat = degraded opt ys).
  { intros spl opt xs ys mt mx w f Hy E. destruct opt as [g| | | |]; simpl in E; try discriminate; [|clear - E Hy| |].
    - destruct mt; simpl in E; [destruct (Reqb _ _)|]; injection E as <- _; reflexivity.
    - destruct (negb (forallb (fun v : R => Rltb 0 v) xs)); [discriminate|]. simpl degraded. destruct (Forall_dec (fun v => 0 < v) (fun v => Rlt_dec 0 v) ys) as [F|F].
      + assert (A : forallb (fun v : R => Rltb 0 v) ys = true) by (apply forallb_forall; intros v Hv; apply Rltb_spec; rewrite Forall_forall in F; now apply F).
        assert (B : forallb (fun v : R => Rltb v 0) ys = false). { destruct ys as [|v ys]; [contradiction|]. simpl. inversion F; subst. replace (Rltb v 0) with false by (symmetry; apply Rltb_false; lra). reflexivity. }
        rewrite A, B in E. simpl in E. injection E as <- _. reflexivity.
      + assert (A : forallb (fun v : R => Rltb 0 v) ys = false). { destruct (forallb (fun v : R => Rltb 0 v) ys) eqn:A; auto. exfalso. apply F. apply Forall_forall. intros v Hv. rewrite forallb_forall in A. apply Rltb_spec. now apply A. }
        rewrite A in E. simpl in E. injection E as <- _. reflexivity.
    - injection E as <- _. reflexivity.
    - injection E as <- _. reflexivity. }
  assert (Y : y <> nil) by (intros ->; destruct x; [contradiction|discriminate]).
  assert (Y1 : firstn n1 y <> nil) by (destruct n1; [lia|]; destruct y; [contradiction|discriminate]).
  assert (Y2 : py_last n2 y <> nil). { unfold py_last. destruct n2; auto. intros E. apply (f_equal (@length R)) in E. rewrite skipn_length in E. simpl in E. destruct y; [contradiction|]. simpl length in E. lia. }
  unfold ext_spline_init in H. destruct (_ || _); [discriminate|].
  destruct (get_extension_func uspline (spline k x y) lo (firstn n1 x) (firstn n1 y) ml (lmin x)) as [w1 f1| |] eqn:E1; try discriminate.
  destruct (get_extension_func uspline (spline k x y) up (py_last n2 x) (py_last n2 y) mu (lmax x)) as [w2 f2| |] eqn:E2; try discriminate.
  injection H as <-. cbn [es_warnings]. now rewrite (W _ _ _ _ _ _ _ _ Y1 E1), (W _ _ _ _ _ _ _ _ Y2 E2).
Qed.
Print Assumptions extended_spline_warnings.

(** C20: which inputs make a power law, a zero extension, an AssertionError. *)
Theorem power_law_assertion_iff : forall uspline spl xs ys mtch mx,
  get_extension_func uspline spl ExtPowerLaw xs ys mtch mx = ExtAssertionError
  <-> ~ List.Forall (fun v => 0 < v) xs.
Proof. exact ext_powerlaw_assert. Qed.
Print Assumptions power_law_assertion_iff.

Theorem power_law_used_when_all_positive : forall uspline spl xs ys mtch mx,
  List.Forall (fun v => 0 < v) xs -> List.Forall (fun v => 0 < v) ys -> ys <> nil ->
  exists f, get_extension_func uspline spl ExtPowerLaw xs ys mtch mx = ExtOk false f /\
    (forall t, f t = exp (uspline (map ln xs) (map ln ys) (ln t))) /\
    (forall t, 0 < f t).
Proof. exact ext_powerlaw_pos. Qed.
Print Assumptions power_law_used_when_all_positive.

Theorem power_law_zero_otherwise : forall uspline spl xs ys mtch mx,
  List.Forall (fun v => 0 < v) xs -> ~ List.Forall (fun v => 0 < v) ys ->
  exists f, get_extension_func uspline spl ExtPowerLaw xs ys mtch mx = ExtOk true f /\
    forall t, f t = 0.
Proof. exact ext_powerlaw_otherwise. Qed.
Print Assumptions power_law_zero_otherwise.

Theorem power_law_exact_when_affine : forall uspline spl xs ys mtch mx a b,
  List.Forall (fun v => 0 < v) xs -> List.Forall (fun v => 0 < v) ys -> ys <> nil ->
  (forall u, uspline (map ln xs) (map ln ys) u = a + b * u) ->
  exists f, get_extension_func uspline spl ExtPowerLaw xs ys mtch mx = ExtOk false f /\
    forall t, 0 < t -> f t = exp a * Rpower t b.
Proof. exact ext_powerlaw_affine. Qed.

(** C20 finding: all-negative data, which the warning text says is supported,
    is replaced by zero. *)
Example power_law_all_negative_refuted : forall uspline spl mtch mx,
  exists f, get_extension_func uspline spl ExtPowerLaw [1; 2] [-1; -2] mtch mx = ExtOk true f /\
    forall t, f t = 0.
Proof.
  intros. apply power_law_zero_otherwise.
  - repeat constructor; lra.
  - intros H. inversion H. lra.
Qed.

(** C21 *)
Theorem spline_integral_log_bounds : forall I x f xmin xmax,
  value (spline_integral I x f xmin xmax true)
  = I (map ln x) (xtimesf x f)
      (ln (match xmin with Some v => v | None => lmin x end))
      (ln (match xmax with Some v => v | None => lmax x end)).
Proof. exact si_log_value. Qed.
Print Assumptions spline_integral_log_bounds.

Theorem spline_integral_linear_bounds : forall I x f xmin xmax,
  xmin <> Some 0 -> xmax <> Some 0 ->
  value (spline_integral I x f xmin xmax false)
  = I x f (match xmin with Some v => v | None => lmin x end)
          (match xmax with Some v => v | None => lmax x end).
Proof. exact si_lin_value. Qed.
Print Assumptions spline_integral_linear_bounds.

Theorem spline_integral_zero_bound_ignored : forall I x f xmin xmax,
  spline_integral I x f (Some 0) xmax false = spline_integral I x f None xmax false /\
  spline_integral I x f xmin (Some 0) false = spline_integral I x f xmin None false.
Proof. intros I x f xmin xmax. exact (conj (si_lin_zero_lower I x f xmax) (si_lin_zero_upper I x f xmin)). Qed.
Print Assumptions spline_integral_zero_bound_ignored.

Theorem spline_integral_warnings : forall I x f xmin xmax lg,
  (warn_lower (spline_integral I x f xmin xmax lg) = true
   <-> exists v, xmin = Some v /\ v <> 0 /\ v < lmin x) /\
  (warn_upper (spline_integral I x f xmin xmax lg) = true
   <-> exists v, xmax = Some v /\ v <> 0 /\ lmax x < v).
Proof.
  intros I x f xmin xmax lg.
  exact (conj (si_warn_lower I x f xmin xmax lg) (si_warn_upper I x f xmin xmax lg)).
Qed.
Print Assumptions spline_integral_warnings.

Theorem spline_integral_additive : forall I,
  (forall xs ys a b c, I xs ys a b + I xs ys b c = I xs ys a c) ->
  forall x f lg a b c, (lg = false -> a <> Some 0 /\ b <> 0 /\ c <> Some 0) ->
  value (spline_integral I x f a (Some b) lg) + value (spline_integral I x f (Some b) c lg)
  = value (spline_integral I x f a c lg).
Proof. exact si_additive. Qed.
Print Assumptions spline_integral_additive.

Theorem spline_integral_linear_in_f : forall I,
  (forall xs ys zs a b s t, length ys = length xs -> length zs = length xs ->
     I xs (map (fun p => s * fst p + t * snd p) (combine ys zs)) a b
     = s * I xs ys a b + t * I xs zs a b) ->
  forall x f g xmin xmax lg s t, length f = length x -> length g = length x ->
  value (spline_integral I x (map (fun p => s * fst p + t * snd p) (combine f g)) xmin xmax lg)
  = s * value (spline_integral I x f xmin xmax lg)
    + t * value (spline_integral I x g xmin xmax lg).
Proof. exact si_linear. Qed.
Print Assumptions spline_integral_linear_in_f.

(** Finding: with log=False an explicit lower bound 0 below the data is dropped
    without warning; with any integral that sees its bounds the value differs
    from the one over [0, xmax]. *)
Example spline_integral_zero_refuted :
  let I := fun (_ _ : list R) (a b : R) => b - a in   (* the integral of f = 1 *)
  value (spline_integral I [1; 2; 3] [1; 1; 1] (Some 0) None false) <> I nil nil 0 3 /\
  warn_lower (spline_integral I [1; 2; 3] [1; 1; 1] (Some 0) None false) = false.
Proof.
  intros I. destruct (spline_integral_zero_bound_ignored I [1;2;3] [1;1;1] None None) as [E _].
  rewrite E. rewrite spline_integral_linear_bounds by discriminate.
  split; [|reflexivity]. unfold I. simpl.
  unfold Rmin, Rmax. repeat destruct (Rle_dec _ _); lra.
Qed.

(** Non-vacuity: a constructor call that succeeds, with a matched callable below
    and a power law above, and values in all three regions. *)
Example ext_spline_example :
  let spl := fun (_ : nat) (_ _ : list R) (t : R) => 2 * t in
  let usp := fun (_ _ : list R) (u : R) => u in
  exists s,
    ext_spline_init spl usp [1; 2; 3] [2; 4; 6] (ExtCallable (fun t => t)) ExtPowerLaw
      true true None None 3 10 10 = CtorOk s /\
    call_scalar s 2 = 4 /\ call_scalar s (1/2) = 1 /\ 0 < call_scalar s 5.
Proof.
  intros spl usp.
  assert (P1 : List.Forall (fun v => 0 < v) [1; 2; 3]) by (repeat constructor; lra).
  assert (P2 : List.Forall (fun v => 0 < v) [2; 4; 6]) by (repeat constructor; lra).
  assert (Emin : lmin [1; 2; 3] = 1) by (simpl; unfold Rmin; repeat destruct (Rle_dec _ _); lra).
  assert (Emax : lmax [1; 2; 3] = 3) by (simpl; unfold Rmax; repeat destruct (Rle_dec _ _); lra).
  assert (H : exists s, ext_spline_init spl usp [1; 2; 3] [2; 4; 6] (ExtCallable (fun t => t))
      ExtPowerLaw true true None None 3 10 10 = CtorOk s).
  { unfold ext_spline_init. rewrite Emin, Emax. simpl firstn. simpl py_last. cbn [orb].
    destruct (ext_matched usp (spl 3%nat [1;2;3] [2;4;6]) (fun t => t) [1;2;3] [2;4;6] 1 ltac:(lra))
      as (f & -> & _).
    destruct (ext_powerlaw_pos usp (spl 3%nat [1;2;3] [2;4;6]) [1;2;3] [2;4;6] true 3 P1 P2 ltac:(discriminate))
      as (f' & -> & _). eexists; reflexivity. }
  destruct H as [s H]. exists s. split; [exact H|].
  destruct (extended_spline_piecewise _ _ _ _ _ _ _ _ _ _ _ _ _ _ H) as (A & B & C).
  rewrite Emin in *. rewrite Emax in *. split; [|split].
  - rewrite A by lra. unfold spl; lra.
  - specialize (B (1/2) ltac:(lra)). simpl in B. rewrite (proj2 B eq_refl); unfold spl; lra.
  - specialize (C 5 ltac:(lra)). apply C; [exact P2|discriminate].
Qed.
