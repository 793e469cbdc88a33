(** Projected correlation function: C72, C73, C99. *)
From Coq Require Import Reals List Bool Arith Lia Lra.
From Coquelicot Require Import Coquelicot.
From Verif Require Import Model.RBool Model.SpecialFn Model.SimpsonX Model.IntegrateCorr Spec.IntegrateSpec Proofs.SimpsonXProofs Proofs.ExtSplineProofs Proofs.IntegrateProofs Proofs.ProfileConv Proofs.Calc Props.IntegrateProps Props.IntegrateProps2.
Import ListNotations.
Local Open Scope R_scope.

(** the auto-correlation of any selection in distance is non-negative for a non-negative correlation function *)
Theorem c71_auto_nonnegative : forall c xi p z0 z1 l0 l1 zn un ck th w, c_dist c z0 * c_h c < c_dist c z1 * c_h c -> l0 < l1 -> Rpower 10 l1 <= 2 ^ (un - 1) * Rpower 10 l0 -> (forall r, 0 <= xi r) ->
  angular_corr_gal c xi p None z0 z1 l0 l1 zn un ck false th = Some w -> 0 <= w.
Proof.
  intros c xi p z0 z1 l0 l1 zn un ck th w D L U X H. unfold angular_corr_gal in H. cbv zeta in H. destruct (selected ck p _) as [q|]; [|discriminate]. injection H as <-.
  assert (M : Rpower 10 l0 < Rpower 10 l1). { unfold Rpower. apply exp_increasing. apply Rmult_lt_compat_r; auto. rewrite <- ln_1. apply ln_increasing; lra. } assert (P : 0 < Rpower 10 l0) by apply exp_pos.
  apply c71_nonnegative; auto; try (unfold distance; rewrite map_id; unfold angular_grid; now apply c100_linspace_regular); try (now apply c100_logspace_regular). intros t _. apply (Rle_0_sqr (q t)).
Qed.

(** ** C73: the slope and its freezing *)
Lemma floor13_ge : forall s, 13 / 10 <= floor13 s.
Proof. intros [v|]; simpl; [|lra]. destruct (Rltb (13 / 10) (- v)) eqn:E; [apply Rltb_spec in E; lra|lra]. Qed.
(** floor13 is max(1.3, minus the slope) *)
Lemma floor13_max : forall v, floor13 (Some v) = Rmax (13 / 10) (- v).
Proof. intros v. simpl. destruct (Rltb (13 / 10) (- v)) eqn:E; [apply Rltb_spec in E; rewrite Rmax_right; lra|apply Rltb_false in E; rewrite Rmax_left; lra]. Qed.
(** whether an interval up to the i-th was flat (or undefined), so that the slope is frozen *)
Definition flat_at (r xir : list R) (i : nat) : Prop := floor13 (logslope r xir i) = 13 / 10.
Theorem c73_slope_used : forall r xir i, (2 <= length r)%nat -> let j := Nat.min i (length r - 2) in
  ((exists k, (k <= j)%nat /\ flat_at r xir k) -> slope_state r xir i = (13 / 10, Some (get_theta (13 / 10)))) /\
  ((forall k, (k <= j)%nat -> ~ flat_at r xir k) -> slope_state r xir i = (floor13 (logslope r xir j), Some (get_theta (floor13 (logslope r xir j))))).
Proof.
  intros r xir i L. induction i as [|i [IH1 IH2]].
  - cbv zeta. rewrite Nat.min_0_l. assert (E : slope_state r xir 0 = (floor13 (logslope r xir 0), Some (get_theta (floor13 (logslope r xir 0))))).
    { unfold slope_state, slope_step. replace (Reqb 0 (13 / 10)) with false by (symmetry; destruct (Reqb 0 (13 / 10)) eqn:Q; auto; apply Reqb_spec in Q; lra). replace (0 <? length r - 1)%nat with true by (symmetry; apply Nat.ltb_lt; lia). reflexivity. }
    rewrite E. split; auto. intros [k [Hk F]]. replace k with 0%nat in F by lia. unfold flat_at in F. now rewrite F.
  - cbv zeta in *. cbn [slope_state]. set (j := Nat.min i (length r - 2)) in *. set (j' := Nat.min (S i) (length r - 2)).
    assert (D : (exists k, (k <= j)%nat /\ flat_at r xir k) \/ (forall k, (k <= j)%nat -> ~ flat_at r xir k)).
    { clear. induction j as [|j [[k [H1 H2]]|IH]].
      - unfold flat_at. destruct (Req_dec (floor13 (logslope r xir 0)) (13 / 10)); [left; exists 0%nat; auto|right; intros k Hk; now replace k with 0%nat by lia].
      - left. exists k. split; auto.
      - unfold flat_at in *. destruct (Req_dec (floor13 (logslope r xir (S j))) (13 / 10)); [left; exists (S j); auto|right; intros k Hk]. destruct (Nat.eq_dec k (S j)) as [->|]; auto. apply IH. lia. }
    destruct D as [D|D].
    + rewrite (IH1 D). unfold slope_step. replace (Reqb (13 / 10) (13 / 10)) with true by (symmetry; now apply Reqb_spec). simpl. split; auto. intros Q. exfalso. destruct D as [k [K1 K2]]. apply (Q k); auto. unfold j, j' in *. lia.
    + rewrite (IH2 D). unfold slope_step. replace (Reqb (floor13 (logslope r xir j)) (13 / 10)) with false. 2: { symmetry. destruct (Reqb (floor13 (logslope r xir j)) (13 / 10)) eqn:Q; auto. apply Reqb_spec in Q. exfalso. now apply (D j). }
      cbn [negb andb]. destruct (S i <? length r - 1)%nat eqn:LT.
      * apply Nat.ltb_lt in LT. assert (J : j' = S i) by (unfold j'; lia). assert (J0 : j = i) by (unfold j; lia). rewrite J. split; auto. intros [k [K1 K2]]. destruct (Nat.eq_dec k (S i)) as [->|]; [unfold flat_at in K2; now rewrite K2|]. exfalso. apply (D k); auto. lia.
      * apply Nat.ltb_ge in LT. assert (J : j' = j) by (unfold j, j'; lia). rewrite J. split; auto. intros [k [K1 K2]]. exfalso. now apply (D k).
Qed.
(** finding: once an interval of the input grid is flatter than 1.3 the slope never changes again, however steep the rest *)
Theorem c73_frozen : forall r xir k i, (2 <= length r)%nat -> (k <= i)%nat -> (k <= length r - 2)%nat -> flat_at r xir k -> fst (slope_state r xir i) = 13 / 10.
Proof. intros r xir k i L H1 H2 F. destruct (c73_slope_used r xir i L) as [A _]. rewrite A; auto. exists k. split; auto. apply Nat.min_glb; auto. Qed.
(** finding: the slope for the i-th output radius is that of the i-th input interval: the output radii themselves do not matter *)
Theorem c73_slope_ignores_output_radii : forall fit r xir rl rp1 rp2 i v, nth i rp1 0 = nth i rp2 0 -> projected_at fit r xir rl rp1 i = v -> projected_at fit r xir rl rp2 i = v.
Proof. intros fit r xir rl rp1 rp2 i v H. unfold projected_at. now rewrite H. Qed.
(** with a single input radius the constant is never set; with two or more it always is *)
Theorem c73_unbound_iff : forall fit r xir rl rp i, projected_at fit r xir rl rp i = ProjUnbound <-> (length r < 2)%nat.
Proof.
  intros fit r xir rl rp i. split.
  - intros H. destruct (le_lt_dec 2 (length r)) as [L|]; auto. exfalso. unfold projected_at in H. cbv zeta in H. destruct (c73_slope_used r xir i L) as [A B].
    assert (N : snd (slope_state r xir i) <> None).
    { set (j := Nat.min i (length r - 2)) in *. assert (D : (exists k, (k <= j)%nat /\ flat_at r xir k) \/ (forall k, (k <= j)%nat -> ~ flat_at r xir k)).
      { clear. induction j as [|j [[k [H1 H2]]|IH]].
        - unfold flat_at. destruct (Req_dec (floor13 (logslope r xir 0)) (13 / 10)); [left; exists 0%nat; auto|right; intros k Hk; now replace k with 0%nat by lia].
        - left. exists k. split; auto.
        - unfold flat_at in *. destruct (Req_dec (floor13 (logslope r xir (S j))) (13 / 10)); [left; exists (S j); auto|right; intros k Hk]. destruct (Nat.eq_dec k (S j)) as [->|]; auto. apply IH. lia. }
      destruct D as [D|D]; [rewrite A by auto|rewrite B by auto]; discriminate. }
    destruct (snd (slope_state r xir i)); [|congruence]. destruct (_ && _); discriminate.
  - intros L. unfold projected_at. cbv zeta. assert (E : slope_state r xir i = (0, None)).
    { induction i as [|i IH]; cbn [slope_state]; [|rewrite IH]; unfold slope_step; replace (_ <? length r - 1)%nat with false by (symmetry; apply Nat.ltb_ge; lia); now rewrite andb_false_r. }
    now rewrite E.
Qed.

(** ** C72: limits of the integral *)
Theorem c72_theta_range : forall a, 1 < a -> 0 < get_theta a <= 2.
Proof. exact theta_bounds. Qed.
Lemma state_theta : forall r xir i th, snd (slope_state r xir i) = Some th -> 0 < th <= 2.
Proof.
  intros r xir i. assert (K : (fst (slope_state r xir i), snd (slope_state r xir i)) = (fst (slope_state r xir i), None) \/ exists a, 13 / 10 <= a /\ snd (slope_state r xir i) = Some (get_theta a)).
  { induction i as [|i IH]; cbn [slope_state]; unfold slope_step.
    - destruct (_ && _); [right; eexists; split; [apply floor13_ge|reflexivity]|left; reflexivity].
    - destruct (slope_state r xir i) as [a th]. destruct (_ && _); [right; eexists; split; [apply floor13_ge|reflexivity]|]. simpl in *. destruct IH as [IH|[b [Hb IH]]]; [left; now injection IH as ->|right; eauto]. }
  intros th H. destruct K as [K|[a [Ha K]]]; [rewrite H in K; discriminate|]. rewrite K in H. injection H as <-. apply theta_bounds. lra.
Qed.
(** the result is a number exactly when the limit exceeds the radius, for every input *)
Theorem c72_defined_iff : forall fit r xir rl rp i, (2 <= length r)%nat -> 0 < nth i rp 0 -> ((exists v, projected_at fit r xir rl rp i = ProjOk v) <-> nth i rp 0 < rl).
Proof.
  intros fit r xir rl rp i L P. assert (N : projected_at fit r xir rl rp i <> ProjUnbound) by (intros K; apply c73_unbound_iff in K; lia). unfold projected_at in *. cbv zeta in *.
  destruct (snd (slope_state r xir i)) as [th|] eqn:E; [|congruence]. apply state_theta in E.
  replace (Rltb 0 (min_y th (nth i rp 0))) with true. 2: { symmetry. apply Rltb_spec. unfold min_y. apply Rmult_lt_0_compat; lra. } cbn [andb].
  destruct (Rltb 0 (rl - nth i rp 0)) eqn:Q; [apply Rltb_spec in Q|apply Rltb_false in Q]; split; intros H; try lra; eauto. destruct H as [v H]. discriminate.
Qed.
(** the default limit *)
Theorem c72_default_limit : forall o rp x, In x rp -> (o = None \/ o = Some 0) -> 80 <= rlim o rp /\ 5 * x <= rlim o rp.
Proof.
  intros o rp x H Ho. unfold rlim. replace (truthy o) with false. 2: { symmetry. destruct Ho as [->| ->]; simpl; auto. unfold truthy. destruct (Reqb 0 0) eqn:Q; auto. exfalso. assert (K : Reqb 0 0 = true) by now apply Reqb_spec. congruence. }
  split; [apply Rmax_l|]. apply Rle_trans with (5 * lmax rp); [|apply Rmax_r]. apply Rmult_le_compat_l; [lra|]. now apply lmax_ub.
Qed.
(** ProjectedCF with the default limit: at every output radius the integration grid increases, and the spline of the correlation
    function is only evaluated inside the range of radii it was fitted on *)
Theorem c72_no_extrapolation : forall rp x th y rnum, (forall v, In v rp -> 0 < v) -> In x rp -> 0 < th <= 2 -> (2 <= rnum)%nat -> let rl := rlim None rp in
  min_y th x < rl - x /\ incr (y_grid th rl x) /\ (In y (y_grid th rl x) -> hd 0 (pcf_r rl rp rnum) <= y + x <= last (pcf_r rl rp rnum) 0).
Proof.
  intros rp x th y rnum P Hx T N rl. destruct (c72_default_limit None rp x Hx (or_introl eq_refl)) as [L1 L2]. fold rl in L1, L2. assert (X := P x Hx).
  assert (M : 0 < min_y th x <= 2 / 10000 * x). { unfold min_y. split; [apply Rmult_lt_0_compat; lra|]. apply Rmult_le_compat_r; lra. }
  assert (B : min_y th x < rl - x) by lra. split; auto. split; [now apply logspace_incr|]. intros Hy. apply logspace_in in Hy; [|lra|lra].
  assert (Q : lmin rp <= x) by now apply lmin_lb. assert (Q0 : 0 < lmin rp). { assert (K : rp <> []) by (intros E; subst; destruct Hx). apply lmin_in in K. now apply P. }
  unfold pcf_r. rewrite logspace_hd, logspace_last by (auto; try lia; lra). lra.
Qed.
(** what is integrated: y from a to b is the line of sight from sqrt(a(a+2rp)) to sqrt(b(b+2rp)) *)
Theorem c72_line_of_sight : forall xi rp a b, 0 < rp -> 0 < a -> a < b -> (forall r, rp < r -> continuous xi r) ->
  2 * RInt (proj_integrand xi rp) a b = line_of_sight xi rp (sqrt ((a + 2 * rp) * a)) (sqrt ((b + 2 * rp) * b)).
Proof.
  intros xi rp a b RP A AB C. unfold line_of_sight. f_equal. set (g := fun y => sqrt ((y + 2 * rp) * y)). set (dg := fun y => (y + rp) / sqrt ((y + 2 * rp) * y)).
  assert (POS : forall y, 0 < y -> 0 < (y + 2 * rp) * y) by (intros; apply Rmult_lt_0_compat; lra).
  assert (BACK : forall y, 0 < y -> sqrt (rp ^ 2 + g y ^ 2) = y + rp). { intros y Hy. unfold g. rewrite <- (Rsqr_pow2 (sqrt _)), Rsqr_sqrt by (left; auto). replace (rp ^ 2 + (y + 2 * rp) * y) with ((y + rp) ^ 2) by ring. apply sqrt_pow2. lra. }
  assert (E := RInt_comp (V:=R_CompleteNormedModule) (fun p => xi (sqrt (rp ^ 2 + p ^ 2))) g dg a b). fold (g a) (g b). rewrite <- E.
  - apply RInt_ext. rewrite Rmin_left, Rmax_right by lra. intros y Hy. change (proj_integrand xi rp y = dg y * xi (sqrt (rp ^ 2 + g y ^ 2))). rewrite BACK by lra. unfold proj_integrand, dg, Rdiv. ring.
  - rewrite Rmin_left, Rmax_right by lra. intros y Hy. apply (continuous_comp (fun p => sqrt (rp ^ 2 + p ^ 2)) xi).
    + apply (@ex_derive_continuous R_AbsRing R_NormedModule). auto_derive. assert (0 < rp ^ 2) by (apply pow_lt; auto). assert (0 <= g y ^ 2) by apply pow2_ge_0. replace (g y * (g y * 1)) with (g y ^ 2) by ring. replace (rp * (rp * 1)) with (rp ^ 2) by ring. try split; auto; lra.
    + cbv beta. rewrite BACK by lra. apply C. lra.
  - rewrite Rmin_left, Rmax_right by lra. intros y Hy. assert (P := POS y ltac:(lra)). assert (Q := sqrt_lt_R0 _ P). split.
    + unfold g, dg. auto_derive; auto. field. lra.
    + unfold dg. apply (@ex_derive_continuous R_AbsRing R_NormedModule). auto_derive. repeat split; auto. lra.
Qed.
(** with the package's limits: the line of sight runs from at most 0.0201 rp (for every slope) to sqrt(rlim^2 - rp^2) *)
Theorem c72_limits_along_the_line_of_sight : forall th rl rp, 0 < th <= 2 -> 0 < rp < rl -> let a := min_y th rp in let b := rl - rp in
  0 < sqrt ((a + 2 * rp) * a) <= 201 / 10000 * rp /\ sqrt ((b + 2 * rp) * b) = sqrt (rl ^ 2 - rp ^ 2).
Proof.
  intros th rl rp T H a b. split; [|unfold b; f_equal; ring]. assert (M : 0 < a <= 2 / 10000 * rp). { unfold a, min_y. split; [apply Rmult_lt_0_compat; lra|]. apply Rmult_le_compat_r; lra. } split.
  - apply sqrt_lt_R0. apply Rmult_lt_0_compat; lra.
  - rewrite <- (sqrt_pow2 (201 / 10000 * rp)) by lra. apply sqrt_le_1_alt. replace ((a + 2 * rp) * a) with (a * a + 2 * rp * a) by ring.
    assert (a * a <= (2 / 10000 * rp) * (2 / 10000 * rp)) by (apply Rmult_le_compat; lra). assert (2 * rp * a <= 2 * rp * (2 / 10000 * rp)) by (apply Rmult_le_compat_l; lra). assert (0 <= rp * rp) by (apply Rmult_le_pos; lra). lra.
Qed.

(** ** C99: the projected correlation is linear in xi and non-negative for non-negative xi *)
Lemma proj_inj : forall a b, ProjOk a = ProjOk b -> a = b.
Proof. intros a b H. now injection H. Qed.
Theorem c99_linear : forall f g k r xir rl rp i a b, projected_at f r xir rl rp i = ProjOk a -> projected_at g r xir rl rp i = ProjOk b ->
  projected_at (fun x => f x + k * g x) r xir rl rp i = ProjOk (a + k * b).
Proof.
  intros f g k r xir rl rp i a b. unfold projected_at. cbv zeta. destruct (snd _) as [th|]; [|discriminate]. destruct (_ && _); [|discriminate]. intros H1 H2. apply proj_inj in H1. apply proj_inj in H2. rewrite <- H1, <- H2. clear H1 H2. generalize (y_grid th rl (nth i rp 0)). intros G. f_equal.
  rewrite (map_ext (proj_integrand (fun x => f x + k * g x) (nth i rp 0)) (fun y => proj_integrand f (nth i rp 0) y + k * proj_integrand g (nth i rp 0) y)) by (intros; unfold proj_integrand, Rdiv; ring). rewrite c100_linear. ring.
Qed.
Lemma y_grid_regular : forall th rl x, 0 < min_y th x < rl - x -> rl - x <= 2 ^ 999 * min_y th x -> incr (y_grid th rl x) /\ quasi_uniform (y_grid th rl x).
Proof. intros th rl x. unfold y_grid. generalize (min_y th x), (rl - x). intros a b A Q. apply c100_logspace_regular; [exact A|]. change (1000 - 1)%nat with 999%nat. exact Q. Qed.
Theorem c99_nonnegative : forall f r xir rl rp i th v, snd (slope_state r xir i) = Some th -> let x := nth i rp 0 in 0 < x -> min_y th x < rl - x -> rl - x <= 2 ^ 999 * min_y th x ->
  (forall s, x < s -> s <= rl -> 0 <= f s) -> projected_at f r xir rl rp i = ProjOk v -> 0 <= v.
Proof.
  intros f r xir rl rp i th v E x X M Q F H. assert (G := fun P => y_grid_regular th rl x (conj P M) Q). clear Q. assert (T := state_theta _ _ _ _ E). unfold projected_at in H. cbv zeta in H. rewrite E in H. fold x in H. destruct (_ && _); [|discriminate]. apply proj_inj in H. rewrite <- H. clear H.
  assert (MP : 0 < min_y th x) by (unfold min_y; apply Rmult_lt_0_compat; lra).
  assert (0 <= simpx (y_grid th rl x) (map (proj_integrand f x) (y_grid th rl x))); [|lra]. specialize (G MP). destruct G as [G1 G2].
  apply c100_positive; auto. intros y Hy. apply logspace_in in Hy; [|lra|lra]. unfold proj_integrand. apply div_pos; [apply Rmult_le_pos; [lra|apply F; lra]|]. apply sqrt_lt_R0. apply Rmult_lt_0_compat; lra.
Qed.
(** a flat correlation function: the discretised integral is an approximation of this closed form, twice the length of the line of sight *)
Lemma log_exact : forall A B C a b n, 0 < a -> a < b -> (3 <= n)%nat -> is_RInt (fun t => A + B * t + C * t ^ 2) a b (simpx (logspace a b n) (map (fun t => A + B * t + C * t ^ 2) (logspace a b n))).
Proof.
  intros A B C a b n Ha Hab N. assert (L : (3 <= length (logspace a b n))%nat) by (unfold logspace, linspace; rewrite !map_length, seq_length; lia).
  assert (Q := c100_exact_on_quadratics A B C _ L (logspace_incr a b n Ha Hab)). rewrite logspace_hd, logspace_last in Q by (lia || lra). exact Q.
Qed.
(** exact when the line-of-sight integrand r xi(r)/sqrt(r^2 - rp^2) is a quadratic in r - rp: twice its integral over the range used *)
Theorem c99_exact : forall A B C fit r xir rl rp i th v, snd (slope_state r xir i) = Some th -> let x := nth i rp 0 in 0 < x -> min_y th x < rl - x ->
  (forall s, x < s -> s <= rl -> s * fit s / sqrt (s ^ 2 - x ^ 2) = A + B * (s - x) + C * (s - x) ^ 2) -> projected_at fit r xir rl rp i = ProjOk v ->
  v = 2 * RInt (fun y => A + B * y + C * y ^ 2) (min_y th x) (rl - x).
Proof.
  intros A B C fit r xir rl rp i th v E x X M F H. assert (T := state_theta _ _ _ _ E). unfold projected_at in H. cbv zeta in H. rewrite E in H. fold x in H. destruct (_ && _); [|discriminate]. apply proj_inj in H. rewrite <- H. clear H.
  assert (MP : 0 < min_y th x) by (unfold min_y; apply Rmult_lt_0_compat; lra). rewrite (Rmult_comm _ 2). f_equal. symmetry. apply is_RInt_unique.
  rewrite (map_ext_in (proj_integrand fit x) (fun t => A + B * t + C * t ^ 2)).
  - unfold y_grid. apply log_exact; auto. apply Nat.leb_le. reflexivity.
  - intros y Hy. apply logspace_in in Hy; [|lra|lra]. specialize (F (y + x) ltac:(lra) ltac:(lra)). unfold proj_integrand. replace ((y + x) ^ 2 - x ^ 2) with ((y + 2 * x) * y) in F by ring. replace (y + x - x) with y in F by ring. exact F.
Qed.
Print Assumptions c99_exact.
Theorem c99_constant_target : forall rp a b, 0 < rp -> 0 < a -> a < b -> 2 * RInt (proj_integrand (fun _ => 1) rp) a b = 2 * (sqrt ((b + 2 * rp) * b) - sqrt ((a + 2 * rp) * a)).
Proof.
  intros rp a b RP A AB. rewrite c72_line_of_sight by (auto; intros; apply continuous_const). unfold line_of_sight. f_equal. rewrite (RInt_const (V:=R_CompleteNormedModule)). unfold scal; simpl; unfold mult; simpl. ring.
Qed.
Example c72_nonvacuous : exists v, projected_at (fun _ => 1) [1; 2; 4] [1; 1/2; 1/8] 80 [1; 2] 0 = ProjOk v.
Proof. apply c72_defined_iff; simpl; try lia; lra. Qed.
(** steep then flat then steep: the steep end is not noticed *)
Lemma slope_pow2 : forall n, logslope [1; 2; 4; 8] [1; 1 / 4; 1 / 4; 1 / 256] n = match n with 0%nat => Some (-2) | 1%nat => Some 0 | 2%nat => Some (-6) | _ => logslope [1; 2; 4; 8] [1; 1 / 4; 1 / 4; 1 / 256] n end.
Proof.
  assert (L2 : 0 < ln 2) by (rewrite <- ln_1; apply ln_increasing; lra). assert (L4 : ln 4 = 2 * ln 2) by (replace 4 with (2 * 2) by ring; rewrite ln_mult by lra; ring). assert (L8 : ln 8 = 3 * ln 2) by (replace 8 with (2 * 4) by ring; rewrite ln_mult, L4 by lra; ring).
  assert (Q4 : ln (1 / 4) = - (2 * ln 2)) by (replace (1 / 4) with (/ 4) by lra; rewrite ln_Rinv, L4 by lra; ring).
  assert (Q256 : ln (1 / 256) = - (8 * ln 2)). { replace (1 / 256) with (/ 256) by lra. rewrite ln_Rinv by lra. replace 256 with (2 ^ 8) by ring. rewrite ln_pow by lra. simpl INR. ring. }
  assert (B : forall x, 0 < x -> lnxi x = Some (ln x)) by (intros x H; unfold lnxi; replace (Rltb 0 x) with true by (symmetry; now apply Rltb_spec); auto).
  intros [|[|[|n]]]; auto; unfold logslope; cbn [nth]; rewrite !B by lra; f_equal; rewrite ?Q4, ?Q256, ?L4, ?L8, ?ln_1; field; lra.
Qed.
Example c73_nonvacuous : map (fun i => fst (slope_state [1; 2; 4; 8] [1; 1 / 4; 1 / 4; 1 / 256] i)) [0; 1; 2; 3]%nat = [2; 13 / 10; 13 / 10; 13 / 10].
Proof.
  assert (F0 : floor13 (logslope [1; 2; 4; 8] [1; 1 / 4; 1 / 4; 1 / 256] 0) = 2) by (rewrite slope_pow2, floor13_max; rewrite Rmax_right; lra).
  assert (F1 : flat_at [1; 2; 4; 8] [1; 1 / 4; 1 / 4; 1 / 256] 1) by (unfold flat_at; rewrite slope_pow2, floor13_max; rewrite Rmax_left; lra).
  cbn [map]. rewrite (c73_frozen _ _ 1%nat 1%nat), (c73_frozen _ _ 1%nat 2%nat), (c73_frozen _ _ 1%nat 3%nat) by (auto; simpl; lia). f_equal.
  destruct (c73_slope_used [1; 2; 4; 8] [1; 1 / 4; 1 / 4; 1 / 256] 0 ltac:(simpl; lia)) as [_ B]. rewrite B. - simpl Nat.min. exact F0. - intros k Hk. replace k with 0%nat by (simpl in Hk; lia). unfold flat_at. rewrite F0. lra.
Qed.
Print Assumptions c72_line_of_sight.
Print Assumptions c72_no_extrapolation.
Print Assumptions c73_slope_used.
Print Assumptions c99_nonnegative.
