(** C162: the angular cross-correlation of two samples against their auto-correlations. *)
From Coq Require Import Reals List Bool Arith Lia Lra.
From Coquelicot Require Import Coquelicot.
From Verif Require Import Model.RBool Model.SpecialFn Model.SimpsonX Model.IntegrateCorr Spec.IntegrateSpec Proofs.SimpsonXProofs Proofs.ExtSplineProofs Proofs.IntegrateProofs Proofs.ProfileConv Proofs.Calc Props.IntegrateProps Props.IntegrateProps2 Props.IntegrateProps3 Props.CauchySchwarzProps.
Import ListNotations.
Local Open Scope R_scope.

(** the depth integral of xi at one point of the grid, and the weight of a pair of selections there *)
Definition depth (c : cosmology) (pz : bool) (xi : R -> R) (u : list R) (th t : R) : R := simpx u (map (fun v => xi (sqrt (th ^ 2 * distance c pz t ^ 2 + v ^ 2))) u).
Definition jac (c : cosmology) (pz : bool) (t : R) : R := if pz then / dxdz c t ^ 2 else 1.
Lemma p_integ_jac : forall c pz p1 p2 t, p_integ c pz p1 p2 t = jac c pz t * (p1 t * p2 t).
Proof. intros. unfold p_integ, jac. destruct pz; [unfold Rdiv|]; ring. Qed.
Lemma jac_pos : forall c pz t, 0 <= jac c pz t.
Proof.
  intros c pz t. unfold jac. destruct pz; [|lra]. assert (Q := pow2_ge_0 (dxdz c t)). destruct Q as [Q|Q]; [left; now apply Rinv_0_lt_compat|]. rewrite <- Q, Rinv_0. lra.
Qed.
Lemma limber_depth : forall c pz p1 p2 xi g u th, limber c pz p1 p2 xi g u th = 2 * simpx (map (distance c pz) g) (map (fun t => jac c pz t * depth c pz xi u th t * (p1 t * p2 t)) g).
Proof.
  intros. unfold limber. f_equal. apply simpx2_ext. intros t _. unfold depth. rewrite p_integ_jac.
  assert (E := simpx_map_scal (fun v => v) (fun v => xi (sqrt (th ^ 2 * distance c pz t ^ 2 + v ^ 2))) (jac c pz t * (p1 t * p2 t)) u). rewrite map_id in E.
  transitivity (simpx u (map (fun v => jac c pz t * (p1 t * p2 t) * xi (sqrt (th ^ 2 * distance c pz t ^ 2 + v ^ 2))) u)); [f_equal; apply map_ext; intros; ring|]. rewrite E. ring.
Qed.

(** ** on a grid with neighbouring intervals within a factor 2 *)
Section Grid.
  Variables (c : cosmology) (pz : bool) (xi : R -> R) (g u : list R) (th : R).
  Hypothesis Xi : incr (map (distance c pz) g).
  Hypothesis Xq : quasi_uniform (map (distance c pz) g).
  Hypothesis Ui : incr u.
  Hypothesis Uq : quasi_uniform u.
  Hypothesis P : forall r, 0 <= xi r.
  Lemma depth_pos : forall t, 0 <= depth c pz xi u th t.
  Proof. intros t. unfold depth. apply c100_positive; auto. Qed.
  Lemma limber_cs : forall p1 p2, limber c pz p1 p2 xi g u th ^ 2 <= limber c pz p1 p1 xi g u th * limber c pz p2 p2 xi g u th.
  Proof.
    intros p1 p2. rewrite !limber_depth. set (w t := jac c pz t * depth c pz xi u th t). set (S f := simpx (map (distance c pz) g) (map f g)).
    assert (W : forall t, 0 <= w t) by (intros t; unfold w; apply Rmult_le_pos; [apply jac_pos|apply depth_pos]).
    change ((2 * S (fun t => w t * (p1 t * p2 t))) ^ 2 <= 2 * S (fun t => w t * (p1 t * p1 t)) * (2 * S (fun t => w t * (p2 t * p2 t)))).
    enough (K : S (fun t => w t * (p1 t * p2 t)) ^ 2 <= S (fun t => w t * (p1 t * p1 t)) * S (fun t => w t * (p2 t * p2 t))).
    { replace ((2 * S (fun t => w t * (p1 t * p2 t))) ^ 2) with (4 * S (fun t => w t * (p1 t * p2 t)) ^ 2) by ring. lra. }
    apply discriminant.
    - unfold S. apply simpx_map_positive; auto. intros t _. apply Rmult_le_pos; auto. apply Rle_0_sqr.
    - intros l. assert (Q : 0 <= S (fun t => w t * ((l * p1 t + p2 t) * (l * p1 t + p2 t)))) by (unfold S; apply simpx_map_positive; auto; intros t _; apply Rmult_le_pos; auto; apply Rle_0_sqr).
      assert (E : S (fun t => w t * ((l * p1 t + p2 t) * (l * p1 t + p2 t))) = S (fun t => (w t * (p2 t * p2 t) + (2 * l) * (w t * (p1 t * p2 t))) + l ^ 2 * (w t * (p1 t * p1 t)))) by (unfold S; apply simpx2_ext; intros; ring).
      rewrite E in Q. unfold S in Q |- *. rewrite (simpx_map_linear _ (fun t => w t * (p2 t * p2 t) + (2 * l) * (w t * (p1 t * p2 t))) (fun t => w t * (p1 t * p1 t))) in Q.
      rewrite (simpx_map_linear _ (fun t => w t * (p2 t * p2 t)) (fun t => w t * (p1 t * p2 t))) in Q. lra.
  Qed.
End Grid.

(** ** the function itself *)
Theorem c162_cauchy_schwarz : forall c xi p1 p2 zmin zmax l0 l1 zn un ck pz th w11 w22 w12,
  let d := map (distance c pz) (angular_grid c zmin zmax zn pz) in incr d -> quasi_uniform d ->
  l0 < l1 -> Rpower 10 l1 <= 2 ^ (un - 1) * Rpower 10 l0 -> (forall r, 0 <= xi r) ->
  angular_corr_gal c xi p1 None zmin zmax l0 l1 zn un ck pz th = Some w11 -> angular_corr_gal c xi p2 None zmin zmax l0 l1 zn un ck pz th = Some w22 ->
  angular_corr_gal c xi p1 (Some p2) zmin zmax l0 l1 zn un ck pz th = Some w12 -> w12 ^ 2 <= w11 * w22.
Proof.
  intros c xi p1 p2 zmin zmax l0 l1 zn un ck pz th w11 w22 w12 d Di Dq L U P. unfold angular_corr_gal. cbv zeta.
  destruct (selected ck p1 _) as [q1|]; [|discriminate]. destruct (selected ck p2 _) as [q2|]; [|discriminate]. intros H1 H2 H3. injection H1 as <-. injection H2 as <-. injection H3 as <-.
  assert (M : Rpower 10 l0 < Rpower 10 l1). { unfold Rpower. apply exp_increasing. apply Rmult_lt_compat_r; auto. rewrite <- ln_1. apply ln_increasing; lra. } assert (P0 : 0 < Rpower 10 l0) by apply exp_pos.
  apply limber_cs; auto; now apply c100_logspace_regular.
Qed.
Print Assumptions c162_cauchy_schwarz.
(** for selections in distance the grid is always regular *)
Theorem c162_cauchy_schwarz_distance : forall c xi p1 p2 z0 z1 l0 l1 zn un ck th w11 w22 w12, c_dist c z0 * c_h c < c_dist c z1 * c_h c ->
  l0 < l1 -> Rpower 10 l1 <= 2 ^ (un - 1) * Rpower 10 l0 -> (forall r, 0 <= xi r) ->
  angular_corr_gal c xi p1 None z0 z1 l0 l1 zn un ck false th = Some w11 -> angular_corr_gal c xi p2 None z0 z1 l0 l1 zn un ck false th = Some w22 ->
  angular_corr_gal c xi p1 (Some p2) z0 z1 l0 l1 zn un ck false th = Some w12 -> w12 ^ 2 <= w11 * w22.
Proof.
  intros c xi p1 p2 z0 z1 l0 l1 zn un ck th w11 w22 w12 D. apply c162_cauchy_schwarz; unfold distance; rewrite map_id; unfold angular_grid; now apply c100_linspace_regular.
Qed.
Print Assumptions c162_cauchy_schwarz_distance.
(** samples that nowhere overlap on the grid are uncorrelated, however close they are *)
Theorem c162_disjoint : forall c xi p1 p2 zmin zmax l0 l1 zn un ck pz th w12, (forall t, In t (angular_grid c zmin zmax zn pz) -> s_f p1 t * s_f p2 t = 0) ->
  angular_corr_gal c xi p1 (Some p2) zmin zmax l0 l1 zn un ck pz th = Some w12 -> w12 = 0.
Proof.
  intros c xi p1 p2 zmin zmax l0 l1 zn un ck pz th w12 D. unfold angular_corr_gal. cbv zeta. set (g := angular_grid c zmin zmax zn pz) in *.
  assert (S : forall p q, selected ck p g = Some q -> exists k, forall t, q t = k * s_f p t).
  { intros p q. unfold selected, check_p. destruct ck; [|intros H; injection H as <-; exists 1; intros; ring]. cbv zeta. destruct (isclose1 _); [intros H; injection H as <-; exists 1; intros; ring|]. destruct (Reqb _ _); [discriminate|].
    intros H; injection H as <-. exists (/ p_integral p g). intros. unfold Rdiv. ring. }
  destruct (selected ck p1 g) as [q1|] eqn:E1; [|discriminate]. destruct (selected ck p2 g) as [q2|] eqn:E2; [|discriminate]. intros H. injection H as <-.
  destruct (S _ _ E1) as [k1 K1]. destruct (S _ _ E2) as [k2 K2]. rewrite limber_depth.
  rewrite (simpx2_ext _ _ (fun _ => 0)); [rewrite simpx_map_zero; ring|]. intros t Ht. rewrite K1, K2. replace (k1 * s_f p1 t * (k2 * s_f p2 t)) with (k1 * k2 * (s_f p1 t * s_f p2 t)) by ring. rewrite D by auto. ring.
Qed.
Print Assumptions c162_disjoint.
(** a sample made of two (unnormalised selections [a pa + b pb]): autos and twice the cross *)
Theorem c162_mixture : forall c xi pa pb a b zmin zmax l0 l1 zn un pz th waa wbb wab w,
  angular_corr_gal c xi pa None zmin zmax l0 l1 zn un false pz th = Some waa -> angular_corr_gal c xi pb None zmin zmax l0 l1 zn un false pz th = Some wbb ->
  angular_corr_gal c xi pa (Some pb) zmin zmax l0 l1 zn un false pz th = Some wab ->
  angular_corr_gal c xi (mkSel (fun t => a * s_f pa t + b * s_f pb t) None) None zmin zmax l0 l1 zn un false pz th = Some w -> w = a ^ 2 * waa + 2 * a * b * wab + b ^ 2 * wbb.
Proof.
  intros c xi pa pb a b zmin zmax l0 l1 zn un pz th waa wbb wab w. unfold angular_corr_gal, selected. cbv zeta iota. simpl s_f. intros H1 H2 H3 H4. injection H1 as <-. injection H2 as <-. injection H3 as <-. injection H4 as <-.
  rewrite !limber_depth. set (g := angular_grid c zmin zmax zn pz). set (u := logspace _ _ _). set (W t := jac c pz t * depth c pz xi u th t). set (d := distance c pz).
  rewrite (simpx2_ext d _ (fun t => (a ^ 2 * (W t * (s_f pa t * s_f pa t)) + (2 * a * b) * (W t * (s_f pa t * s_f pb t))) + b ^ 2 * (W t * (s_f pb t * s_f pb t)))) by (intros t _; fold (W t); ring).
  rewrite (simpx_map_linear d (fun t => a ^ 2 * (W t * (s_f pa t * s_f pa t)) + (2 * a * b) * (W t * (s_f pa t * s_f pb t))) (fun t => W t * (s_f pb t * s_f pb t))).
  rewrite (simpx_map_linear d (fun t => a ^ 2 * (W t * (s_f pa t * s_f pa t))) (fun t => W t * (s_f pa t * s_f pb t))). rewrite (simpx_map_scal d (fun t => W t * (s_f pa t * s_f pa t))). unfold W. ring.
Qed.
Print Assumptions c162_mixture.

(** the hypotheses are met: distances proportional to redshift, a logarithmic depth grid, two overlapping selections *)
Example c162_met : let c := mkCosmo (fun z => 3000 * z) (7 / 10) 3000 (fun _ => 1) in let p1 := mkSel (fun z => z) None in let p2 := mkSel (fun z => 3 - z) None in
  incr (map (distance c true) (angular_grid c 1 2 5 true)) /\ quasi_uniform (map (distance c true) (angular_grid c 1 2 5 true)) /\
  exists w11 w22 w12, angular_corr_gal c (fun r => exp (- r)) p1 None 1 2 0 1 5 5 false true 0 = Some w11 /\ angular_corr_gal c (fun r => exp (- r)) p2 None 1 2 0 1 5 5 false true 0 = Some w22 /\
    angular_corr_gal c (fun r => exp (- r)) p1 (Some p2) 1 2 0 1 5 5 false true 0 = Some w12.
Proof.
  intros c p1 p2. split; [|split].
  - unfold angular_grid, distance; simpl. repeat constructor; lra.
  - unfold angular_grid, distance; simpl. repeat constructor; lra.
  - eexists. eexists. eexists. repeat split; reflexivity.
Qed.
