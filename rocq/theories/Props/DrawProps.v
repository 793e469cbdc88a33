(** The radii populate draws follow the mass profile (C134). *)
From Coq Require Import Reals Lra Lia Bool Psatz String List.
From Coquelicot Require Import Coquelicot.
From Verif Require Import Model.RBool Model.SpecialFn Model.Profiles Spec.ProfileSpec Spec.DrawSpec Proofs.Calc Proofs.HODProofs Proofs.ExclusionProofs
  Proofs.ProfileProofs Proofs.ProfileConv Proofs.ProfileProofs2 Proofs.ProfileProofs3 Props.ProfileProps.
Import ListNotations.
Local Open Scope R_scope.

Section Nodes.
  Variables (s : shape) (c : R).
  Hypotheses (G : good_shape s) (C : 0 < c).
  Let xs := populate_grid c.
  Let us := map (fun x => s_h s x / s_h s c) xs.

  Lemma grid_nth : forall i, (i < 1000)%nat -> nth i xs 0 = INR i / 999 * c.
  Proof.
    intros i Hi. unfold xs, populate_grid. set (f := fun i : nat => INR i / 999 * c). rewrite (nth_indep (map f (seq 0 1000)) 0 (f 0%nat)) by (rewrite map_length, seq_length; auto).
    rewrite (map_nth f (seq 0 1000) 0%nat i), seq_nth by auto. reflexivity.
  Qed.
  Lemma grid_range : forall i, (i < 1000)%nat -> 0 <= INR i / 999 * c <= c.
  Proof.
    intros i Hi. assert (0 <= INR i) by apply pos_INR. assert (INR i <= 999). { replace 999 with (INR 999) by (rewrite INR_IZR_INZ; reflexivity). apply le_INR. lia. }
    split; [apply Rmult_le_pos; lra|]. rewrite <- (Rmult_1_l c) at 2. apply Rmult_le_compat_r; lra.
  Qed.
  Lemma us_nth : forall i, (i < 1000)%nat -> nth i us 0 = s_h s (INR i / 999 * c) / s_h s c.
  Proof.
    intros i Hi. unfold us. set (f := fun x => s_h s x / s_h s c).
    assert (L : length xs = 1000%nat) by (unfold xs, populate_grid; now rewrite map_length, seq_length).
    rewrite (nth_indep _ 0 (f 0)) by (rewrite map_length, L; auto). rewrite (map_nth f xs 0 i), grid_nth by auto. reflexivity.
  Qed.
  Lemma fraction_val : forall x p, 0 <= x -> mass_fraction (s_f s) c x p -> p = s_h s x / s_h s c.
  Proof.
    intros x p X [a [b [A [B ->]]]]. destruct G as [H _]. f_equal; [|f_equal].
    - apply rint_u in A. specialize (H x X). apply rint_u in H. congruence.
    - apply rint_u in B. specialize (H c ltac:(lra)). apply rint_u in H. congruence.
  Qed.
  Lemma frac_mono : forall x y, 0 <= x <= y -> s_h s x / s_h s c <= s_h s y / s_h s c.
  Proof.
    intros x y [X [L| ->]]; [|lra]. left. apply Rmult_lt_compat_r; [apply Rinv_0_lt_compat, good_pos; auto|]. apply G. lra.
  Qed.
  Lemma frac_01 : forall x, 0 <= x <= c -> 0 <= s_h s x / s_h s c <= 1.
  Proof.
    intros x X. assert (P := good_pos s c G C). split.
    - replace 0 with (s_h s 0 / s_h s c); [apply frac_mono; lra|]. rewrite (h0 (s_f s) (s_h s)) by apply G. field. lra.
    - replace 1 with (s_h s c / s_h s c) by (field; lra). apply frac_mono. lra.
  Qed.

  Variable g : R -> R.
  Hypothesis F : increasing_fit us xs g.
  Lemma quantile : forall i u, (i < 1000)%nat -> 0 <= u <= 1 -> (g u <= INR i / 999 * c <-> u <= s_h s (INR i / 999 * c) / s_h s c).
  Proof.
    intros i u Hi U. destruct F as [N I]. specialize (N i). unfold us in N at 1. rewrite map_length in N.
    assert (L : length xs = 1000%nat) by (unfold xs, populate_grid; now rewrite map_length, seq_length). rewrite L in N. specialize (N Hi).
    rewrite us_nth, grid_nth in N by auto. assert (Q := frac_01 _ (grid_range i Hi)). set (q := _ / s_h s c) in *. rewrite <- N. split; intros A.
    - destruct (Rle_or_lt u q) as [Z|Z]; auto. specialize (I q u ltac:(lra) Z ltac:(lra)). lra.
    - destruct A as [A| ->]; [|lra]. left. apply I; lra.
  Qed.
  Lemma fit_nonneg : forall u, 0 <= u <= 1 -> 0 <= g u.
  Proof.
    intros u U. destruct F as [N I]. specialize (N 0%nat). unfold us in N at 1. rewrite map_length in N.
    assert (L : length xs = 1000%nat) by (unfold xs, populate_grid; now rewrite map_length, seq_length). rewrite L in N. specialize (N ltac:(lia)).
    rewrite us_nth, grid_nth in N by lia. replace (INR 0 / 999 * c) with 0 in N by (simpl; field). rewrite (h0 (s_f s) (s_h s)) in N by apply G.
    replace (0 / s_h s c) with 0 in N by (unfold Rdiv; ring). destruct (proj1 U) as [Z|Z]; [|subst u; lra]. specialize (I 0 u ltac:(lra) Z ltac:(lra)). lra.
  Qed.
End Nodes.

(** C134: the radius drawn is at most the i-th tabulated radius exactly when the deviate is at most the fraction of the mass inside that radius;
    so the proportion of uniform deviates giving a radius inside it IS that mass fraction *)
Theorem c134_quantiles : forall Si Ci pm s c spl i p, In s (analytic_mass Si Ci pm) -> 0 < c -> (i < 1000)%nat ->
  increasing_fit (map (fun x => s_h s x / s_h s c) (populate_grid c)) (populate_grid c) (spl (map (fun x => s_h s x / s_h s c) (populate_grid c)) (populate_grid c)) ->
  mass_fraction (s_f s) c (INR i / 999 * c) p -> forall u, 0 <= u <= 1 -> (populate_x s spl c u <= INR i / 999 * c <-> u <= p).
Proof.
  intros Si Ci pm s c spl i p H C Hi F M u U. destruct (good_all _ _ _ _ H) as [G _]. rewrite (fraction_val s c G C _ _ (proj1 (grid_range c C i Hi)) M).
  apply (quantile s c G C _ F); auto.
Qed.
Print Assumptions c134_quantiles.

(** at any radius the proportion is the mass fraction up to the mass fraction of the grid cell the radius falls in *)
Theorem c134_between_nodes : forall Si Ci pm s c spl i x p p0 p1, In s (analytic_mass Si Ci pm) -> 0 < c -> (S i < 1000)%nat ->
  increasing_fit (map (fun x => s_h s x / s_h s c) (populate_grid c)) (populate_grid c) (spl (map (fun x => s_h s x / s_h s c) (populate_grid c)) (populate_grid c)) ->
  INR i / 999 * c <= x <= INR (S i) / 999 * c -> mass_fraction (s_f s) c x p -> mass_fraction (s_f s) c (INR i / 999 * c) p0 -> mass_fraction (s_f s) c (INR (S i) / 999 * c) p1 ->
  p0 <= p <= p1 /\ forall u, 0 <= u <= 1 -> (u <= p - (p1 - p0) -> populate_x s spl c u <= x) /\ (populate_x s spl c u <= x -> u <= p + (p1 - p0)).
Proof.
  intros Si Ci pm s c spl i x p p0 p1 H C Hi F X M M0 M1. destruct (good_all _ _ _ _ H) as [G _].
  assert (R0 := grid_range c C i ltac:(lia)). assert (R1 := grid_range c C (S i) Hi).
  rewrite (fraction_val s c G C _ _ (proj1 R0) M0), (fraction_val s c G C _ _ (proj1 R1) M1), (fraction_val s c G C x p ltac:(lra) M).
  assert (A := frac_mono s c G C (INR i / 999 * c) x ltac:(lra)). assert (B := frac_mono s c G C x (INR (S i) / 999 * c) ltac:(lra)).
  split; [lra|]. intros u U. split; intros Q.
  - apply Rle_trans with (INR i / 999 * c); [|lra]. apply (quantile s c G C _ F); auto; [lia|]. lra.
  - assert (Z : populate_x s spl c u <= INR (S i) / 999 * c) by lra. apply (quantile s c G C _ F) in Z; auto. lra.
Qed.
Print Assumptions c134_between_nodes.

Lemma rvir_val : forall o m rv, inst_ok o -> 0 < m -> 0 < nu_fn o m -> 0 < rv ->
  4 / 3 * PI * delta_halo o * mean_density0 o * rv ^ 3 = m * Rpower (nu_fn o m) (3 * eta_bloat o / 2) -> halo_mass_to_radius o m false * bloat o m = rv.
Proof.
  intros o m rv Ho Hm Hn Hr E. rewrite <- bloat_cube in E by auto. assert (C := hmr_cube o Ho m false Hm). unfold dens in C. destruct Ho as [O1 [O2 O3]]. assert (PP := PI_RGT_0).
  assert (A : 0 < halo_mass_to_radius o m false) by apply exp_pos. assert (B : 0 < bloat o m) by apply exp_pos.
  assert (K : (halo_mass_to_radius o m false * bloat o m) ^ 3 = rv ^ 3).
  { rewrite Rpow_mult_distr, C. apply (Rmult_eq_reg_l (4 / 3 * PI * delta_halo o * mean_density0 o)); [|assert (0 < 4 / 3 * PI) by lra; apply Rgt_not_eq; do 2 (apply Rmult_lt_0_compat; auto)].
    rewrite E. field. repeat split; lra. }
  set (x := halo_mass_to_radius o m false * bloat o m) in *. assert (X : 0 < x) by (apply Rmult_lt_0_compat; auto). clearbody x. clear - K X Hr.
  assert (F : (x - rv) * (x ^ 2 + x * rv + rv ^ 2) = 0) by lra. apply Rmult_integral in F. destruct F as [F|F]; [lra|nra].
Qed.
(** of any list of deviates in [0, 1], the number of halo members placed within the tabulated radius equals the number of deviates not above the mass fraction *)
Theorem c134_counts : forall Si Ci pm s c spl i p, In s (analytic_mass Si Ci pm) -> 0 < c -> (i < 1000)%nat ->
  increasing_fit (map (fun x => s_h s x / s_h s c) (populate_grid c)) (populate_grid c) (spl (map (fun x => s_h s x / s_h s c) (populate_grid c)) (populate_grid c)) ->
  mass_fraction (s_f s) c (INR i / 999 * c) p -> forall o m centre draws rvir, s_moore s = false -> inst_ok o -> 0 < m -> 0 < nu_fn o m ->
  (* rvir: the radius of the sphere of mean density delta rho_0 holding the mass m, stretched by nu^(eta/2) *)
  0 < rvir -> 4 / 3 * PI * delta_halo o * mean_density0 o * rvir ^ 3 = m * Rpower (nu_fn o m) (3 * eta_bloat o / 2) ->
  (forall u n, In (u, n) draws -> 0 <= u <= 1 /\ n <> (0, 0, 0)) ->
  exists pts, populate s o spl m (Some c) centre draws = Ok pts /\
    number_at_most (INR i / 999 * rvir) (map (fun q => vnorm (vadd q (vscale (-1) centre))) pts) = number_at_most p (map fst draws).
Proof.
  intros Si Ci pm s c spl i p H C Hi F M o m centre draws rv Mo Ho Hm Hn Hr HR D. rewrite <- (rvir_val o m rv Ho Hm Hn Hr HR). assert (QQ := c134_quantiles Si Ci pm s c spl i p H C Hi F M). destruct (good_all _ _ _ _ H) as [G _].
  destruct (rs_ok o s m c C) as [rs [R [P E]]]. specialize (E Mo).
  assert (NN : forall u, 0 <= u <= 1 -> 0 <= populate_x s spl c u).
  { intros u U. apply (fit_nonneg s c G _ F u U). }
  induction draws as [|[u n] rest IH].
  - exists []. split; reflexivity.
  - destruct IH as [pts [A B]]; [intros; apply D; now right|]. destruct (D u n (or_introl eq_refl)) as [U N].
    assert (EP : exists q, populate_point s o spl m (Some c) centre u n = Ok q) by (unfold populate_point, get_r_variables; rewrite R; simpl; eauto).
    destruct EP as [q EP]. exists (q :: pts). split; [simpl; rewrite EP; simpl; rewrite A; reflexivity|].
    cbn [map fst number_at_most]. rewrite B. f_equal.
    rewrite (point_dist _ _ _ _ _ _ _ _ _ _ R P EP N). rewrite Rabs_pos_eq by (apply NN; auto). rewrite <- E.
    specialize (QQ u U). destruct (Rle_dec (rs * populate_x s spl c u) (INR i / 999 * (rs * c))) as [L|L], (Rle_dec u p) as [L'|L']; auto; exfalso.
    + apply L', QQ. apply (Rmult_le_reg_l rs); auto. lra.
    + apply L. apply QQ in L'. apply (Rmult_le_compat_l rs) in L'; lra.
Qed.
Print Assumptions c134_counts.

(** for NFW a grid cell holds at most c / (3996 (ln(1+c) - c/(1+c))) of the mass *)
Theorem c134_nfw_cell : forall c i p0 p1, 0 < c -> (S i < 1000)%nat -> forall Si Ci,
  mass_fraction (s_f (NFW Si Ci)) c (INR i / 999 * c) p0 -> mass_fraction (s_f (NFW Si Ci)) c (INR (S i) / 999 * c) p1 ->
  0 < p1 - p0 <= c / (3996 * (ln (1 + c) - c / (1 + c))).
Proof.
  intros c i p0 p1 C Hi Si Ci M0 M1. assert (H : In (NFW Si Ci) (analytic_mass Si Ci (fun _ _ => 0))) by (simpl; auto). destruct (good_all _ _ _ _ H) as [G _].
  assert (R0 := grid_range c C i ltac:(lia)). assert (R1 := grid_range c C (S i) Hi).
  rewrite (fraction_val _ c G C _ _ (proj1 R0) M0), (fraction_val _ c G C _ _ (proj1 R1) M1). assert (P := good_pos _ c G C).
  set (a := INR i / 999 * c) in *. set (b := INR (S i) / 999 * c) in *. assert (AB : b - a = c / 999) by (unfold a, b; rewrite S_INR; field).
  assert (c / 999 > 0) by lra.
  assert (I := proj2 (proj2 G) a b ltac:(lra)).
  assert (D : s_h (NFW Si Ci) b - s_h (NFW Si Ci) a <= (b - a) / 4).
  { destruct (mvt (fun x => ln (1 + x) - x / (1 + x)) (fun x => x / (1 + x) ^ 2) a b) as [z [Z E]]; [lra| |].
    - intros x X. auto_derive; [repeat split; lra|]. field. lra.
    - simpl s_h. unfold nfw_h. cbv beta in E. rewrite E. rewrite Rmult_comm. apply Rmult_le_compat_l; [lra|].
      apply (Rmult_le_reg_r ((1 + z) ^ 2)); [apply pow_lt; lra|]. unfold Rdiv. rewrite Rmult_assoc, Rinv_l by (apply pow_nonzero; lra).
      assert (0 <= (1 - z) ^ 2) by apply pow2_ge_0. nra. }
  assert (EE : s_h (NFW Si Ci) b / s_h (NFW Si Ci) c - s_h (NFW Si Ci) a / s_h (NFW Si Ci) c = (s_h (NFW Si Ci) b - s_h (NFW Si Ci) a) / s_h (NFW Si Ci) c) by (field; lra).
  rewrite EE.
  split; [apply Rdiv_lt_0_compat; lra|]. replace (ln (1 + c) - c / (1 + c)) with (s_h (NFW Si Ci) c) by reflexivity.
  replace (c / (3996 * s_h (NFW Si Ci) c)) with ((c / 3996) / s_h (NFW Si Ci) c) by (field; lra).
  apply Rmult_le_compat_r; [left; apply Rinv_0_lt_compat; auto|]. lra.
Qed.
Print Assumptions c134_nfw_cell.

(** isotropy: rotating or reflecting the normal deviates rotates or reflects the point about the centre, and their length is irrelevant.
    (Normal deviates have the same distribution after any rotation, hence so do the points.) *)
Theorem c134_isotropic : forall s o spl m c centre rnd nrm M k q, 0 < c -> nrm <> (0, 0, 0) -> isometry M -> 0 < k ->
  populate_point s o spl m (Some c) centre rnd nrm = Ok q ->
  populate_point s o spl m (Some c) centre rnd (M nrm) = Ok (vadd (M (vadd q (vscale (-1) centre))) centre) /\ populate_point s o spl m (Some c) centre rnd (vscale k nrm) = Ok q.
Proof.
  intros s o spl m c centre rnd nrm M k q C N [LM LN] K. unfold populate_point, get_r_variables.
  destruct (rs_ok o s m c C) as [rs [R [P _]]]. rewrite R. cbn [bind]. intros E. injection E as <-. set (r := rs * populate_x s spl c rnd).
  assert (VN : vnorm (M nrm) = vnorm nrm).
  { destruct nrm as [[a b] d]. specialize (LN a b d). unfold vnorm. destruct (M (a, b, d)) as [[x y] z]. now rewrite LN. }
  assert (NZ : 0 < vnorm nrm).
  { destruct nrm as [[a b] d]. unfold vnorm. apply sqrt_lt_R0. assert (0 <= a ^ 2 /\ 0 <= b ^ 2 /\ 0 <= d ^ 2) by (repeat split; apply pow2_ge_0).
    destruct (Req_dec a 0), (Req_dec b 0), (Req_dec d 0); try (subst; now elim N); assert (forall t, t <> 0 -> 0 < t ^ 2) as Q by (intros; rewrite <- Rsqr_pow2; now apply Rsqr_pos_lt);
    repeat match goal with X : ?t <> 0 |- _ => match t with a => idtac | b => idtac | d => idtac end; apply Q in X end; lra. }
  split.
  - f_equal. rewrite VN. destruct nrm as [[a b] d], centre as [[x y] z]. unfold vadd, vscale at 2 3.
    replace (r / vnorm (a, b, d) * a + x + -1 * x, r / vnorm (a, b, d) * b + y + -1 * y, r / vnorm (a, b, d) * d + z + -1 * z)
      with (r / vnorm (a, b, d) * a, r / vnorm (a, b, d) * b, r / vnorm (a, b, d) * d) by (f_equal; [f_equal|]; ring).
    rewrite LM. unfold vscale. now destruct (M (a, b, d)) as [[a' b'] d'].
  - destruct nrm as [[a b] d].
    assert (V : vnorm (vscale k (a, b, d)) = k * vnorm (a, b, d)).
    { unfold vscale, vnorm. rewrite <- (sqrt_pow2 k) at 4 by lra. rewrite <- sqrt_mult_alt by apply pow2_ge_0. f_equal. ring. }
    rewrite V. assert (W : vscale (r / (k * vnorm (a, b, d))) (vscale k (a, b, d)) = vscale (r / vnorm (a, b, d)) (a, b, d)); [|change (Ok (vadd (vscale (r / (k * vnorm (a, b, d))) (vscale k (a, b, d))) centre) = Ok (vadd (vscale (r / vnorm (a, b, d)) (a, b, d)) centre)); now rewrite W].
    set (w := vnorm (a, b, d)) in *. unfold vscale. apply injective_projections; [apply injective_projections|]; simpl; field; lra.
Qed.
Print Assumptions c134_isotropic.

(** the hypotheses are met: the exact inverse of the Hernquist mass fraction *)
Definition hern_inv (c u : R) : R := let y := sqrt u * (c / (1 + c)) in y / (1 - y).
Lemma hern_fit : forall Si Ci c, 0 < c ->
  increasing_fit (map (fun x => s_h (Hernquist Si Ci) x / s_h (Hernquist Si Ci) c) (populate_grid c)) (populate_grid c) (hern_inv c).
Proof.
  intros Si Ci c C. assert (Q : 0 < c / (1 + c) < 1).
  { split; [apply Rdiv_lt_0_compat; lra|]. apply (Rmult_lt_reg_r (1 + c)); [lra|]. unfold Rdiv. rewrite Rmult_assoc, Rinv_l by lra. lra. }
  split.
  - intros i Hi. rewrite map_length in Hi. unfold populate_grid in Hi. rewrite map_length, seq_length in Hi. rewrite (us_nth (Hernquist Si Ci)), grid_nth by auto.
    assert (X := grid_range c C i Hi). set (x := INR i / 999 * c) in *. simpl s_h. unfold hern_inv.
    replace (hern_h x / hern_h c) with ((x * (1 + c) / (c * (1 + x))) ^ 2) by (unfold hern_h; field; lra).
    rewrite sqrt_pow2 by (apply Rmult_le_pos; [nra|left; apply Rinv_0_lt_compat; nra]). field. repeat split; nra.
  - intros u v U L V. unfold hern_inv. assert (S1 : sqrt u < sqrt v) by (apply sqrt_lt_1; lra). assert (S2 : sqrt v <= 1) by (rewrite <- sqrt_1; apply sqrt_le_1; lra).
    assert (S0 := sqrt_pos u). set (a := sqrt u * (c / (1 + c))). set (b := sqrt v * (c / (1 + c))).
    assert (0 <= a < b /\ b < 1) as [AB B1] by (unfold a, b; nra).
    apply (Rmult_lt_reg_r ((1 - a) * (1 - b))); [nra|]. replace (a / (1 - a) * ((1 - a) * (1 - b))) with (a * (1 - b)) by (field; lra).
    replace (b / (1 - b) * ((1 - a) * (1 - b))) with (b * (1 - a)) by (field; lra). nra.
Qed.
Example c134_hypotheses_met : forall Si Ci, exists spl, increasing_fit (map (fun x => s_h (Hernquist Si Ci) x / s_h (Hernquist Si Ci) 5) (populate_grid 5)) (populate_grid 5)
  (spl (map (fun x => s_h (Hernquist Si Ci) x / s_h (Hernquist Si Ci) 5) (populate_grid 5)) (populate_grid 5)).
Proof. intros Si Ci. exists (fun _ _ => hern_inv 5). apply hern_fit. lra. Qed.
Example c134_isometry_met : isometry (fun '(a, b, d) => (b, - a, d)).
Proof. split; intros; simpl; try ring. repeat f_equal; ring. Qed.
