(** Modified densities (C110) and scale-dependent bias (C111) in the halo-exclusion models.
    Code under study: /repo/src/halomod/halo_exclusion.py:201-660. *)
From Coq Require Import Reals Lra Lia List Bool Arith Psatz.
From Coquelicot Require Import Coquelicot.
From Verif Require Import Model.RBool Model.Quad Model.Exclusion Spec.QuadSpec Spec.ExclSpec
  Proofs.QuadProofs Proofs.QuadProofs2 Proofs.ExclusionProofs Props.ExclusionProps.
Import ListNotations.
Local Open Scope R_scope.

Lemma sqrt_sq_le : forall a b, 0 <= a -> a ^ 2 <= b -> a <= sqrt b.
Proof. intros a b Ha H. rewrite <- (sqrt_pow2 a Ha). apply sqrt_le_1_alt. exact H. Qed.
Lemma sqrt_le_sq : forall a b, 0 <= a -> b <= a ^ 2 -> sqrt b <= a.
Proof. intros a b Ha H. rewrite <- (sqrt_pow2 a Ha). apply sqrt_le_1_alt. exact H. Qed.
Lemma trap_le : forall h n f g, 0 <= h -> (forall i, (i <= n)%nat -> f i <= g i) -> trapezoid_rule h n f <= trapezoid_rule h n g.
Proof.
  intros h n f g Hh H. unfold trapezoid_rule. induction n as [|n IH]; [unfold bigsum; simpl; lra|]. rewrite !bigsum_S. apply Rplus_le_compat; [apply IH; intros; apply H; lia|].
  apply Rmult_le_compat_l; [lra|]. assert (A := H n ltac:(lia)). assert (B := H (n + 1)%nat ltac:(lia)). lra.
Qed.
Lemma trap_ext : forall h n f g, (forall i, (i <= n)%nat -> f i = g i) -> trapezoid_rule h n f = trapezoid_rule h n g.
Proof. intros h n f g H. unfold trapezoid_rule. apply bigsum_ext. intros i Hi. now rewrite !H by lia. Qed.
Lemma trap_scal : forall h n c f, trapezoid_rule h n (fun i => c * f i) = c * trapezoid_rule h n f.
Proof. intros. unfold trapezoid_rule. rewrite <- bigsum_scal. apply bigsum_ext. intros. ring. Qed.
Lemma trap_nonneg : forall h n f, 0 <= h -> (forall i, (i <= n)%nat -> 0 <= f i) -> 0 <= trapezoid_rule h n f.
Proof. intros h n f Hh H. replace 0 with (trapezoid_rule h n (fun _ => 0)); [now apply trap_le|]. rewrite (trap_ext h n _ (fun i => 0 * 0)) by (intros; ring). rewrite (trap_scal h n 0 (fun _ => 0)). ring. Qed.
Lemma trap_dbl : forall h n f, trapezoid_rule h n (fun i => trapezoid_rule h n (fun j => f i * f j)) = trapezoid_rule h n f ^ 2.
Proof.
  intros. rewrite (trap_ext h n _ (fun i => trapezoid_rule h n f * f i)) by (intros; rewrite trap_scal; ring). rewrite trap_scal. ring.
Qed.

(** the mean density of the grid, by Simpson's rule and by the trapezoid rule *)
Definition simpson_density (e : exclusion) : R := scipy_simpson (e_nm e) (e_dlnx e) (fun i => e_density e i * e_m e i).
Definition trapezoid_density (e : exclusion) : R := trapezoid_rule (e_dlnx e) (e_nm e - 1) (fun i => e_density e i * e_m e i).

Section Den.
  Variables (ius : ius_t) (e : exclusion).
  Hypothesis Hok : excl_ok e.
  Hypothesis Hx : e_xmin e = None.
  Hypothesis Hd : forall i, (i < e_nm e)%nat -> 0 <= e_density e i.
  Let f := fun i => e_density e i * e_m e i.
  Lemma den_nonneg : forall i, (i < e_nm e)%nat -> 0 <= f i.
  Proof. intros i Hi. apply Rmult_le_pos; auto. left. now apply ok_pos. Qed.
  Let n := e_nm e. Let h := e_dlnx e.
  Lemma den_h : 0 <= h. Proof. left. now apply ok_dlnx. Qed.
  Lemma sphere_den : forall ir, sphere_density_mod ius e ir = scipy_simpson n h (fun i => b2R (negb (sphere_mask e ir i)) * f i).
  Proof. intros. unfold sphere_density_mod. rewrite spl_simpson by auto. apply simpson_ext. intros i Hi. unfold zero_where, f. destruct (sphere_mask e ir i); simpl; ring. Qed.
  Lemma dbl_den : forall ir, dblsphere_density_mod ius e ir ^ 2 = scipy_simpson n h (fun i => scipy_simpson n h (fun j => b2R (negb (dblsphere_mask e ir i j)) * (f i * f j))).
  Proof.
    intros. unfold dblsphere_density_mod. rewrite spl_simpson by auto.
    assert (E : scipy_simpson n h (fun im => spline_integrate ius e (zero_where (dblsphere_mask e ir im) (fun jm => e_density e im * e_m e im * (e_density e jm * e_m e jm)))) = scipy_simpson n h (fun i => scipy_simpson n h (fun j => b2R (negb (dblsphere_mask e ir i j)) * (f i * f j)))).
    { apply simpson_ext. intros i Hi. rewrite spl_simpson by auto. apply simpson_ext. intros j Hj. unfold zero_where, f. destruct (dblsphere_mask e ir i j); simpl; ring. }
    fold n h. rewrite E. simpl pow at 1. rewrite Rmult_1_r. apply sqrt_sqrt. apply simpson_nonneg; [apply Hok|apply den_h|]. intros i Hi. apply simpson_nonneg; [apply Hok|apply den_h|]. intros j Hj.
    apply Rmult_le_pos; [destruct (dblsphere_mask e ir i j); simpl; lra|]. apply Rmult_le_pos; now apply den_nonneg.
  Qed.
  Lemma dbl_den_nonneg : forall ir, 0 <= dblsphere_density_mod ius e ir.
  Proof. intros. apply sqrt_pos. Qed.
  Lemma ell_den : forall ir, ell_density_mod ius e ir ^ 2 = trapezoid_rule h (n - 1) (fun i => trapezoid_rule h (n - 1) (fun j => ell_prob e ir i j * (f i * f j))).
  Proof.
    intros. unfold ell_density_mod. rewrite Hx. rewrite dbltrapz_iter by apply Hok. fold n h.
    assert (E : forall y, y = trapezoid_rule h (n - 1) (fun i => trapezoid_rule h (n - 1) (fun j => ell_prob e ir i j * (f i * f j))) -> 0 <= y -> sqrt y ^ 2 = y) by (intros y _ Hy; simpl; rewrite Rmult_1_r; now apply sqrt_sqrt).
    replace (trapezoid_rule h (n - 1) (fun i => trapezoid_rule h (n - 1) (fun j => ell_prob e ir i j * (1 * (e_density e i * e_m e i * (e_density e j * e_m e j)))))) with (trapezoid_rule h (n - 1) (fun i => trapezoid_rule h (n - 1) (fun j => ell_prob e ir i j * (f i * f j)))).
    - rewrite <- (E _ eq_refl) at 2; [reflexivity|]. assert (N : (2 <= n)%nat) by apply Hok. apply trap_nonneg; [apply den_h|]. intros i Hi. apply trap_nonneg; [apply den_h|]. intros j Hj. apply Rmult_le_pos; [apply ell_prob_bounds|]. apply Rmult_le_pos; apply den_nonneg; unfold n in *; lia.
    - apply trap_ext. intros. apply trap_ext. intros. unfold f. ring.
  Qed.
  Lemma ell_den_nonneg : forall ir, 0 <= ell_density_mod ius e ir.
  Proof. intros. unfold ell_density_mod. rewrite Hx. apply sqrt_pos. Qed.
End Den.

(** * C110 *)
(** no density is created: 0 <= Sphere <= DblSphere <= mean density, and 0 <= DblEllipsoid <= mean density (trapezoid) *)
Theorem c110_density_ordering : forall ius e ir, excl_ok e -> e_xmin e = None -> (forall i, (i < e_nm e)%nat -> 0 <= e_density e i) -> 0 < e_r e ir ->
  0 <= sphere_density_mod ius e ir <= dblsphere_density_mod ius e ir /\ dblsphere_density_mod ius e ir <= simpson_density e /\
  0 <= ell_density_mod ius e ir <= trapezoid_density e.
Proof.
  intros ius e ir Hok Hx Hd Hr. assert (FN := den_nonneg e Hok Hd). assert (HH := den_h e Hok). assert (N : (2 <= e_nm e)%nat) by apply Hok.
  assert (S0 : 0 <= sphere_density_mod ius e ir). { rewrite sphere_den by auto. apply simpson_nonneg; auto. intros i Hi. apply Rmult_le_pos; auto. destruct (sphere_mask e ir i); simpl; lra. }
  assert (T0 : 0 <= simpson_density e) by (apply simpson_nonneg; auto). assert (TT : 0 <= trapezoid_density e) by (apply trap_nonneg; auto; intros; apply FN; lia).
  assert (D0 := dbl_den_nonneg ius e ir). assert (E0 := ell_den_nonneg ius e Hx ir).
  split; [split; auto|split; [|split; auto]].
  - assert (Q : sphere_density_mod ius e ir ^ 2 <= dblsphere_density_mod ius e ir ^ 2); [|nra].
    rewrite dbl_den, sphere_den by auto. rewrite <- simpson_dbl. apply simpson_le; auto. intros i Hi. apply simpson_le; auto. intros j Hj.
    assert (P := Rmult_le_pos _ _ (FN i Hi) (FN j Hj)). replace (b2R (negb (sphere_mask e ir i)) * (e_density e i * e_m e i) * (b2R (negb (sphere_mask e ir j)) * (e_density e j * e_m e j))) with (b2R (negb (sphere_mask e ir i)) * b2R (negb (sphere_mask e ir j)) * (e_density e i * e_m e i * (e_density e j * e_m e j))) by ring.
    apply Rmult_le_compat_r; auto. destruct (sphere_mask e ir i) eqn:A; [|destruct (sphere_mask e ir j) eqn:B]; try (destruct (dblsphere_mask e ir i j); simpl; lra).
    rewrite (sphere_pairs_kept_by_dblsphere e ir i j Hok Hi Hj Hr A B). simpl. lra.
  - assert (Q : dblsphere_density_mod ius e ir ^ 2 <= simpson_density e ^ 2); [|nra]. rewrite dbl_den by auto. unfold simpson_density. rewrite <- simpson_dbl. apply simpson_le; auto. intros i Hi. apply simpson_le; auto. intros j Hj.
    assert (P := Rmult_le_pos _ _ (FN i Hi) (FN j Hj)). destruct (dblsphere_mask e ir i j); simpl; lra.
  - assert (Q : ell_density_mod ius e ir ^ 2 <= trapezoid_density e ^ 2); [|nra]. rewrite ell_den by auto. unfold trapezoid_density. rewrite <- trap_dbl. apply trap_le; auto. intros i Hi. apply trap_le; auto. intros j Hj.
    assert (P := Rmult_le_pos _ _ (FN i ltac:(lia)) (FN j ltac:(lia))). assert (B := ell_prob_bounds e ir i j). nra.
Qed.
Print Assumptions c110_density_ordering.
(** far apart nothing is excluded: the full mean density comes back (by Simpson's rule for spheres, by the trapezoid rule for ellipsoids) *)
Theorem c110_density_large_separation : forall ius e ir, excl_ok e -> e_xmin e = None -> (forall i, (i < e_nm e)%nat -> 0 <= e_density e i) ->
  ((forall i, (i < e_nm e)%nat -> r_halo e i <= e_r e ir / 2) -> sphere_density_mod ius e ir = simpson_density e /\ dblsphere_density_mod ius e ir = simpson_density e) /\
  ((forall i, (i < e_nm e)%nat -> 109/100 * (2 * r_halo e i) <= e_r e ir) -> ell_density_mod ius e ir = trapezoid_density e).
Proof.
  intros ius e ir Hok Hx Hd. assert (FN := den_nonneg e Hok Hd). assert (HH := den_h e Hok). assert (N : (2 <= e_nm e)%nat) by apply Hok. split.
  - intros Hr. assert (Hr0 : 0 < e_r e ir). { assert (A := Hr 0%nat ltac:(lia)). assert (B := r_halo_pos e 0). lra. } split.
    + rewrite sphere_den by auto. apply simpson_ext. intros i Hi. assert (M : sphere_mask e ir i = false). { destruct (sphere_mask e ir i) eqn:E; auto. apply sphere_mask_radius in E; auto. specialize (Hr i Hi). lra. } rewrite M. simpl. ring.
    + assert (Q : dblsphere_density_mod ius e ir ^ 2 = simpson_density e ^ 2). { rewrite dbl_den by auto. unfold simpson_density. rewrite <- simpson_dbl. apply simpson_ext. intros i Hi. apply simpson_ext. intros j Hj. assert (M : dblsphere_mask e ir i j = false) by (unfold dblsphere_mask; apply Rltb_false; assert (A := Hr i Hi); assert (B := Hr j Hj); lra). rewrite M. simpl. ring. }
      assert (D0 := dbl_den_nonneg ius e ir). assert (T0 : 0 <= simpson_density e) by (apply simpson_nonneg; auto). rewrite <- (sqrt_pow2 _ D0), <- (sqrt_pow2 _ T0). now rewrite Q.
  - intros Hr. assert (Q : ell_density_mod ius e ir ^ 2 = trapezoid_density e ^ 2). { rewrite ell_den by auto. unfold trapezoid_density. rewrite <- trap_dbl. apply trap_ext. intros i Hi. apply trap_ext. intros j Hj. rewrite ell_prob_one; [ring|]. assert (A := Hr i ltac:(lia)). assert (B := Hr j ltac:(lia)). lra. }
    assert (E0 := ell_den_nonneg ius e Hx ir). assert (TT : 0 <= trapezoid_density e) by (apply trap_nonneg; auto; intros; apply FN; lia). rewrite <- (sqrt_pow2 _ E0), <- (sqrt_pow2 _ TT). now rewrite Q.
Qed.
Print Assumptions c110_density_large_separation.
(** closer than the smallest pair nothing is left *)
Theorem c110_density_small_separation : forall ius e ir, excl_ok e -> e_xmin e = None -> (forall i, (i < e_nm e)%nat -> 0 <= e_density e i) -> 0 < e_r e ir ->
  (e_r e ir < 2 * r_halo e 0 -> sphere_density_mod ius e ir = 0 /\ dblsphere_density_mod ius e ir = 0) /\ (e_r e ir <= 8/10 * (2 * r_halo e 0) -> ell_density_mod ius e ir = 0).
Proof.
  intros ius e ir Hok Hx Hd Hr0. assert (N : (2 <= e_nm e)%nat) by apply Hok. assert (M : forall q, (q < e_nm e)%nat -> r_halo e 0 <= r_halo e q) by (intros; apply r_halo_mono; auto; lia).
  assert (D0 := dbl_den_nonneg ius e ir). assert (E0 := ell_den_nonneg ius e Hx ir). assert (S0 := c110_density_ordering ius e ir Hok Hx Hd Hr0). split; intros Hr.
  - assert (D : dblsphere_density_mod ius e ir = 0).
    { assert (Q : dblsphere_density_mod ius e ir ^ 2 = 0); [|nra]. rewrite dbl_den by auto. rewrite (simpson_ext _ _ _ (fun _ => 0)); [apply simpson_zero|]. intros i Hi. rewrite (simpson_ext _ _ _ (fun _ => 0)); [apply simpson_zero|]. intros j Hj.
      assert (K : dblsphere_mask e ir i j = true) by (unfold dblsphere_mask; apply Rltb_spec; assert (A := M i Hi); assert (B := M j Hj); lra). rewrite K. simpl. ring. }
    split; auto. lra.
  - assert (Q : ell_density_mod ius e ir ^ 2 = 0); [|nra]. rewrite ell_den by auto. rewrite (trap_ext _ _ _ (fun i => 0 * 0)); [rewrite (trap_scal _ _ 0 (fun _ => 0)); ring|]. intros i Hi. rewrite (trap_ext _ _ _ (fun i => 0 * 0)); [rewrite (trap_scal _ _ 0 (fun _ => 0)); ring|]. intros j Hj.
    rewrite ell_prob_zero; [ring|]. assert (A := M i ltac:(lia)). assert (B := M j ltac:(lia)). lra.
Qed.
Print Assumptions c110_density_small_separation.
(** the density left grows with separation *)
Theorem c110_density_monotone : forall ius e ir ir', excl_ok e -> e_xmin e = None -> (forall i, (i < e_nm e)%nat -> 0 <= e_density e i) -> 0 < e_r e ir -> e_r e ir <= e_r e ir' ->
  sphere_density_mod ius e ir <= sphere_density_mod ius e ir' /\ dblsphere_density_mod ius e ir <= dblsphere_density_mod ius e ir' /\ ell_density_mod ius e ir <= ell_density_mod ius e ir'.
Proof.
  intros ius e ir ir' Hok Hx Hd Hr Hrr. assert (FN := den_nonneg e Hok Hd). assert (HH := den_h e Hok). assert (N : (2 <= e_nm e)%nat) by apply Hok.
  assert (D0 := dbl_den_nonneg ius e ir). assert (D1 := dbl_den_nonneg ius e ir'). assert (E0 := ell_den_nonneg ius e Hx ir). assert (E1 := ell_den_nonneg ius e Hx ir'). split; [|split].
  - rewrite !sphere_den by auto. apply simpson_le; auto. intros i Hi. apply Rmult_le_compat_r; auto. destruct (sphere_mask e ir' i) eqn:A; [|destruct (sphere_mask e ir i); simpl; lra].
    assert (B := proj1 (exclusion_cuts_shrink_with_r e ir ir' i i Hok Hi Hi Hr Hrr) A). rewrite B. simpl. lra.
  - assert (Q : dblsphere_density_mod ius e ir ^ 2 <= dblsphere_density_mod ius e ir' ^ 2); [|nra]. rewrite !dbl_den by auto. apply simpson_le; auto. intros i Hi. apply simpson_le; auto. intros j Hj.
    apply Rmult_le_compat_r; [apply Rmult_le_pos; now apply FN|]. destruct (dblsphere_mask e ir' i j) eqn:A; [|destruct (dblsphere_mask e ir i j); simpl; lra]. rewrite (proj2 (exclusion_cuts_shrink_with_r e ir ir' i j Hok Hi Hj Hr Hrr) A). simpl. lra.
  - assert (Q : ell_density_mod ius e ir ^ 2 <= ell_density_mod ius e ir' ^ 2); [|nra]. rewrite !ell_den by auto. apply trap_le; auto. intros i Hi. apply trap_le; auto. intros j Hj. apply Rmult_le_compat_r; [apply Rmult_le_pos; apply FN; lia|]. now apply ell_prob_mono.
Qed.
Print Assumptions c110_density_monotone.
(** finding: spheres and ellipsoids are normalised by different quadratures of the same density, so at large separation they agree only if the two rules do *)
Theorem c110_far_limits_agree_iff : forall ius e ir, excl_ok e -> e_xmin e = None -> (forall i, (i < e_nm e)%nat -> 0 <= e_density e i) ->
  (forall i, (i < e_nm e)%nat -> 109/100 * (2 * r_halo e i) <= e_r e ir) ->
  (sphere_density_mod ius e ir = ell_density_mod ius e ir <-> simpson_density e = trapezoid_density e).
Proof.
  intros ius e ir Hok Hx Hd Hr. destruct (c110_density_large_separation ius e ir Hok Hx Hd) as [A B]. rewrite (B Hr). destruct A as [-> _]; [|reflexivity]. intros i Hi. specialize (Hr i Hi). assert (P := r_halo_pos e i). lra.
Qed.

(** * C111: a scale-dependent bias enters through its value at the separation in question, and at no other *)
Definition with_bias (e : exclusion) (b : bias_arr) : exclusion := mkExcl (e_nm e) (e_m e) (e_density e) (e_power e) b (e_r e) (e_hd e) (e_xmin_arg e).
Theorem c111_scale_dependent_bias : forall ius e b ir ik, ius_local ius (e_nm e) -> (2 <= e_nm e)%nat ->
  let e2 := with_bias e (Bias2 b) in let e1 := with_bias e (Bias1 (b ir)) in
  noexcl_integrate ius e2 ir ik = noexcl_integrate ius e1 ir ik /\ sphere_integrate ius e2 ir ik = sphere_integrate ius e1 ir ik /\
  dblsphere_integrate ius e2 ir ik = dblsphere_integrate ius e1 ir ik /\ ell_integrate ius e2 ir ik = ell_integrate ius e1 ir ik /\ ng_integrate ius e2 ir ik = ng_integrate ius e1 ir ik.
Proof.
  intros ius e b ir ik Hl Hn e2 e1. assert (R : forall i, raw_integrand e2 ir ik i = raw_integrand e1 ir ik i) by (intros; unfold raw_integrand; simpl; ring).
  assert (SI : forall f g, (forall i, (i < e_nm e)%nat -> f i = g i) -> spline_integrate ius e2 f = spline_integrate ius e1 g).
  { intros f g H. unfold spline_integrate. change (e_xmin e2) with (e_xmin e). change (e_xmin e1) with (e_xmin e). destruct (e_xmin e); [apply Hl; exact H|apply simpson_ext; exact H]. }
  assert (MS : sphere_mask e2 ir = sphere_mask e1 ir) by reflexivity. assert (MD : dblsphere_mask e2 ir = dblsphere_mask e1 ir) by reflexivity. assert (ME : ell_prob e2 ir = ell_prob e1 ir) by reflexivity.
  assert (MN : ng_mask ius e2 ir = ng_mask ius e1 ir) by reflexivity.
  split; [|split; [|split; [|split]]].
  - unfold noexcl_integrate. simpl e_bias. cbv iota. f_equal. apply SI. intros i Hi. unfold raw_integrand. simpl. ring.
  - unfold sphere_integrate. f_equal. apply SI. intros i Hi. unfold zero_where. now rewrite MS, R.
  - unfold dblsphere_integrate. apply SI. intros i Hi. apply simpson_ext. intros j Hj. unfold zero_where. now rewrite MD, !R.
  - unfold ell_integrate. apply SI. intros i Hi. apply simpson_ext. intros j Hj. now rewrite ME, !R.
  - unfold ng_integrate. f_equal. apply SI. intros i Hi. unfold zero_where. now rewrite MN, R.
Qed.
Print Assumptions c111_scale_dependent_bias.
(** without exclusion and with a scale-independent bias: the square of the log-mass Simpson integral of power * bias * m, at every separation *)
Theorem c111_plain_integral : forall ius e b ir ik, e_xmin_arg e = None -> 0 < e_m e 0%nat -> 0 < e_m e 1%nat ->
  noexcl_integrate ius (with_bias e (Bias1 b)) ir ik = (scipy_simpson (e_nm e) (ln (e_m e 1%nat) - ln (e_m e 0%nat)) (fun i => e_power e ik i * b i * e_m e i)) ^ 2.
Proof.
  intros ius e b ir ik Hx B A.
  unfold noexcl_integrate. simpl e_bias. cbv iota. unfold spline_integrate, e_xmin. simpl e_xmin_arg. rewrite Hx. f_equal. unfold e_dlnx. simpl e_m. unfold Rdiv. rewrite ln_mult, ln_Rinv by (auto; now apply Rinv_0_lt_compat). reflexivity.
Qed.
Print Assumptions c111_plain_integral.
(** hypotheses are met by the concrete object of ExclusionProps; its two far limits differ *)
Example c110_ex : (forall i, (i < 3)%nat -> 0 <= e_density (ex_excl None) i) /\ 0 < e_r (ex_excl None) 0 /\ simpson_density (ex_excl None) <> trapezoid_density (ex_excl None).
Proof.
  split; [intros; simpl; lra|]. split; [simpl; lra|]. unfold simpson_density, trapezoid_density. change (e_nm (ex_excl None)) with (2 * 1 + 1)%nat. rewrite simpson_odd_rule by lia. unfold simpson_rule, trapezoid_rule. simpl. unfold bigsum, lsum; simpl.
  assert (H := ok_dlnx _ (proj1 ex_excl_ok)). set (h := e_dlnx (ex_excl None)) in *. intros K. lra.
Qed.

(** C123: the Numba twin of NgMatched *)
Definition without_xmin (e : exclusion) : exclusion := mkExcl (e_nm e) (e_m e) (e_density e) (e_power e) (e_bias e) (e_r e) (e_hd e) None.
(** whatever np.empty contained, it is NgMatched of the same arguments without a lower mass *)
Theorem c123_numba_is_ngmatched_without_xmin : forall ius e buf ir ik, (2 <= e_nm e)%nat ->
  ng_numba_integrate e buf ir ik = ng_integrate ius (without_xmin e) ir ik.
Proof.
  intros ius e buf ir ik Hn. unfold ng_numba_integrate, ng_integrate, spline_integrate. cbn [e_xmin without_xmin e_xmin_arg].
  assert (D : ell_density_mod_numba e ir (buf ir) = ell_density_mod ius (without_xmin e) ir) by exact (ellipsoid_density_numba ius (without_xmin e) ir (buf ir) Hn eq_refl).
  change (raw_integrand (without_xmin e) ir ik) with (raw_integrand e ir ik).
  f_equal. f_equal. unfold zero_where, ng_mask_numba, ng_mask. rewrite D. reflexivity.
Qed.
Print Assumptions c123_numba_is_ngmatched_without_xmin.
(** so the two classes agree whenever the lower mass is absent or below the grid *)
Theorem c123_agree_without_active_xmin : forall ius e buf ir ik, (2 <= e_nm e)%nat ->
  (forall x, e_xmin_arg e = Some x -> x <= e_m e 0%nat) ->
  ng_numba_integrate e buf ir ik = ng_integrate ius e ir ik.
Proof.
  intros ius e buf ir ik Hn Hx. rewrite (c123_numba_is_ngmatched_without_xmin ius) by exact Hn.
  assert (X : e_xmin e = None).
  { unfold e_xmin. destruct (e_xmin_arg e) as [x|] eqn:E; [|reflexivity]. specialize (Hx x eq_refl). destruct (Rltb (e_m e 0%nat) x) eqn:L; [|reflexivity]. apply Rltb_spec in L. lra. }
  unfold ng_integrate, spline_integrate, ng_mask, ell_density_mod. rewrite X. reflexivity.
Qed.
Print Assumptions c123_agree_without_active_xmin.
Lemma cumtrap_rule : forall h f i, cumulative_trapezoid h f i = trapezoid_rule h i f.
Proof. intros. unfold cumulative_trapezoid, trapezoid_rule. rewrite sum_over_seq. apply bigsum_ext. intros. rewrite Nat.add_1_r. field. Qed.
(** far apart NgMatched_ removes nothing: it returns the square of the whole-grid integral, active lower mass or not *)
Theorem c123_numba_large_separation : forall e buf ir ik, excl_ok e -> (forall i, (i < e_nm e)%nat -> 0 <= e_density e i) ->
  (forall i, (i < e_nm e)%nat -> 109/100 * (2 * r_halo e i) <= e_r e ir) ->
  (forall i, (i < e_nm e)%nat -> ng_mask_numba e buf ir i = false) /\
  ng_numba_integrate e buf ir ik = scipy_simpson (e_nm e) (e_dlnx e) (raw_integrand e ir ik) ^ 2.
Proof.
  intros e buf ir ik Hok Hd Hr. assert (N : (2 <= e_nm e)%nat) by apply Hok. set (e0 := without_xmin e). set (ius := fun (_ _ : nat -> R) (_ _ : R) => 0).
  assert (Hok0 : excl_ok e0) by exact Hok.
  assert (D : ell_density_mod_numba e ir (buf ir) = trapezoid_density e).
  { transitivity (ell_density_mod ius e0 ir); [exact (ellipsoid_density_numba ius e0 ir (buf ir) N eq_refl)|]. apply (proj2 (c110_density_large_separation ius e0 ir Hok0 eq_refl Hd)). exact Hr. }
  assert (M : forall i, (i < e_nm e)%nat -> ng_mask_numba e buf ir i = false).
  { intros i Hi. unfold ng_mask_numba. rewrite D. apply Rltb_false.
    assert (C : cumulative_trapezoid (e_dlnx e) (fun i => e_density e i * e_m e i) i <= cumulative_trapezoid (e_dlnx e) (fun i => e_density e i * e_m e i) (e_nm e - 1)).
    { apply cumtrap_mono; [left; now apply ok_dlnx| |lia]. intros q Hq. apply Rmult_le_pos; [apply Hd; lia|left; apply ok_pos; auto; lia]. }
    assert (T : cumulative_trapezoid (e_dlnx e) (fun i => e_density e i * e_m e i) (e_nm e - 1) = trapezoid_density e) by apply cumtrap_rule.
    assert (P : 0 <= trapezoid_density e). { unfold trapezoid_density. apply trap_nonneg; [left; now apply ok_dlnx|]. intros q Hq. apply Rmult_le_pos; [apply Hd; lia|left; apply ok_pos; auto; lia]. }
    lra. }
  split; [exact M|]. unfold ng_numba_integrate. f_equal. apply simpson_ext. intros i Hi. unfold zero_where. now rewrite M.
Qed.
Print Assumptions c123_numba_large_separation.
(** NgMatched with an active lower mass x: far apart the density it matches is the spline integral above x, but the mass cut is
    placed by accumulating the density from the bottom of the grid *)
Theorem c36_far_cut_with_xmin_iff : forall ius e x ir i, excl_ok e -> e_xmin e = Some x ->
  ius_homogeneous ius -> ius_local ius (e_nm e) -> (forall q, (q < e_nm e)%nat -> 109/100 * (2 * r_halo e q) <= e_r e ir) ->
  let f := fun q => e_density e q * e_m e q in
  let above := ius (fun q => ln (e_m e q)) f (ln x) (ln (e_m e (e_nm e - 1)%nat)) in
  (ng_mask ius e ir i = true <-> 1.0001 * Rabs above < trapezoid_rule (e_dlnx e) i f).
Proof.
  intros ius e x ir i Hok Hx Hh Hl Hr f above. rewrite ngmatched_mask_iff. fold f.
  assert (E : ell_density_mod ius e ir = Rabs above); [|now rewrite E].
  assert (S : forall g, spline_integrate ius e g = ius (fun i => ln (e_m e i)) g (ln x) (ln (e_m e (e_nm e - 1)%nat))) by (intros; unfold spline_integrate; now rewrite Hx).
  unfold ell_density_mod. rewrite Hx, S.
  rewrite (Hl _ _ (fun im => f im * above)).
  - rewrite Hh. fold above. rewrite <- sqrt_Rsqr_abs. reflexivity.
  - intros im Him. rewrite S. unfold above. rewrite (Hl _ _ (fun jm => f jm * f im)); [rewrite Hh; ring|].
    intros jm Hjm. rewrite ell_prob_one; [unfold f; ring|]. assert (A := Hr im Him). assert (B := Hr jm Hjm). lra.
Qed.
Print Assumptions c36_far_cut_with_xmin_iff.
(** finding: if the tracers below x outnumber a ten-thousandth of those above it (the two quadratures agreeing), the heaviest
    halo is removed even at infinite separation, and NgMatched's integral stays below the plain one *)
Theorem c36_far_cut_removes_heaviest_refuted : forall ius e x ir, excl_ok e -> e_xmin e = Some x ->
  ius_homogeneous ius -> ius_local ius (e_nm e) -> (forall q, (q < e_nm e)%nat -> 109/100 * (2 * r_halo e q) <= e_r e ir) ->
  let f := fun q => e_density e q * e_m e q in
  let above := ius (fun q => ln (e_m e q)) f (ln x) (ln (e_m e (e_nm e - 1)%nat)) in
  forall below, 0 <= above -> trapezoid_density e = below + above -> above / 10000 < below ->
  ng_mask ius e ir (e_nm e - 1) = true.
Proof.
  intros ius e x ir Hok Hx Hh Hl Hr f above below Ha Ht Hb. apply (c36_far_cut_with_xmin_iff ius e x ir _ Hok Hx Hh Hl Hr). fold f above.
  rewrite Rabs_pos_eq by exact Ha. unfold trapezoid_density in Ht. fold f in Ht. rewrite Ht. lra.
Qed.
Print Assumptions c36_far_cut_removes_heaviest_refuted.
Example c123_ex : excl_ok (ex_excl (Some 3)) /\ e_xmin (ex_excl (Some 3)) = Some 3 /\ (forall i, (i < 3)%nat -> 0 <= e_density (ex_excl (Some 3)) i) /\
  (forall i, (i < 3)%nat -> 109/100 * (2 * r_halo (ex_excl (Some 3)) i) <= e_r (ex_excl (Some 3)) 9) /\
  (exists ius, ius_homogeneous ius /\ ius_local ius 3 /\ exists below, trapezoid_density (ex_excl (Some 3)) = below + ius (fun q => ln (e_m (ex_excl (Some 3)) q)) (fun q => e_density (ex_excl (Some 3)) q * e_m (ex_excl (Some 3)) q) (ln 3) (ln (e_m (ex_excl (Some 3)) 2)) /\
     1 / 10000 * ius (fun q => ln (e_m (ex_excl (Some 3)) q)) (fun q => e_density (ex_excl (Some 3)) q * e_m (ex_excl (Some 3)) q) (ln 3) (ln (e_m (ex_excl (Some 3)) 2)) < below).
Proof.
  assert (O : excl_ok (ex_excl (Some 3))) by exact (proj1 ex_excl_ok). split; [exact O|]. split; [exact ex_excl_xmin|]. split; [intros; simpl; lra|]. split; [exact ex_large|].
  exists (fun _ y a b => y 2%nat * ((b - a) / 4)). split; [repeat intro; ring|]. split; [repeat intro; rewrite H by lia; reflexivity|].
  exists (trapezoid_density (ex_excl (Some 3)) - 1 * 4 * ((ln 4 - ln 3) / 4)). cbn [ex_excl e_m e_density]. simpl (2 ^ 2). replace (2 * (2 * 1)) with 4 by ring. split; [ring|].
  assert (T : trapezoid_density (ex_excl (Some 3)) = ln 2 * (9/2)).
  { unfold trapezoid_density, trapezoid_rule, e_dlnx. cbn [ex_excl e_m e_density e_nm]. unfold bigsum. simpl. replace (2 * 1 / 1) with 2 by field. field. }
  rewrite T. assert (L2 : 0 < ln 2) by (rewrite <- ln_1; apply ln_increasing; lra).
  assert (L4 : ln 4 = 2 * ln 2) by (replace 4 with (2 * 2) by ring; rewrite ln_mult by lra; ring).
  assert (L3 : ln 2 < ln 3) by (apply ln_increasing; lra). lra.
Qed.
