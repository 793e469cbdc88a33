(** Theorems about the halo-exclusion models (C31-C36). *)
From Coq Require Import Reals Lra Lia List Bool Arith Psatz.
From Coquelicot Require Import Coquelicot.
From Verif Require Import Model.RBool Model.Quad Model.Exclusion Spec.QuadSpec Spec.ExclSpec
  Proofs.QuadProofs Proofs.QuadProofs2 Proofs.ExclusionProofs.
Import ListNotations.
Local Open Scope R_scope.

Lemma sphere_radius_is : forall e i R0, excl_ok e -> (i < e_nm e)%nat ->
  (sphere_radius (e_hd e) (e_m e i) R0 <-> R0 = r_halo e i).
Proof.
  intros e i R0 Hok Hi. assert (Hm := ok_pos e i Hok Hi). assert (Hd : 0 < e_hd e) by apply Hok. split.
  - intros [H1 H2]. apply r_halo_unique; auto.
  - intros ->. split; [apply r_halo_pos|apply r_halo_sphere; auto].
Qed.

(** C31 *)
Theorem sphere_cut_is_radius_cut : forall e ir im R0, excl_ok e -> (im < e_nm e)%nat -> 0 < e_r e ir ->
  sphere_radius (e_hd e) (e_m e im) R0 -> (sphere_mask e ir im = true <-> R0 > e_r e ir / 2).
Proof.
  intros e ir im R0 Hok Hi Hr HR. apply sphere_radius_is in HR; auto. subst. rewrite sphere_mask_radius by auto. lra.
Qed.
Print Assumptions sphere_cut_is_radius_cut.
Theorem dblsphere_cut_is_pair_cut : forall e ir im jm R1 R2, excl_ok e -> (im < e_nm e)%nat -> (jm < e_nm e)%nat ->
  sphere_radius (e_hd e) (e_m e im) R1 -> sphere_radius (e_hd e) (e_m e jm) R2 ->
  (dblsphere_mask e ir im jm = true <-> R1 + R2 > e_r e ir).
Proof.
  intros e ir im jm R1 R2 Hok Hi Hj H1 H2. apply sphere_radius_is in H1, H2; auto. subst.
  unfold dblsphere_mask. rewrite Rltb_spec. lra.
Qed.
Print Assumptions dblsphere_cut_is_pair_cut.
Theorem halo_radius_exists : forall e im, excl_ok e -> (im < e_nm e)%nat -> exists R0, sphere_radius (e_hd e) (e_m e im) R0.
Proof. intros. exists (r_halo e im). apply sphere_radius_is; auto. Qed.
Theorem dblsphere_cut_symmetric : forall e ir i j, dblsphere_mask e ir i j = dblsphere_mask e ir j i.
Proof. exact dblsphere_mask_sym. Qed.
Theorem exclusion_cuts_shrink_with_r : forall e ir ir' i j, excl_ok e -> (i < e_nm e)%nat -> (j < e_nm e)%nat ->
  0 < e_r e ir -> e_r e ir <= e_r e ir' ->
  (sphere_mask e ir' i = true -> sphere_mask e ir i = true) /\
  (dblsphere_mask e ir' i j = true -> dblsphere_mask e ir i j = true).
Proof.
  intros. rewrite !sphere_mask_radius by (auto; lra). unfold dblsphere_mask. rewrite !Rltb_spec. split; lra.
Qed.
Theorem sphere_pairs_kept_by_dblsphere : forall e ir i j, excl_ok e -> (i < e_nm e)%nat -> (j < e_nm e)%nat ->
  0 < e_r e ir -> sphere_mask e ir i = false -> sphere_mask e ir j = false -> dblsphere_mask e ir i j = false.
Proof.
  intros e ir i j Hok Hi Hj Hr H1 H2.
  assert (A := sphere_mask_radius e ir i Hok Hi Hr). assert (B := sphere_mask_radius e ir j Hok Hj Hr).
  rewrite H1 in A. rewrite H2 in B. unfold dblsphere_mask. apply Rltb_false.
  destruct (Rle_lt_dec (r_halo e i) (e_r e ir / 2)); [|destruct A as [_ A]; specialize (A r); discriminate].
  destruct (Rle_lt_dec (r_halo e j) (e_r e ir / 2)); [lra|destruct B as [_ B]; specialize (B r0); discriminate].
Qed.

(** C32: no lower mass bound active *)
Theorem exclusion_large_separation : forall ius e ir ik, excl_ok e -> e_xmin e = None ->
  (forall i, (i < e_nm e)%nat -> r_halo e i <= e_r e ir / 2) ->
  sphere_integrate ius e ir ik = noexcl_integrate ius e ir ik /\
  dblsphere_integrate ius e ir ik = noexcl_integrate ius e ir ik.
Proof.
  intros ius e ir ik Hok Hx Hr.
  assert (Hr0 : 0 < e_r e ir). { assert (A := Hr 0%nat ltac:(destruct Hok; lia)). assert (B := r_halo_pos e 0). lra. }
  rewrite noexcl_dbl, sphere_eq, dblsphere_eq by auto. split; apply dbl_ext; intros i j Hi Hj.
  - assert (forall q, (q < e_nm e)%nat -> sphere_mask e ir q = false).
    { intros q Hq. apply not_true_is_false. rewrite sphere_mask_radius by auto. specialize (Hr q Hq). lra. }
    now rewrite !H by auto.
  - assert (dblsphere_mask e ir i j = false) as ->; auto. apply Rltb_false. assert (A := Hr i Hi). assert (B := Hr j Hj). lra.
Qed.
Print Assumptions exclusion_large_separation.
Theorem ellipsoid_large_separation : forall ius e ir ik, excl_ok e -> e_xmin e = None ->
  (forall i, (i < e_nm e)%nat -> 109/100 * (2 * r_halo e i) <= e_r e ir) ->
  ell_integrate ius e ir ik = noexcl_integrate ius e ir ik.
Proof.
  intros ius e ir ik Hok Hx Hr. rewrite noexcl_dbl, ell_eq by auto. apply dbl_ext; intros i j Hi Hj.
  apply ell_prob_one. assert (A := Hr i Hi). assert (B := Hr j Hj). lra.
Qed.
Theorem exclusion_small_separation : forall ius e ir ik, excl_ok e -> e_xmin e = None -> 0 < e_r e ir ->
  (e_r e ir < 2 * r_halo e 0 -> sphere_integrate ius e ir ik = 0 /\ dblsphere_integrate ius e ir ik = 0) /\
  (e_r e ir <= 8/10 * (2 * r_halo e 0) -> ell_integrate ius e ir ik = 0).
Proof.
  intros ius e ir ik Hok Hx Hr0.
  assert (M : forall q, (q < e_nm e)%nat -> r_halo e 0 <= r_halo e q) by (intros; apply r_halo_mono; auto; lia).
  rewrite sphere_eq, dblsphere_eq, ell_eq by auto.
  split; [intros Hr; split|intros Hr]; rewrite <- (zero_dbl e (raw_integrand e ir ik)); apply dbl_ext; intros i j Hi Hj.
  - assert (sphere_mask e ir i = true) as ->. { apply sphere_mask_radius; auto. assert (A := M i Hi). lra. } reflexivity.
  - assert (dblsphere_mask e ir i j = true) as ->; [|reflexivity]. apply Rltb_spec. assert (A := M i Hi). assert (B := M j Hj). lra.
  - apply ell_prob_zero. assert (A := M i Hi). assert (B := M j Hj). lra.
Qed.
Print Assumptions exclusion_small_separation.
Theorem exclusion_ordering : forall ius e ir ik, excl_ok e -> e_xmin e = None -> 0 < e_r e ir ->
  (forall i, (i < e_nm e)%nat -> 0 <= raw_integrand e ir ik i) ->
  0 <= sphere_integrate ius e ir ik <= dblsphere_integrate ius e ir ik /\
  dblsphere_integrate ius e ir ik <= noexcl_integrate ius e ir ik /\
  0 <= ell_integrate ius e ir ik <= noexcl_integrate ius e ir ik.
Proof.
  intros ius e ir ik Hok Hx Hr Hf. rewrite noexcl_dbl, sphere_eq, dblsphere_eq, ell_eq by auto.
  rewrite <- (zero_dbl e (raw_integrand e ir ik)). 
  assert (B01 : forall b, 0 <= b2R b <= 1) by (intros []; simpl; lra).
  repeat split; apply dbl_le; auto; intros i j Hi Hj; try apply B01; try apply ell_prob_bounds.
  destruct (sphere_mask e ir i) eqn:E1, (sphere_mask e ir j) eqn:E2; simpl; try apply B01.
  rewrite (sphere_pairs_kept_by_dblsphere e ir i j); auto. simpl; lra.
Qed.
Print Assumptions exclusion_ordering.
Theorem exclusion_monotone_in_r : forall ius e b ir ir' ik, excl_ok e -> e_xmin e = None ->
  e_bias e = Bias1 b -> 0 < e_r e ir -> e_r e ir <= e_r e ir' ->
  (forall i, (i < e_nm e)%nat -> 0 <= e_power e ik i * b i) ->
  sphere_integrate ius e ir ik <= sphere_integrate ius e ir' ik /\
  dblsphere_integrate ius e ir ik <= dblsphere_integrate ius e ir' ik /\
  ell_integrate ius e ir ik <= ell_integrate ius e ir' ik.
Proof.
  intros ius e b ir ir' ik Hok Hx Hb Hr Hrr Hf. rewrite !sphere_eq, !dblsphere_eq, !ell_eq by auto.
  assert (E : raw_integrand e ir' ik = raw_integrand e ir ik) by (unfold raw_integrand; now rewrite Hb). rewrite E.
  assert (Hp : forall i, (i < e_nm e)%nat -> 0 <= raw_integrand e ir ik i).
  { intros. unfold raw_integrand. rewrite Hb, Rmult_1_l. apply Rmult_le_pos; auto. left. apply ok_pos; auto. }
  repeat split; apply dbl_le; auto; intros i j Hi Hj.
  - assert (Hi' := exclusion_cuts_shrink_with_r e ir ir' i j Hok Hi Hj Hr Hrr).
    assert (Hj' := exclusion_cuts_shrink_with_r e ir ir' j i Hok Hj Hi Hr Hrr).
    destruct Hi' as [Hi' _], Hj' as [Hj' _].
    destruct (sphere_mask e ir i), (sphere_mask e ir j), (sphere_mask e ir' i), (sphere_mask e ir' j); simpl; try lra;
     try (discriminate (Hi' eq_refl)); try (discriminate (Hj' eq_refl)).
  - assert (Hi' := exclusion_cuts_shrink_with_r e ir ir' i j Hok Hi Hj Hr Hrr).
    apply proj2 in Hi'.
    destruct (dblsphere_mask e ir i j), (dblsphere_mask e ir' i j); simpl; try lra.
  - apply ell_prob_mono; auto.
Qed.
Print Assumptions exclusion_monotone_in_r.

(** C33: lower bound active; [ius] only has to be homogeneous in the data, as
    every spline integral is, and to depend only on the data at the grid points *)
Definition ius_homogeneous (ius : ius_t) : Prop :=
  forall x y a b c, ius x (fun i => y i * c) a b = ius x y a b * c.
Definition ius_local (ius : ius_t) (n : nat) : Prop :=
  forall x y y' a b, (forall i, (i < n)%nat -> y i = y' i) -> ius x y a b = ius x y' a b.
Theorem exclusion_xmin_large_separation : forall ius e x ir ik, excl_ok e -> e_xmin e = Some x ->
  ius_homogeneous ius -> ius_local ius (e_nm e) ->
  (forall i, (i < e_nm e)%nat -> 109/100 * (2 * r_halo e i) <= e_r e ir) ->
  let f := raw_integrand e ir ik in
  let above := ius (fun i => ln (e_m e i)) f (ln x) (ln (e_m e (e_nm e - 1)%nat)) in
  let full := scipy_simpson (e_nm e) (e_dlnx e) f in
  noexcl_integrate ius e ir ik = above ^ 2 /\
  sphere_integrate ius e ir ik = above ^ 2 /\
  dblsphere_integrate ius e ir ik = above * full /\
  ell_integrate ius e ir ik = above * full /\
  (dblsphere_integrate ius e ir ik = noexcl_integrate ius e ir ik <-> above = 0 \/ full = above).
Proof.
  intros ius e x ir ik Hok Hx Hh Hl Hr f above full.
  assert (Hr0 : 0 < e_r e ir). { assert (A := Hr 0%nat ltac:(destruct Hok; lia)). assert (B := r_halo_pos e 0). lra. }
  assert (S : forall g, spline_integrate ius e g = ius (fun i => ln (e_m e i)) g (ln x) (ln (e_m e (e_nm e - 1)%nat))).
  { intros. unfold spline_integrate. now rewrite Hx. }
  assert (N : noexcl_integrate ius e ir ik = above ^ 2).
  { unfold noexcl_integrate, above, f. destruct (e_bias e) eqn:Eb; rewrite S; f_equal; apply Hl; intros; unfold raw_integrand; rewrite Eb; ring. }
  assert (SP : sphere_integrate ius e ir ik = above ^ 2).
  { unfold sphere_integrate, above, f. rewrite S. f_equal. apply Hl. intros i Hi. unfold zero_where.
    destruct (sphere_mask e ir i) eqn:E; auto. apply sphere_mask_radius in E; auto. assert (A := Hr i Hi). assert (P := r_halo_pos e i). lra. }
  assert (D : dblsphere_integrate ius e ir ik = above * full).
  { unfold dblsphere_integrate, above. rewrite S, <- Hh. apply Hl. intros i Hi. unfold full. rewrite <- simpson_scal.
    apply simpson_ext. intros j Hj. unfold zero_where.
    assert (dblsphere_mask e ir i j = false) as ->; [|reflexivity]. apply Rltb_false.
    assert (A := Hr i Hi). assert (B := Hr j Hj). assert (P := r_halo_pos e i). assert (Q := r_halo_pos e j). lra. }
  assert (L : ell_integrate ius e ir ik = above * full).
  { unfold ell_integrate, above. rewrite S, <- Hh. apply Hl. intros i Hi. unfold full. rewrite <- simpson_scal.
    apply simpson_ext. intros j Hj. rewrite ell_prob_one; [unfold f; ring|]. assert (A := Hr i Hi). assert (B := Hr j Hj). lra. }
  repeat split; auto.
  - rewrite N, D. intros K. assert (above * (full - above) = 0) by lra. apply Rmult_integral in H. destruct H; [left; auto|right; lra].
  - rewrite N, D. intros [->| ->]; ring.
Qed.
Print Assumptions exclusion_xmin_large_separation.
(** the bound is active exactly when it exceeds the first grid mass *)
Theorem exclusion_xmin_active_iff : forall e x, e_xmin e = Some x <-> e_xmin_arg e = Some x /\ e_m e 0%nat < x.
Proof.
  intros. unfold e_xmin. destruct (e_xmin_arg e) as [y|]; [|split; [discriminate|intros [H _]; discriminate]].
  destruct (Rltb (e_m e 0%nat) y) eqn:E.
  - apply Rltb_spec in E. split; [intros H; injection H as <-; auto|intros [H _]; auto].
  - apply Rltb_false in E. split; [discriminate|intros [H K]; injection H as <-; lra].
Qed.

(** C34 *)
Theorem ellipsoid_probability : forall e ir i j,
  0 <= ell_prob e ir i j <= 1 /\ ell_prob e ir i j = ell_prob e ir j i /\
  (e_r e ir <= 8/10 * (r_halo e i + r_halo e j) -> ell_prob e ir i j = 0) /\
  (109/100 * (r_halo e i + r_halo e j) <= e_r e ir -> ell_prob e ir i j = 1) /\
  (forall ir', e_r e ir <= e_r e ir' -> ell_prob e ir i j <= ell_prob e ir' i j).
Proof.
  intros. repeat split; try apply ell_prob_bounds; try apply ell_prob_sym; try apply ell_prob_zero; try apply ell_prob_one; intros; now apply ell_prob_mono.
Qed.
Print Assumptions ellipsoid_probability.
(** documented formula in between *)
Theorem ellipsoid_probability_formula : forall e ir i j,
  let y := (e_r e ir / (r_halo e i + r_halo e j) - 8/10) / (29/100) in
  0 <= y <= 1 -> ell_prob e ir i j = 3 * y ^ 2 - 2 * y ^ 3.
Proof.
  intros e ir i j y Hy. unfold ell_prob. cbv zeta.
  replace (e_r e ir * (1 / (r_halo e i + r_halo e j))) with (e_r e ir / (r_halo e i + r_halo e j)) by (unfold Rdiv; ring).
  fold y. rewrite clip01_eq, Rmin_right, Rmax_right by lra. reflexivity.
Qed.
Theorem ellipsoid_probability_continuous : forall e i j, exists P : R -> R,
  (forall ir, ell_prob e ir i j = P (e_r e ir)) /\ forall r, continuous P r.
Proof. intros. exists (prob_at (r_halo e i + r_halo e j)). split; [reflexivity|apply prob_at_cont]. Qed.
Print Assumptions ellipsoid_probability_continuous.
Theorem ellipsoid_probability_numba : forall e ir buf i j, (i <= j)%nat -> (j < e_nm e)%nat ->
  prob_numba e ir buf i j = ell_prob e ir i j.
Proof. exact prob_numba_eq. Qed.
Print Assumptions ellipsoid_probability_numba.
Theorem ellipsoid_density_numba : forall ius e ir buf, (2 <= e_nm e)%nat -> e_xmin e = None ->
  ell_density_mod_numba e ir buf = ell_density_mod ius e ir.
Proof. exact ell_density_mod_numba_eq. Qed.
(** the Numba integral is the iterated trapezoid of the same integrand,
    independent of uninitialised memory [pbuf] *)
Theorem ellipsoid_integrate_numba : forall e nr nk pbuf, (2 <= e_nm e)%nat ->
  ell_numba_integrate e nr nk pbuf =
  map (fun '(ir, ik) => ((ir, ik), trapezoid_rule (e_dlnx e) (e_nm e - 1) (fun im =>
     trapezoid_rule (e_dlnx e) (e_nm e - 1) (fun jm =>
        ell_prob e ir im jm * (raw_integrand e ir ik im * raw_integrand e ir ik jm))))) (loop_order nr nk).
Proof. intros. apply ell_numba_val; auto. intros. now apply prob_numba_eq. Qed.
Print Assumptions ellipsoid_integrate_numba.

(** C35 *)
Theorem dblsphere_numba_agrees : forall ius e nr nk k, (1 <= k)%nat -> e_nm e = (2*k+1)%nat -> e_xmin e = None ->
  dblsphere_numba_integrate e nr nk = map (fun '(ir, ik) => ((ir, ik), dblsphere_integrate ius e ir ik)) (loop_order nr nk).
Proof.
  intros ius e nr nk k Hk Hn Hx. unfold dblsphere_numba_integrate. rewrite numba_loop_val by (exists k; auto).
  apply map_ext. intros [ir ik]. f_equal. unfold dblsphere_integrate, spline_integrate. now rewrite Hx.
Qed.
Print Assumptions dblsphere_numba_agrees.
(** a lower bound is ignored: the result is that of the same object without it *)
Theorem dblsphere_numba_ignores_xmin : forall ius e nr nk k, (1 <= k)%nat -> e_nm e = (2*k+1)%nat ->
  let e0 := mkExcl (e_nm e) (e_m e) (e_density e) (e_power e) (e_bias e) (e_r e) (e_hd e) None in
  dblsphere_numba_integrate e nr nk = map (fun '(ir, ik) => ((ir, ik), dblsphere_integrate ius e0 ir ik)) (loop_order nr nk).
Proof.
  intros ius e nr nk k Hk Hn e0. unfold dblsphere_numba_integrate. rewrite numba_loop_val by (exists k; auto). reflexivity.
Qed.
Print Assumptions dblsphere_numba_ignores_xmin.
Theorem loop_order_covers : forall nr nk ir ik, In (ir, ik) (loop_order nr nk) <-> (ir < nr /\ ik < nk)%nat.
Proof.
  intros. unfold loop_order. rewrite in_flat_map. split.
  - intros [x [Hx H]]. apply in_map_iff in H. destruct H as [y [E Hy]]. injection E as -> ->. apply in_seq in Hx, Hy. lia.
  - intros [H1 H2]. exists ir. split; [apply in_seq; lia|]. apply in_map_iff. exists ik. split; auto. apply in_seq; lia.
Qed.

(** C36 *)
Theorem ngmatched_removes_upper_set : forall ius e ir i j, excl_ok e ->
  (forall q, (q < e_nm e)%nat -> 0 <= e_density e q) -> (i <= j)%nat -> (j < e_nm e)%nat ->
  ng_mask ius e ir i = true -> ng_mask ius e ir j = true.
Proof.
  intros ius e ir i j Hok Hd Hij Hj. unfold ng_mask. rewrite !Rltb_spec.
  assert (cumulative_trapezoid (e_dlnx e) (fun i => e_density e i * e_m e i) i
     <= cumulative_trapezoid (e_dlnx e) (fun i => e_density e i * e_m e i) j).
  { apply cumtrap_mono; auto. - left; now apply ok_dlnx. - intros. apply Rmult_le_pos; [apply Hd; lia|left; apply ok_pos; auto; lia]. }
  lra.
Qed.
Print Assumptions ngmatched_removes_upper_set.
Theorem ngmatched_mask_iff : forall ius e ir i,
  ng_mask ius e ir i = true <->
  1.0001 * ell_density_mod ius e ir < trapezoid_rule (e_dlnx e) i (fun q => e_density e q * e_m e q).
Proof.
  intros. unfold ng_mask. rewrite Rltb_spec. unfold cumulative_trapezoid, trapezoid_rule. rewrite sum_over_seq.
  rewrite (bigsum_ext i (fun j => e_dlnx e * (e_density e j * e_m e j + e_density e (S j) * e_m e (S j)) / 2)
     (fun p => e_dlnx e / 2 * (e_density e p * e_m e p + e_density e (p+1)%nat * e_m e (p+1)%nat))).
  - lra.
  - intros. rewrite Nat.add_1_r. field.
Qed.
(** the lightest halo is never removed *)
Theorem ngmatched_keeps_first : forall ius e ir, ng_mask ius e ir 0 = false.
Proof.
  intros. unfold ng_mask. apply Rltb_false. unfold cumulative_trapezoid, sum_over; simpl. unfold lsum; simpl.
  assert (0 <= ell_density_mod ius e ir) by (unfold ell_density_mod; destruct (e_xmin e); apply sqrt_pos). lra.
Qed.
Print Assumptions ngmatched_keeps_first.

(** Non-vacuity: a concrete object *)
Definition ex_excl (x : option R) : exclusion :=
  mkExcl 3 (fun i => 2 ^ i) (fun _ => 1) (fun _ _ => 1) (Bias1 (fun _ => 1)) (fun ir => INR ir + 1) 1 x.
Example ex_excl_ok : excl_ok (ex_excl None) /\ e_xmin (ex_excl None) = None.
Proof.
  split; auto. unfold excl_ok; simpl. repeat split; try lia; try lra.
  intros i j Hij Hj. apply Rlt_pow; [lra|auto].
Qed.
Example ex_excl_xmin : e_xmin (ex_excl (Some 3)) = Some 3.
Proof. apply exclusion_xmin_active_iff. simpl. split; auto. lra. Qed.
(** an [ius] with the required properties: 2 * (the first sample) *)
Example ex_ius : ius_homogeneous (fun _ y _ _ => 2 * y 0%nat) /\ ius_local (fun _ y _ _ => 2 * y 0%nat) 3.
Proof. split; repeat intro; [ring|]. rewrite H by lia. reflexivity. Qed.
Example ex_large : forall i, (i < 3)%nat -> 109/100 * (2 * r_halo (ex_excl (Some 3)) i) <= e_r (ex_excl (Some 3)) 9.
Proof.
  intros i Hi. assert (r_halo (ex_excl (Some 3)) i <= 2).
  { assert (Hok : excl_ok (ex_excl (Some 3))) by (destruct ex_excl_ok as [H _]; exact H).
    assert (Hm := ok_pos _ i Hok Hi). assert (E := r_halo_sphere (ex_excl (Some 3)) i ltac:(simpl; lra) Hm). simpl e_hd in E.
    assert (Hle : e_m (ex_excl (Some 3)) i <= 4). { simpl. destruct i as [|[|[|i]]]; simpl; try lra; lia. }
    assert (P := r_halo_pos (ex_excl (Some 3)) i). assert (HP : 3 < PI) by (generalize PI_RGT_0, PI2_3_2; unfold PI2; lra).
    apply cube_inj_le; try lra. set (q := r_halo (ex_excl (Some 3)) i ^ 3) in *.
    assert (0 < q) by (apply pow_lt; auto). nra. }
  simpl e_r. simpl INR. lra.
Qed.
