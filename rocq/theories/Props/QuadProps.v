(** Theorems about the quadrature helpers (C26-C30). *)
From Coq Require Import Reals Lra Lia List Bool Arith Psatz.
From Coquelicot Require Import Coquelicot.
From Verif Require Import Model.RBool Model.Quad Spec.QuadSpec Proofs.QuadProofs Proofs.QuadProofs2.
Import ListNotations.
Local Open Scope R_scope.

(** C26 *)
Theorem makeW_numba_is_outer_product : forall n i j,
  (3 <= n)%nat -> (i < n)%nat -> (j < n)%nat -> makeW_ n n i j = w1 n i * w1 n j.
Proof. exact makeW_spec. Qed.
Print Assumptions makeW_numba_is_outer_product.

Theorem w1_is_simpson_odd : forall k f h, (1 <= k)%nat ->
  h / 3 * bigsum (2*k+1) (fun i => w1 (2*k+1) i * f i) = simpson_rule h k f.
Proof. exact w1_odd_sum. Qed.
Theorem w1_is_simpson_trapezoid_even : forall k f h, (1 <= k)%nat ->
  h / 3 * bigsum (2*k+2) (fun i => w1 (2*k+2) i * f i) = simpson_trap_rule h k f.
Proof. exact w1_even_sum. Qed.

(** exact for symmetrised products of cubics (odd number of points) *)
Theorem dblsimps_exact_for_cubics : forall k a h c0 c1 c2 c3 d0 d1 d2 d3, (1 <= k)%nat ->
  let x := fun i => a + INR i * h in
  let b := a + INR (2*k) * h in
  let p := cubic c0 c1 c2 c3 in let q := cubic d0 d1 d2 d3 in
  dblsimps_ (2*k+1) (2*k+1) (fun i j => p (x i) * q (x j) + q (x i) * p (x j)) h h
  = 2 * (RInt p a b * RInt q a b).
Proof. exact dblsimps_exact. Qed.
Print Assumptions dblsimps_exact_for_cubics.

(** the cubic is integrable, so the integrals above are genuine *)
Theorem cubic_integrable : forall c0 c1 c2 c3 a b, ex_RInt (cubic c0 c1 c2 c3) a b.
Proof. intros. eexists. apply cubic_RInt. Qed.

(** even number of points: exact for products of affine functions *)
Theorem dblsimps_even_exact_for_affine : forall k a h c0 c1, (1 <= k)%nat ->
  let x := fun i => a + INR i * h in
  let b := a + INR (2*k+1) * h in
  let p := fun t => c0 + c1 * t in
  dblsimps_ (2*k+2) (2*k+2) (fun i j => p (x i) * p (x j)) h h = RInt p a b ^ 2.
Proof.
  intros k a h c0 c1 Hk x b p. rewrite dblsimps_even by (auto; intros; ring).
  assert (E : forall c, simpson_trap_rule h k (fun j => c * p (x j)) = c * simpson_trap_rule h k (fun j => p (x j))).
  { intros. unfold simpson_trap_rule. rewrite simpson_rule_scal. ring. }
  assert (E2 : simpson_trap_rule h k (fun i => simpson_trap_rule h k (fun j => p (x i) * p (x j)))
     = simpson_trap_rule h k (fun i => simpson_trap_rule h k (fun j => p (x j)) * p (x i))).
  { unfold simpson_trap_rule at 1 3.
    rewrite (simpson_rule_ext h k (fun i => simpson_trap_rule h k (fun j => p (x i) * p (x j))) (fun i => simpson_trap_rule h k (fun j => p (x j)) * p (x i))).
    - rewrite !E. ring.
    - intros. rewrite E. ring. }
  rewrite E2, E. unfold p, x. rewrite simpson_trap_affine.
  assert (I := is_RInt_unique _ _ _ _ (cubic_RInt c0 c1 0 0 a b)).
  rewrite (RInt_ext (fun t => c0 + c1 * t) (cubic c0 c1 0 0)).
  - rewrite I. unfold b. ring.
  - intros t _. assert (Q : forall u : R, c0 + c1 * u = cubic c0 c1 0 0 u) by (intros; unfold cubic; ring). apply Q.
Qed.
Print Assumptions dblsimps_even_exact_for_affine.

(** C27 *)
Theorem makeW_odd_is_simpson : forall k l X hx hy, (1 <= k)%nat -> (1 <= l)%nat ->
  hx / 3 * (hy / 3) * bigsum (2*k+1) (fun i => bigsum (2*l+1) (fun j => makeW (2*k+1) (2*l+1) i j * X i j))
  = simpson_rule hx k (fun i => simpson_rule hy l (fun j => X i j)).
Proof.
  intros. rewrite <- wpy_odd_sum by auto. rewrite Rmult_assoc. f_equal. rewrite <- bigsum_scal.
  apply bigsum_ext. intros i Hi. rewrite <- wpy_odd_sum by auto.
  rewrite (bigsum_ext (2*l+1) _ (fun j => wpy (2*k+1) i * (wpy (2*l+1) j * X i j))) by (intros; rewrite makeW_py; ring).
  rewrite bigsum_scal. ring.
Qed.
Print Assumptions makeW_odd_is_simpson.

(** even sizes: a constant is integrated wrongly *)
Theorem makeW_even_constant : forall k h, (1 <= k)%nat ->
  let n := (2*k+2)%nat in
  h / 3 * (h / 3) * bigsum n (fun i => bigsum n (fun j => makeW n n i j * 1)) = ((INR (n-1) - 1/3) * h) ^ 2.
Proof.
  intros k h Hk n.
  assert (E := wpy_even_sum k (fun _ => 1) h Hk). rewrite simpson_rule_const in E.
  rewrite (bigsum_ext n _ (fun i => bigsum n (fun j => (wpy n i * 1) * (wpy n j * 1))))
    by (intros; apply bigsum_ext; intros; rewrite makeW_py; ring).
  rewrite bigsum_prod. fold n in E.
  replace (n-1)%nat with (2*k+1)%nat by (unfold n; lia). rewrite (plus_INR (2*k) 1). simpl (INR 1).
  transitivity ((h / 3 * bigsum n (fun i => wpy n i * 1)) ^ 2); [ring|]. rewrite E. field.
Qed.
Theorem makeW_even_refuted : forall k h, (1 <= k)%nat -> h <> 0 ->
  let n := (2*k+2)%nat in
  h / 3 * (h / 3) * bigsum n (fun i => bigsum n (fun j => makeW n n i j * 1)) <> (INR (n-1) * h) ^ 2.
Proof.
  intros k h Hk Hh n. unfold n. rewrite makeW_even_constant by auto.
  replace (2*k+2-1)%nat with (2*k+1)%nat by lia.
  assert (H : 1 <= INR (2*k+1)) by (rewrite plus_INR; simpl (INR 1); assert (A := pos_INR (2*k)); lra).
  set (t := INR (2*k+1)) in *. intros E.
  assert (h^2 * ((t - 1/3)^2 - t^2) = 0) by lra.
  apply Rmult_integral in H0. destruct H0 as [H0|H0]; [|nra].
  apply Hh. nra.
Qed.
Print Assumptions makeW_even_refuted.
Theorem makeW_mixed_refuted : forall k l h, (1 <= k)%nat -> (1 <= l)%nat -> h <> 0 ->
  h / 3 * (h / 3) * bigsum (2*k+2) (fun i => bigsum (2*l+1) (fun j => makeW (2*k+2) (2*l+1) i j * 1))
  <> INR (2*k+1) * h * (INR (2*l) * h).
Proof.
  intros k l h Hk Hl Hh.
  assert (E1 := wpy_even_sum k (fun _ => 1) h Hk). rewrite simpson_rule_const in E1.
  assert (E2 := wpy_odd_sum l (fun _ => 1) h Hl). rewrite simpson_rule_const in E2.
  rewrite (bigsum_ext (2*k+2) _ (fun i => bigsum (2*l+1) (fun j => (wpy (2*k+2) i * 1) * (wpy (2*l+1) j * 1))))
    by (intros; apply bigsum_ext; intros; rewrite makeW_py; ring).
  rewrite bigsum_prod.
  replace (h / 3 * (h / 3) * (bigsum (2*k+2) (fun i => wpy (2*k+2) i * 1) * bigsum (2*l+1) (fun i => wpy (2*l+1) i * 1)))
   with ((h / 3 * bigsum (2*k+2) (fun i => wpy (2*k+2) i * 1)) * (h / 3 * bigsum (2*l+1) (fun i => wpy (2*l+1) i * 1))) by ring.
  rewrite E1, E2, (plus_INR (2*k) 1). simpl (INR 1).
  assert (0 < INR (2*l)) by (apply lt_0_INR; lia). intros K.
  assert (h * h * INR (2*l) * (1/3) = 0) by lra.
  assert (h * h <> 0) by (apply Rmult_integral_contrapositive_currified; auto).
  assert (h * h * INR (2*l) <> 0) by (apply Rmult_integral_contrapositive_currified; lra). lra.
Qed.

(** C28 *)
Theorem dblsimps_reads_upper_triangle : forall n X X' dx dy,
  (forall i j, (i <= j)%nat -> (j < n)%nat -> X i j = X' i j) ->
  dblsimps_ n n X dx dy = dblsimps_ n n X' dx dy.
Proof.
  intros. unfold dblsimps_. f_equal. f_equal. apply tri_accumulate_upper_only. intros; apply H; lia.
Qed.
Print Assumptions dblsimps_reads_upper_triangle.
Theorem dbltrapz_numba_reads_upper_triangle : forall n X X' dx dy,
  (forall i j, (i <= j)%nat -> (j < n)%nat -> X i j = X' i j) ->
  dbltrapz_ n n X dx dy = dbltrapz_ n n X' dx dy.
Proof.
  intros. unfold dbltrapz_. f_equal. f_equal. apply tri_accumulate_upper_only. intros; apply H; lia.
Qed.
Theorem dblsimps_symmetric_full : forall k X h, (1 <= k)%nat ->
  (forall i j, (i < 2*k+1)%nat -> (j < 2*k+1)%nat -> X i j = X j i) ->
  dblsimps_ (2*k+1) (2*k+1) X h h = simpson_rule h k (fun i => simpson_rule h k (fun j => X i j)).
Proof. exact dblsimps_odd. Qed.
Print Assumptions dblsimps_symmetric_full.
Theorem dblsimps_symmetric_full_even : forall k X h, (1 <= k)%nat ->
  (forall i j, (i < 2*k+2)%nat -> (j < 2*k+2)%nat -> X i j = X j i) ->
  dblsimps_ (2*k+2) (2*k+2) X h h = simpson_trap_rule h k (fun i => simpson_trap_rule h k (fun j => X i j)).
Proof. exact dblsimps_even. Qed.
Theorem dbltrapz_numba_symmetric_full : forall n X h, (2 <= n)%nat ->
  (forall i j, (i < n)%nat -> (j < n)%nat -> X i j = X j i) ->
  dbltrapz_ n n X h h = trapezoid_rule h (n-1) (fun i => trapezoid_rule h (n-1) (fun j => X i j)).
Proof. exact dbltrapz_numba. Qed.
Print Assumptions dbltrapz_numba_symmetric_full.

(** C29 *)
Theorem dbltrapz_is_iterated_trapezoid : forall nx ny X dx dy, (2 <= nx)%nat -> (2 <= ny)%nat -> dy <> 0 ->
  dbltrapz nx ny X dx (Some dy) = trapezoid_rule dx (nx-1) (fun i => trapezoid_rule dy (ny-1) (fun j => X i j)).
Proof.
  intros. rewrite dbltrapz_iter by auto. assert (Reqb dy 0 = false) as -> by (apply Reqb_false; auto). reflexivity.
Qed.
Print Assumptions dbltrapz_is_iterated_trapezoid.
Theorem dbltrapz_default_spacing : forall nx ny X dx, (2 <= nx)%nat -> (2 <= ny)%nat ->
  dbltrapz nx ny X dx None = trapezoid_rule dx (nx-1) (fun i => trapezoid_rule dx (ny-1) (fun j => X i j)).
Proof. intros. now rewrite dbltrapz_iter. Qed.
Theorem dbltrapz_zero_spacing : forall nx ny X dx, dbltrapz nx ny X dx (Some 0) = dbltrapz nx ny X dx None.
Proof. intros. unfold dbltrapz, truthy. assert (Reqb 0 0 = true) as -> by (apply Reqb_spec; auto). reflexivity. Qed.
Theorem dbltrapz_exact_bilinear : forall nx ny a b dx dy c0 c1 d0 d1, (2 <= nx)%nat -> (2 <= ny)%nat -> dy <> 0 ->
  let p := fun t => c0 + c1 * t in let q := fun t => d0 + d1 * t in
  dbltrapz nx ny (fun i j => p (a + INR i * dx) * q (b + INR j * dy)) dx (Some dy)
  = RInt p a (a + INR (nx-1) * dx) * RInt q b (b + INR (ny-1) * dy).
Proof.
  intros nx ny a b dx dy c0 c1 d0 d1 Hx Hy Hd p q. rewrite dbltrapz_is_iterated_trapezoid by auto.
  assert (S : forall h n c f, trapezoid_rule h n (fun i => c * f i) = c * trapezoid_rule h n f).
  { intros. unfold trapezoid_rule. rewrite <- bigsum_scal. apply bigsum_ext; intros; ring. }
  assert (X : forall h n f g, (forall i, f i = g i) -> trapezoid_rule h n f = trapezoid_rule h n g).
  { intros. unfold trapezoid_rule. apply bigsum_ext; intros. now rewrite !H. }
  rewrite (X _ _ _ (fun i => trapezoid_rule dy (ny-1) (fun j => q (b + INR j * dy)) * p (a + INR i * dx))).
  2:{ intros. rewrite S. ring. }
  rewrite S. unfold p, q. rewrite !trap_affine.
  assert (I : forall e0 e1 u v, RInt (fun t => e0 + e1 * t) u v = cubic_prim e0 e1 0 0 v - cubic_prim e0 e1 0 0 u).
  { intros. rewrite <- (is_RInt_unique _ _ _ _ (cubic_RInt e0 e1 0 0 u v)). apply RInt_ext. intros t _. assert (Q : forall u : R, e0 + e1 * u = cubic e0 e1 0 0 u) by (intros; unfold cubic; ring). apply Q. }
  rewrite !I. ring.
Qed.
Print Assumptions dbltrapz_exact_bilinear.
(** a single row is not integrated to zero, it gets weight 1/2: the trapezoidal
    rule over no interval would be 0 *)
Theorem dbltrapz_single_row : forall X dx ny, (2 <= ny)%nat ->
  dbltrapz 1 ny X dx None = dx / 2 * trapezoid_rule dx (ny-1) (fun j => X 0%nat j).
Proof.
  intros. rewrite dbltrapz_wt, bigsum_S, bigsum_0, wt_sum by auto. replace (wt 1 0) with 1 by reflexivity. change (fun j => X 0%nat j) with (X 0%nat). ring.
Qed.

(** C30 *)
Theorem cumsimps_first : forall n f dx, cumsimps n f dx 0 = 0.
Proof. exact cumsimps_0. Qed.
Theorem cumsimps_even_interior : forall n k f dx, (2*k < n - 1)%nat -> cumsimps n f dx (2*k) = simpson_rule dx k f.
Proof. exact cumsimps_even. Qed.
Print Assumptions cumsimps_even_interior.
Theorem cumsimps_last_node : forall k f dx, (1 <= k)%nat -> 
  cumsimps (2*k+1) f dx (2*k) = simpson_rule dx k f - dx / 3 * f (2*k)%nat.
Proof. exact cumsimps_last. Qed.
Theorem cumsimps_last_node_wrong_iff : forall k f dx, (1 <= k)%nat -> dx <> 0 ->
  (cumsimps (2*k+1) f dx (2*k) = simpson_rule dx k f <-> f (2*k)%nat = 0).
Proof.
  intros. rewrite cumsimps_last by auto. split; intros K.
  - assert (dx * f (2*k)%nat = 0) by lra. apply Rmult_integral in H1. tauto.
  - rewrite K. lra.
Qed.
Print Assumptions cumsimps_last_node_wrong_iff.
Theorem cumsimps_last_node_even_size : forall k f dx, (1 <= k)%nat ->
  cumsimps (2*k+2) f dx (2*k+1) = simpson_rule dx k f + dx / 3 * f (2*k)%nat.
Proof. exact cumsimps_last_even. Qed.
(** interior odd nodes: Simpson up to the even node below, plus a third (not a half) of the sum of the two samples of the last interval *)
Theorem cumsimps_odd_interior : forall n k f dx, (2*k+1 < n - 1)%nat ->
  cumsimps n f dx (2*k+1) = simpson_rule dx k f + dx / 3 * (f (2*k)%nat + f (2*k+1)%nat).
Proof. exact cumsimps_odd. Qed.
Print Assumptions cumsimps_odd_interior.
(** so the running integral of a constant is short by dx/3 at every interior odd node *)
Theorem cumsimps_odd_constant_short : forall n k dx, (2*k+1 < n - 1)%nat -> cumsimps n (fun _ => 1) dx (2*k+1) = INR (2*k+1) * dx - dx / 3.
Proof.
  intros n k dx H. rewrite cumsimps_odd_interior by auto. assert (E : simpson_rule dx k (fun _ => 1) = INR (2 * k) * dx).
  { unfold simpson_rule. clear H. induction k as [|k IH]; [unfold bigsum; simpl; ring|]. rewrite bigsum_S, IH. replace (2 * S k)%nat with (S (S (2 * k)))%nat by lia. rewrite !S_INR. field. }
  rewrite E, plus_INR. simpl (INR 1). field.
Qed.
(** the final point does not enter at all *)
Theorem cumsimps_ignores_last : forall k f g dx, (1 <= k)%nat ->
  (forall i, (i < 2*k)%nat -> f i = g i) -> cumsimps (2*k+1) f dx (2*k) = cumsimps (2*k+1) g dx (2*k).
Proof.
  intros k f g dx Hk H. rewrite !cumsimps_last by auto.
  destruct k; [lia|]. unfold simpson_rule. rewrite !bigsum_S.
  rewrite (bigsum_ext k _ (fun p => dx / 3 * (g (2*p)%nat + 4 * g (2*p+1)%nat + g (2*p+2)%nat))) by (intros; rewrite !H by lia; reflexivity).
  rewrite (H (2*k)%nat), (H (2*k+1)%nat) by lia.
  replace (2 * S k)%nat with (2*k+2)%nat by lia. lra.
Qed.

(** Non-vacuity *)
Example quad_hyps : (1 <= 2)%nat /\ makeW_ 5 5 1%nat 2%nat = 8 /\ makeW_ 4 4 1%nat 3%nat = 6.
Proof. repeat split; [lia| |]; rewrite makeW_spec by lia; unfold w1; simpl; lra. Qed.
Example cumsimps_example : cumsimps 5 (fun _ => 1) 1 4 <> simpson_rule 1 2 (fun _ => 1).
Proof. intros K. apply (cumsimps_last_node_wrong_iff 2) in K; [lra|lia|lra]. Qed.
