From Coq Require Import Reals Lra Lia List Bool Arith Psatz FinFun.
From Verif Require Import Model.RBool Model.Quad Spec.QuadSpec.
Import ListNotations.
Local Open Scope R_scope.

(** * bigsum *)
Lemma bigsum_ext : forall n f g, (forall i, (i < n)%nat -> f i = g i) -> bigsum n f = bigsum n g.
Proof. induction n; intros f g H; simpl; auto. rewrite (IHn f g), (H n); auto. Qed.
Lemma bigsum_plus : forall n f g, bigsum n (fun i => f i + g i) = bigsum n f + bigsum n g.
Proof. induction n; intros; simpl; try rewrite IHn; lra. Qed.
Lemma bigsum_scal : forall n c f, bigsum n (fun i => c * f i) = c * bigsum n f.
Proof. induction n; intros; simpl; try rewrite IHn; lra. Qed.
Lemma bigsum_scalr : forall n c f, bigsum n (fun i => f i * c) = bigsum n f * c.
Proof. induction n; intros; simpl; try rewrite IHn; lra. Qed.
Lemma bigsum_zero : forall n, bigsum n (fun _ => 0) = 0.
Proof. induction n; simpl; lra. Qed.
Lemma bigsum_le : forall n f g, (forall i, (i < n)%nat -> f i <= g i) -> bigsum n f <= bigsum n g.
Proof. induction n; intros f g H; simpl; [lra|]. specialize (IHn f g (fun i Hi => H i (Nat.lt_lt_succ_r _ _ Hi))). specialize (H n (Nat.lt_succ_diag_r n)). lra. Qed.
Lemma bigsum_nonneg : forall n f, (forall i, (i < n)%nat -> 0 <= f i) -> 0 <= bigsum n f.
Proof. intros. rewrite <- (bigsum_zero n). apply bigsum_le; auto. Qed.
Lemma bigsum_swap : forall n m f, bigsum n (fun i => bigsum m (fun j => f i j)) = bigsum m (fun j => bigsum n (fun i => f i j)).
Proof. induction n; intros; simpl. - now rewrite bigsum_zero. - rewrite IHn, <- bigsum_plus. reflexivity. Qed.
Lemma bigsum_prod : forall n m u v, bigsum n (fun i => bigsum m (fun j => u i * v j)) = bigsum n u * bigsum m v.
Proof. intros. rewrite <- bigsum_scalr. apply bigsum_ext; intros. apply bigsum_scal. Qed.
Lemma bigsum_S_l : forall n f, bigsum (S n) f = f 0%nat + bigsum n (fun i => f (S i)).
Proof. induction n; intros. - simpl; lra. - change (bigsum (S (S n)) f) with (bigsum (S n) f + f (S n)). rewrite IHn. simpl. lra. Qed.

Lemma lsum_app_ : forall a b, lsum (a ++ b) = lsum a + lsum b.
Proof. induction a; intros; unfold lsum in *; simpl; try rewrite IHa; lra. Qed.

Lemma sum_over_seq : forall n f, sum_over (seq 0 n) f = bigsum n f.
Proof.
  unfold sum_over. induction n; intros; [reflexivity|].
  rewrite seq_S, map_app, lsum_app_, IHn. simpl. lra.
Qed.

Lemma fold_add : forall (g : nat -> R) l t, fold_left (fun t i => t + g i) l t = t + lsum (map g l).
Proof. induction l; intros; simpl; [lra|]. rewrite IHl. unfold lsum; simpl; lra. Qed.

(** * triangular accumulation *)
Definition tri_row (W X : mat) (ny i : nat) : R :=
  W i i * X i i + sum_over (seq (i+1) (ny - (i+1))) (fun j => 2 * W i j * X i j).

Lemma tri_accumulate_rows : forall nx ny W X,
  tri_accumulate nx ny W X = bigsum nx (tri_row W X ny).
Proof.
  intros. unfold tri_accumulate. rewrite <- sum_over_seq. unfold sum_over.
  assert (H : forall l t, fold_left (fun tot ix =>
      fold_left (fun t iy => t + 2 * W ix iy * X ix iy) (seq (ix + 1) (ny - (ix + 1)))
        (tot + W ix ix * X ix ix)) l t = t + lsum (map (tri_row W X ny) l)).
  { induction l; intros; [unfold lsum; simpl; lra|].
    simpl fold_left. rewrite IHl, (fold_add (fun iy => 2 * W a iy * X a iy)). simpl map.
    unfold tri_row at 2, sum_over, lsum. simpl. fold lsum. unfold lsum. lra. }
  rewrite H. lra.
Qed.

Lemma tri_accumulate_upper_only : forall nx ny W X X',
  (forall i j, (i < nx)%nat -> (i <= j)%nat -> (j < ny \/ j = i)%nat -> X i j = X' i j) ->
  tri_accumulate nx ny W X = tri_accumulate nx ny W X'.
Proof.
  intros. rewrite !tri_accumulate_rows. apply bigsum_ext. intros i Hi.
  unfold tri_row, sum_over. rewrite (H i i) by lia. f_equal. f_equal.
  apply map_ext_in. intros j Hj. apply in_seq in Hj. rewrite (H i j) by lia. reflexivity.
Qed.

Lemma sum_over_seq_S : forall s n f, sum_over (seq s (S n)) f = sum_over (seq s n) f + f (s + n)%nat.
Proof. intros. unfold sum_over. rewrite seq_S, map_app, lsum_app_. simpl. lra. Qed.

Lemma tri_symm : forall n W X,
  (forall i j, (i < n)%nat -> (j < n)%nat -> W i j * X i j = W j i * X j i) ->
  tri_accumulate n n W X = bigsum n (fun i => bigsum n (fun j => W i j * X i j)).
Proof.
  intros n W X Hs. rewrite tri_accumulate_rows.
  revert Hs. induction n; intros Hs; [reflexivity|].
  assert (IH := IHn (fun i j Hi Hj => Hs i j (Nat.lt_lt_succ_r _ _ Hi) (Nat.lt_lt_succ_r _ _ Hj))). clear IHn.
  simpl bigsum at 1.
  assert (E1 : bigsum n (tri_row W X (S n)) = bigsum n (tri_row W X n) + 2 * bigsum n (fun i => W i n * X i n)).
  { rewrite <- bigsum_scal, <- bigsum_plus. apply bigsum_ext. intros i Hi. unfold tri_row.
    replace (S n - (i+1))%nat with (S (n - (i+1))) by lia. rewrite sum_over_seq_S.
    replace (i + 1 + (n - (i+1)))%nat with n by lia. lra. }
  rewrite E1, IH. unfold tri_row at 1. replace (S n - (n+1))%nat with 0%nat by lia.
  simpl. rewrite bigsum_plus.
  assert (E2 : bigsum n (fun j => W n j * X n j) = bigsum n (fun i => W i n * X i n)).
  { apply bigsum_ext; intros; apply Hs; lia. }
  rewrite E2. unfold sum_over, lsum; simpl. lra.
Qed.

(** * multiplicative folds *)
Definition hit (a b : nat) (op : nat * nat * R) : R :=
  let '(i, j, c) := op in if (a =? i)%nat && (b =? j)%nat then c else 1.
Definition fac (a b : nat) (ops : list (nat * nat * R)) : R := fold_right (fun op r => hit a b op * r) 1 ops.

Lemma fac_app : forall a b l l', fac a b (l ++ l') = fac a b l * fac a b l'.
Proof. unfold fac. induction l; intros; simpl; [lra|]. rewrite IHl. lra. Qed.

Lemma fold_mul_at : forall ops W a b, fold_left mul_at ops W a b = W a b * fac a b ops.
Proof.
  induction ops as [|[[i j] c] ops IH]; intros; simpl; [lra|].
  rewrite IH. unfold mul_at, fac; simpl.
  destruct ((a =? i)%nat && (b =? j)%nat); simpl; ring.
Qed.

Lemma mem_In : forall i l, mem i l = true <-> In i l.
Proof.
  intros. unfold mem. rewrite existsb_exists. split.
  - intros [x [Hx E]]. apply Nat.eqb_eq in E. now subst.
  - intros H. exists i. split; auto. apply Nat.eqb_refl.
Qed.
Lemma mem_cons : forall a x l, mem a (x :: l) = (a =? x)%nat || mem a l.
Proof. reflexivity. Qed.

Definition pick (b : bool) (u : R) : R := if b then u else 1.

(** one block per index: row index scaled by u, column index by v *)
Lemma fac_blocks : forall (g : nat -> list (nat * nat * R)) a b u v l,
  NoDup l ->
  (forall x, In x l -> fac a b (g x) = pick (a =? x)%nat u * pick (b =? x)%nat v) ->
  fac a b (flat_map g l) = pick (mem a l) u * pick (mem b l) v.
Proof.
  intros g a b u v. induction l as [|x l IH]; intros Hnd H; [unfold fac, pick; simpl; lra|].
  inversion Hnd as [|? ? Hx Hnd']; subst.
  simpl flat_map. rewrite fac_app, (H x (or_introl eq_refl)), (IH Hnd' (fun y Hy => H y (or_intror Hy))). rewrite !mem_cons.
  assert (Ha : forall c, (c =? x)%nat = true -> mem c l = false).
  { intros c E. apply Nat.eqb_eq in E; subst. destruct (mem x l) eqn:E; auto.
    apply mem_In in E; contradiction. }
  assert (Ha' := Ha a). assert (Hb' := Ha b).
  destruct (a =? x)%nat, (b =? x)%nat; simpl orb;
    try rewrite Ha' by auto; try rewrite Hb' by auto; unfold pick;
    destruct (mem a l), (mem b l); ring.
Qed.

Lemma pyrange_In : forall s e d i, (0 < d)%nat ->
  In i (pyrange s e d) <-> ((s <= i < e)%nat /\ ((i - s) mod d = 0)%nat).
Proof.
  intros s e d i Hd. unfold pyrange. rewrite in_map_iff. split.
  - intros [k [E Hk]]. apply in_seq in Hk. subst i. split.
    + assert (d * k < e - s)%nat.
      { assert (k + 1 <= (e - s + (d - 1)) / d)%nat by lia.
        assert (d * (k + 1) <= d * ((e - s + (d - 1)) / d))%nat by (apply Nat.mul_le_mono_l; lia).
        assert (d * ((e - s + (d - 1)) / d) <= e - s + (d-1))%nat by (apply Nat.mul_div_le; lia).
        lia. }
      nia.
    + replace (s + k * d - s)%nat with (k * d)%nat by lia. apply Nat.mod_mul. lia.
  - intros [[H1 H2] H3]. exists ((i - s) / d)%nat.
    assert (E : (i - s = d * ((i - s) / d))%nat) by (apply Nat.div_exact; lia). split.
    + nia.
    + apply in_seq. split; [lia|]. simpl. apply Nat.div_le_lower_bound; [lia|]. nia.
Qed.
Lemma pyrange_NoDup : forall s e d, (0 < d)%nat -> NoDup (pyrange s e d).
Proof.
  intros. unfold pyrange. apply FinFun.Injective_map_NoDup; [|apply seq_NoDup].
  intros x y E. assert (x * d = y * d)%nat by lia. apply Nat.mul_cancel_r in H0; lia.
Qed.

Lemma fac_rowcol : forall a b x c n, (a < n)%nat -> (b < n)%nat ->
  fac a b (flat_map (fun iy => [(x, iy, c); (iy, x, c)]) (seq 0 n))
  = pick (a =? x)%nat c * pick (b =? x)%nat c.
Proof.
  intros a b x c n Ha Hb.
  assert (H : forall m, fac a b (flat_map (fun iy => [(x, iy, c); (iy, x, c)]) (seq 0 m))
     = pick ((a =? x)%nat && (b <? m)%nat) c * pick ((b =? x)%nat && (a <? m)%nat) c).
  { induction m.
    - unfold fac, pick; simpl. rewrite !andb_false_r. lra.
    - rewrite seq_S, flat_map_app, fac_app, IHm. unfold fac; simpl flat_map; unfold fold_right, hit, pick.
      simpl plus.
      assert (forall q, (q <? S m)%nat = (q <? m)%nat || (q =? m)%nat).
      { intros q. destruct (Nat.ltb_spec q m), (Nat.ltb_spec q (S m)), (Nat.eqb_spec q m); simpl; auto; lia. }
      rewrite !H.
      destruct (Nat.ltb_spec a m), (Nat.ltb_spec b m), (Nat.eqb_spec a m), (Nat.eqb_spec b m),
        (Nat.eqb_spec a x), (Nat.eqb_spec b x); simpl; try lia; ring. }
  rewrite H.
  assert (E1 : (b <? n)%nat = true) by (apply Nat.ltb_lt; auto).
  assert (E2 : (a <? n)%nat = true) by (apply Nat.ltb_lt; auto).
  now rewrite E1, E2, !andb_true_r.
Qed.

Lemma fac_rowcol_last : forall a b x c n, (1 <= n)%nat -> (a < n)%nat -> (b < n)%nat -> (x < n - 1)%nat ->
  fac a b ([((x, n - 1)%nat, c); ((n - 1, x)%nat, c)]
     ++ flat_map (fun iy => [(x, iy, c); (iy, x, c)]) (seq 0 (n - 1)))
  = pick (a =? x)%nat c * pick (b =? x)%nat c.
Proof.
  intros a b x c n Hn Ha Hb Hx. rewrite <- (fac_rowcol a b x c n Ha Hb).
  replace n with (S (n - 1)) at 4 by lia. rewrite seq_S, flat_map_app, !fac_app. simpl plus.
  rewrite Rmult_comm. f_equal.
Qed.

Lemma w1_or : forall n i, w1 n i =
  if Nat.even n then
    if (i =? n - 1)%nat then 3/2 else if (i =? n - 2)%nat then 5/2
    else if (i =? 0)%nat then 1 else if Nat.odd i then 4 else 2
  else if (i =? 0)%nat || (i =? n - 1)%nat then 1 else if Nat.odd i then 4 else 2.
Proof. intros. unfold w1. destruct (Nat.even n); auto. destruct (i =? 0)%nat; auto. Qed.

Lemma mod2_odd : forall i, Nat.odd i = true <-> (i mod 2 = 1)%nat.
Proof. intros. rewrite Nat.odd_spec. split.
 - intros [k E]; subst. replace (2*k+1)%nat with (1 + k*2)%nat by lia. rewrite Nat.mod_add; auto.
 - intros H. exists (i/2)%nat. rewrite (Nat.div_mod i 2) at 1 by lia. lia. Qed.
Lemma mem_odd_range : forall i e, mem i (pyrange 1 e 2) = Nat.odd i && (i <? e)%nat.
Proof.
  intros. apply eq_true_iff_eq. rewrite mem_In, pyrange_In, andb_true_iff, Nat.ltb_lt, Nat.odd_spec by lia.
  split.
  - intros [[H1 H2] H3]. split; auto. exists ((i-1)/2)%nat.
    assert (i - 1 = 2 * ((i-1)/2))%nat by (apply Nat.div_exact; lia). lia.
  - intros [[k E] H]. subst. split; [lia|]. replace (2*k+1-1)%nat with (k*2)%nat by lia. apply Nat.mod_mul; lia.
Qed.
Lemma mem_even_range : forall i e, mem i (pyrange 2 e 2) = Nat.even i && (1 <? i)%nat && (i <? e)%nat.
Proof.
  intros. apply eq_true_iff_eq. rewrite mem_In, pyrange_In, !andb_true_iff, !Nat.ltb_lt, Nat.even_spec by lia.
  split.
  - intros [[H1 H2] H3]. split; [split|]; auto; try lia. exists (1 + (i-2)/2)%nat.
    assert (i - 2 = 2 * ((i-2)/2))%nat by (apply Nat.div_exact; lia). lia.
  - intros [[[k E] H] H']. subst. split; [lia|]. replace (2*k-2)%nat with ((k-1)*2)%nat by lia. apply Nat.mod_mul; lia.
Qed.

Lemma fac_last : forall n a b, (2 <= n)%nat -> (a < n)%nat -> (b < n)%nat ->
  fac a b (flat_map (fun ix =>
        [((ix, n - 2)%nat, 5/2); ((ix, n - 1)%nat, 3/2);
         ((n - 2, ix)%nat, 5/2); ((n - 1, ix)%nat, 3/2)]) (seq 0 n))
  = (pick (b =? n - 2)%nat (5/2) * pick (b =? n - 1)%nat (3/2))
    * (pick (a =? n - 2)%nat (5/2) * pick (a =? n - 1)%nat (3/2)).
Proof.
  intros n a b Hn Ha Hb.
  rewrite (fac_blocks _ a b (pick (b =? n - 2)%nat (5/2) * pick (b =? n - 1)%nat (3/2))
                            (pick (a =? n - 2)%nat (5/2) * pick (a =? n - 1)%nat (3/2))).
  - assert (H : forall q, (q < n)%nat -> mem q (seq 0 n) = true).
    { intros. apply mem_In, in_seq. lia. }
    rewrite !H by auto. reflexivity.
  - apply seq_NoDup.
  - intros x _. unfold fac, fold_right, hit, pick.
    destruct (Nat.eqb_spec a x), (Nat.eqb_spec b x), (Nat.eqb_spec a (n-2)), (Nat.eqb_spec b (n-2)),
      (Nat.eqb_spec a (n-1)), (Nat.eqb_spec b (n-1)); simpl; try lia; ring.
Qed.

Lemma makeW_spec : forall n i j, (3 <= n)%nat -> (i < n)%nat -> (j < n)%nat ->
  makeW_ n n i j = w1 n i * w1 n j.
Proof.
  intros n i j Hn Hi Hj. unfold makeW_. rewrite fold_mul_at, !w1_or. unfold makeW_ops, ones.
  destruct (Nat.even n) eqn:En.
  - rewrite !fac_app, fac_last by lia.
    rewrite (fac_blocks _ i j 4 4), (fac_blocks _ i j 2 2);
      try (apply pyrange_NoDup; lia);
      try (intros x Hx; apply pyrange_In in Hx; [|lia]; apply fac_rowcol_last; lia).
    rewrite !mem_odd_range, !mem_even_range, <- !Nat.negb_odd.
    apply Nat.even_spec in En. destruct En as [k En].
    assert (Hodd : forall q, (q = n - 2)%nat -> Nat.odd q = false).
    { intros q E. rewrite <- Nat.negb_even. assert (Nat.even q = true); [|now rewrite H].
      apply Nat.even_spec. exists (k-1)%nat. lia. }
    assert (H0 : forall q, (q = 0)%nat -> Nat.odd q = false) by (intros; subst; reflexivity).
    assert (H1 : forall q, (q <= 1)%nat -> (q <> 0)%nat -> Nat.odd q = true) by (intros; replace q with 1%nat by lia; reflexivity).
    assert (Hq : forall q, (q < n)%nat ->
       pick (Nat.odd q && (q <? n - 2)%nat) 4 * pick (negb (Nat.odd q) && (1 <? q)%nat && (q <? n - 2)%nat) 2 *
       (pick (q =? n - 2)%nat (5/2) * pick (q =? n - 1)%nat (3/2)) =
       (if (q =? n - 1)%nat then 3 / 2 else if (q =? n - 2)%nat then 5 / 2 else if (q =? 0)%nat then 1 else if Nat.odd q then 4 else 2)).
    { intros q Hq. specialize (Hodd q). specialize (H0 q). specialize (H1 q).
      destruct (Nat.ltb_spec q (n-2)), (Nat.eqb_spec q (n-2)), (Nat.eqb_spec q (n-1)), (Nat.eqb_spec q 0),
       (Nat.ltb_spec 1 q), (Nat.odd q); simpl; unfold pick; try lia; try lra;
       try (discriminate Hodd; lia); try (discriminate H0; lia); try (discriminate H1; lia). }
    rewrite <- (Hq i), <- (Hq j) by auto. ring.
  - rewrite fac_app.
    rewrite (fac_blocks _ i j 4 4), (fac_blocks _ i j 2 2);
      try (apply pyrange_NoDup; lia); try (intros; apply fac_rowcol; lia).
    rewrite !mem_odd_range, !mem_even_range, <- !Nat.negb_odd.
    rewrite <- Nat.negb_odd in En. apply negb_false_iff, Nat.odd_spec in En. destruct En as [k En].
    assert (Hodd : forall q, (q = n - 1)%nat -> Nat.odd q = false).
    { intros q E. rewrite <- Nat.negb_even. assert (Nat.even q = true); [|now rewrite H].
      apply Nat.even_spec. exists k. lia. }
    assert (H0 : forall q, (q = 0)%nat -> Nat.odd q = false) by (intros; subst; reflexivity).
    assert (H1 : forall q, (q <= 1)%nat -> (q <> 0)%nat -> Nat.odd q = true) by (intros; replace q with 1%nat by lia; reflexivity).
    assert (Hq : forall q, (q < n)%nat ->
       pick (Nat.odd q && (q <? n - 1)%nat) 4 * pick (negb (Nat.odd q) && (1 <? q)%nat && (q <? n - 1)%nat) 2 =
       (if (q =? 0)%nat || (q =? n - 1)%nat then 1 else if Nat.odd q then 4 else 2)).
    { intros q Hq. specialize (Hodd q). specialize (H0 q). specialize (H1 q).
      destruct (Nat.ltb_spec q (n-1)), (Nat.eqb_spec q (n-1)), (Nat.eqb_spec q 0),
       (Nat.ltb_spec 1 q), (Nat.odd q); simpl; unfold pick; try lia; try lra;
       try (discriminate Hodd; lia); try (discriminate H0; lia); try (discriminate H1; lia). }
    rewrite <- (Hq i), <- (Hq j) by auto. ring.
Qed.
