(** The tracer-density solver for sharp-cut HODs (halo_model.py:1672-1715): C94, C95. *)
From Coq Require Import Reals List Bool Arith Lia Lra.
From Coquelicot Require Import Coquelicot.
From Verif Require Proofs.ExclusionProofs.
From Verif Require Import Model.RBool Model.SpecialFn Model.Quad Model.Profiles Model.HOD Model.FindMmin.
From Verif Require Import Spec.QuadSpec Spec.HMSpec Spec.FindSpec Proofs.QuadProofs Proofs.QuadProofs2 Proofs.HODProofs Proofs.Erf Props.HaloModelProps Props.HaloModelProps2.
Import ListNotations.
Local Open Scope R_scope.

Lemma bigsum_rev : forall n f, bigsum n f = bigsum n (fun i => f (n - 1 - i)%nat).
Proof.
  induction n as [|n IH]; intros f; auto. rewrite bigsum_S_l. rewrite (bigsum_S n (fun i => f (S n - 1 - i)%nat)). rewrite IH.
  replace (S n - 1 - n)%nat with 0%nat by lia. rewrite Rplus_comm. f_equal. apply bigsum_ext. intros i Hi. f_equal. lia.
Qed.
(** the running integral is the density above the corresponding mass *)
Lemma integral_is_density : forall n h g j, (j < n - 1)%nat -> integral n h g j = density_from h g n (n - 2 - j).
Proof.
  intros n h g j Hj. unfold integral, cumulative_trapezoid, density_from, trapezoid_rule, rev_at. rewrite sum_over_seq. rewrite bigsum_rev.
  replace (n - 1 - (n - 2 - j))%nat with (S j) by lia. apply bigsum_ext. intros i Hi.
  replace (n - 1 - (S j - 1 - i))%nat with (n - 2 - j + (i + 1))%nat by lia. replace (n - 1 - S (S j - 1 - i))%nat with (n - 2 - j + i)%nat by lia. field.
Qed.
Lemma integral_S : forall n h g j, (S j < n - 1)%nat -> integral n h g (S j) = integral n h g j + h * (rev_at n g (S j) + rev_at n g (S (S j))) / 2.
Proof. intros. unfold integral, cumulative_trapezoid. rewrite !sum_over_seq. rewrite bigsum_S. reflexivity. Qed.

Section C94.
  Variables (spl : list R -> list R -> R -> R) (n nall : nat) (h : R) (m g : nat -> R).
  Notation I := (integral n h g).
  Notation find_ := (find_m_min_sharp spl n nall h m g).
  (** total density (M_min at the lowest mass of the grid) *)
  Notation total := (density_from h g n 0).
  Lemma total_last : (2 <= n)%nat -> I (n - 2)%nat = total.
  Proof. intros H. rewrite integral_is_density by lia. f_equal. lia. Qed.
  Lemma I_mono : 0 <= h -> (forall i, (i < n)%nat -> 0 <= g i) -> forall j k, (j <= k)%nat -> (k < n - 1)%nat -> I j <= I k.
  Proof.
    intros Hh G j k H. induction H as [|k H IH]; intros K; [lra|]. rewrite integral_S by lia. unfold rev_at.
    assert (0 <= h * (g (n - 1 - S k)%nat + g (n - 1 - S (S k))%nat) / 2); [|assert (I j <= I k) by (apply IH; lia); lra].
    assert (0 <= g (n - 1 - S k)%nat) by (apply G; lia). assert (0 <= g (n - 1 - S (S k))%nat) by (apply G; lia). assert (0 <= h * (g (n - 1 - S k)%nat + g (n - 1 - S (S k))%nat)) by (apply Rmult_le_pos; lra). lra.
  Qed.
  Lemma I_incr : 0 < h -> (forall i, (i < n)%nat -> 0 < g i) -> forall j k, (j < k)%nat -> (k < n - 1)%nat -> I j < I k.
  Proof.
    intros Hh G j k H K. destruct k as [|k]; [lia|]. apply Rle_lt_trans with (I k). { apply I_mono; try lia; [lra|intros i Hi; left; apply G; lia]. }
    rewrite integral_S by lia. unfold rev_at. assert (0 < g (n - 1 - S k)%nat) by (apply G; lia). assert (0 < g (n - 1 - S (S k))%nat) by (apply G; lia).
    assert (0 < h * (g (n - 1 - S k)%nat + g (n - 1 - S (S k))%nat)) by (apply Rmult_lt_0_compat; lra). lra.
  Qed.
  Lemma I_pos : 0 < h -> (forall i, (i < n)%nat -> 0 < g i) -> forall j, (j < n - 1)%nat -> 0 < I j.
  Proof.
    intros Hh G j Hj. apply Rlt_le_trans with (I 0%nat); [|apply I_mono; try lia; [lra|intros i Hi; left; apply G; lia]].
    unfold integral, cumulative_trapezoid, rev_at. rewrite sum_over_seq. simpl. assert (0 < g (n - 1 - 0)%nat) by (apply G; lia). assert (0 < g (n - 1 - 1)%nat) by (apply G; lia).
    assert (0 < h * (g (n - 1 - 0)%nat + g (n - 1 - 1)%nat)) by (apply Rmult_lt_0_compat; lra). lra.
  Qed.

  (** the requested density is refused as too large exactly when the total density is below it *)
  Theorem c94_density_exceeded_iff : (2 <= n)%nat -> forall ng, find_ ng = Raise NGException <-> total < ng.
  Proof.
    intros N ng. unfold find_m_min_sharp. replace (n <=? 1)%nat with false by (symmetry; apply Nat.leb_gt; lia). rewrite total_last by auto.
    destruct (Rltb total ng) eqn:E; [apply Rltb_spec in E; split; auto|]. apply Rltb_false in E. split; [|lra].
    intros H. destruct (find _ _); [|discriminate]. destruct (_ && _); discriminate.
  Qed.
  (** finding: asking for exactly the total density is an IndexError *)
  Theorem c94_exact_total_fails_iff : (2 <= n)%nat -> 0 <= h -> (forall i, (i < n)%nat -> 0 <= g i) -> forall ng, find_ ng = Raise IndexError <-> ng = total.
  Proof.
    intros N Hh G ng. unfold find_m_min_sharp. replace (n <=? 1)%nat with false by (symmetry; apply Nat.leb_gt; lia). rewrite total_last by auto.
    destruct (Rltb total ng) eqn:E; [apply Rltb_spec in E; split; [discriminate|lra]|]. apply Rltb_false in E.
    destruct (find _ _) as [ind|] eqn:F.
    - apply find_seq in F. destruct F as [F1 [F2 _]]. apply Rltb_spec in F2. assert (K : I ind <= I (n - 2)%nat) by (apply I_mono; auto; lia). rewrite total_last in K by auto.
      split; [intros H; destruct (_ && _); discriminate|lra].
    - split; auto. intros _. apply Rle_antisym; auto. assert (K := find_none _ _ F (n - 2)%nat). rewrite <- total_last by auto. apply Rltb_false. apply K. apply in_seq. lia.
  Qed.

  Lemma increasing_seq : forall f c a, (forall j, (a <= j)%nat -> (S j < a + c)%nat -> f j < f (S j)) -> increasing (map f (seq a c)) = true.
  Proof.
    intros f c. induction c as [|c IH]; intros a H; auto. destruct c as [|c]; auto. cbn [seq map increasing]. apply andb_true_intro. split.
    - apply Rltb_spec. apply H; lia.
    - apply (IH (S a)). intros j H1 H2. apply H; lia.
  Qed.
  Lemma found : (5 <= n)%nat -> (n <= nall)%nat -> 0 < h -> (forall i, (i < n)%nat -> 0 < g i) -> forall ng, ng < total -> exists ind, (ind < n - 1)%nat /\ ng < I ind /\ (forall j, (j < ind)%nat -> I j <= ng) /\
    (win_hi n nall ind - win_lo ind >= 4)%nat /\
    find_ ng = Ok (spl (map (fun j => ln (I j)) (window n nall ind)) (map (fun j => ln (m (n - 1 - (j + 1))%nat)) (window n nall ind)) (ln ng) / ln 10).
  Proof.
    intros N NA Hh G ng Hng. unfold find_m_min_sharp. replace (n <=? 1)%nat with false by (symmetry; apply Nat.leb_gt; lia). rewrite total_last by lia.
    replace (Rltb total ng) with false by (symmetry; apply Rltb_false; lra). destruct (find _ _) as [ind|] eqn:F.
    - apply find_seq in F. destruct F as [F1 [F2 F3]]. apply Rltb_spec in F2. exists ind. split; [lia|]. split; auto. split; [intros j Hj; apply Rltb_false; apply F3; lia|].
      assert (W : (win_hi n nall ind - win_lo ind >= 4)%nat) by (unfold win_hi, win_lo; lia). split; auto.
      rewrite map_length. unfold window at 1. rewrite seq_length. replace (4 <=? win_hi n nall ind - win_lo ind)%nat with true by (symmetry; apply Nat.leb_le; lia).
      unfold window at 1. rewrite increasing_seq; [reflexivity|]. intros j H1 H2. apply ln_increasing; [apply I_pos; auto; unfold win_hi, win_lo in *; lia|]. apply I_incr; auto; unfold win_hi, win_lo in *; lia.
    - exfalso. assert (K := find_none _ _ F (n - 2)%nat). assert (Q : Rltb ng (I (n - 2)%nat) = false) by (apply K; apply in_seq; lia). apply Rltb_false in Q. rewrite total_last in Q by lia. lra.
  Qed.
  (** with at least five masses and a positive integrand the solver succeeds exactly below the total density *)
  Theorem c94_succeeds_iff : (5 <= n)%nat -> (n <= nall)%nat -> 0 < h -> (forall i, (i < n)%nat -> 0 < g i) -> forall ng, (exists M, find_ ng = Ok M) <-> ng < total.
  Proof.
    intros N NA Hh G ng. split.
    - intros [M H]. destruct (Rtotal_order ng total) as [K|[K|K]]; auto.
      + exfalso. assert (Q := proj2 (c94_exact_total_fails_iff ltac:(lia) ltac:(lra) ltac:(intros i Hi; left; apply G; lia) ng) K). rewrite Q in H. discriminate.
      + exfalso. assert (Q := proj2 (c94_density_exceeded_iff ltac:(lia) ng) K). rewrite Q in H. discriminate.
    - intros K. destruct (found N NA Hh G ng K) as [ind [_ [_ [_ [_ H]]]]]. eauto.
  Qed.

  Lemma nth_map_seq : forall (f : nat -> R) c a i, (i < c)%nat -> nth i (map f (seq a c)) 0 = f (a + i)%nat.
  Proof. intros f c a i H. rewrite nth_indep with (d' := f 0%nat) by (rewrite map_length, seq_length; auto). rewrite map_nth. rewrite seq_nth by auto. reflexivity. Qed.
  (** which masses the answer is interpolated from: with the density crossed between m_i and m_(i+1) and away from the ends of the grid,
      the four masses above and the four below, each paired with the density above it *)
  Theorem c94_eight_neighbours : (n <= nall)%nat -> 0 < h -> (forall i, (i < n)%nat -> 0 < g i) ->
    forall i ng, (3 <= i)%nat -> (i + 6 <= n)%nat -> density_from h g n (i + 1) <= ng < density_from h g n i ->
    find_ ng = Ok (spl (map (fun d => ln (density_from h g n (i + 4 - d))) (seq 0 8)) (map (fun d => ln (m (i + 4 - d)%nat)) (seq 0 8)) (ln ng) / ln 10).
  Proof.
    intros NA Hh G i ng I3 I6 [A B]. assert (DI : forall j, (j <= n - 2)%nat -> I j = density_from h g n (n - 2 - j)). { intros j Hj. rewrite integral_is_density by lia. f_equal. }
    assert (L : ng < total). { rewrite <- total_last by lia. apply Rlt_le_trans with (1 := B). replace i with (n - 2 - (n - 2 - i))%nat by lia. rewrite <- DI by lia. apply I_mono; try lia; try lra. intros k Hk. left. apply G; lia. }
    destruct (found ltac:(lia) NA Hh G ng L) as [ind [H1 [H2 [H3 [_ H5]]]]].
    assert (E : ind = (n - 2 - i)%nat).
    { destruct (Nat.lt_trichotomy ind (n - 2 - i)) as [K|[K|K]]; auto; exfalso.
      - assert (Q : I ind <= I (n - 2 - (i + 1))%nat) by (apply I_mono; try lia; try lra; intros k Hk; left; apply G; lia).
        rewrite (DI (n - 2 - (i + 1))%nat) in Q by lia. replace (n - 2 - (n - 2 - (i + 1)))%nat with (i + 1)%nat in Q by lia. lra.
      - specialize (H3 _ K). rewrite DI in H3 by lia. replace (n - 2 - (n - 2 - i))%nat with i in H3 by lia. lra. }
    rewrite H5. unfold window. replace (win_lo ind) with (n - 6 - i)%nat by (unfold win_lo; lia). replace (win_hi n nall ind - (n - 6 - i))%nat with 8%nat by (unfold win_hi; lia).
    f_equal. f_equal. f_equal; apply nth_ext with (d := 0) (d' := 0); rewrite ?map_length, ?seq_length; auto; intros d Hd.
    - rewrite nth_map_seq by auto. set (f := fun d => ln (density_from h g n (i + 4 - d))). rewrite nth_map_seq by auto. unfold f. rewrite DI by lia. do 2 f_equal. lia.
    - set (f := fun j => ln (m (n - 1 - (j + 1))%nat)). set (f' := fun d => ln (m (i + 4 - d)%nat)). rewrite !nth_map_seq by auto. unfold f, f'. do 2 f_equal. lia.
  Qed.
  Lemma window_increasing : (n <= nall)%nat -> 0 < h -> (forall i, (i < n)%nat -> 0 < g i) -> forall ind, (ind < n - 1)%nat ->
    forall a b, (a < b < length (map (fun j => ln (I j)) (window n nall ind)))%nat -> nth a (map (fun j => ln (I j)) (window n nall ind)) 0 < nth b (map (fun j => ln (I j)) (window n nall ind)) 0.
  Proof.
    intros NA Hh G ind Hi a b H. unfold window in *. rewrite map_length, seq_length in H. set (f := fun j => ln (I j)). rewrite !nth_map_seq by lia. unfold f.
    apply ln_increasing; [apply I_pos; auto; unfold win_hi, win_lo in *; lia|]. apply I_incr; auto; unfold win_hi, win_lo in *; lia.
  Qed.
  (** the answer for the density above the grid mass m_i0 is that mass, exactly (i0 not the lowest mass) *)
  Theorem c94_exact_at_grid_masses : (5 <= n)%nat -> (n <= nall)%nat -> 0 < h -> (forall i, (i < n)%nat -> 0 < g i) -> interpolates_list spl ->
    forall i0, (0 < i0 < n - 1)%nat -> find_ (density_from h g n i0) = Ok (log10 (m i0)).
  Proof.
    intros N NA Hh G HS i0 Hi0. set (j := (n - 2 - i0)%nat). assert (E : density_from h g n i0 = I j). { unfold j. rewrite integral_is_density by lia. f_equal. lia. }
    assert (L : I j < total). { rewrite <- total_last by lia. apply I_incr; auto; unfold j; lia. }
    rewrite E. destruct (found N NA Hh G (I j) L) as [ind [H1 [H2 [H3 [H4 H5]]]]]. rewrite H5. f_equal. unfold log10. f_equal.
    assert (Q : ind = S j).
    { destruct (Nat.lt_trichotomy ind (S j)) as [K|[K|K]]; auto.
      - exfalso. assert (I ind <= I j) by (apply I_mono; try lia; [lra|intros i Hi; left; apply G; lia]). lra.
      - exfalso. assert (I (S j) <= I j) by (apply H3; auto). assert (I j < I (S j)) by (apply I_incr; auto; unfold j; lia). lra. }
    subst ind. set (a := (j - win_lo (S j))%nat). set (c := (win_hi n nall (S j) - win_lo (S j))%nat) in *.
    assert (Ha : (a < c)%nat) by (unfold a, c, win_hi, win_lo, j in *; lia). assert (Hb : (win_lo (S j) + a = j)%nat) by (unfold a, win_lo; lia).
    assert (W := window_increasing NA Hh G (S j) H1). set (xs := map (fun j => ln (I j)) (window n nall (S j))) in *. set (ys := map (fun j => ln (m (n - 1 - (j + 1))%nat)) (window n nall (S j))).
    assert (X : nth a xs 0 = ln (I j)). { unfold xs, window. fold c. set (f := fun j => ln (I j)). rewrite nth_map_seq by auto. unfold f. now rewrite Hb. }
    assert (Y : nth a ys 0 = ln (m i0)). { unfold ys, window. fold c. set (f := fun j => ln (m (n - 1 - (j + 1))%nat)). rewrite nth_map_seq by auto. unfold f. rewrite Hb. f_equal. f_equal. unfold j. lia. }
    rewrite <- X, <- Y. apply HS; auto.
    - unfold xs, ys. now rewrite !map_length.
    - unfold xs, window. rewrite map_length, seq_length. exact Ha.
  Qed.
  (** between grid masses an interpolant that does not overshoot brackets the answer: the density above the
      solved mass's upper neighbour is at most the request, that above the lower neighbour is larger *)
  Theorem c94_brackets : (5 <= n)%nat -> (n <= nall)%nat -> 0 < h -> grid n m -> (forall i, (i < n)%nat -> 0 < g i) -> stays_between spl ->
    forall ng M, density_from h g n (n - 2) <= ng -> find_ ng = Ok M ->
    exists i0, (S i0 < n - 1)%nat /\ log10 (m i0) <= M <= log10 (m (S i0)) /\ density_from h g n (S i0) <= ng < density_from h g n i0.
  Proof.
    intros N NA Hh GM G HS ng M LO H. assert (L : ng < total) by (apply (c94_succeeds_iff N NA Hh G ng); eauto).
    destruct (found N NA Hh G ng L) as [ind [H1 [H2 [H3 [H4 H5]]]]]. rewrite H5 in H. injection H as <-.
    assert (LO' : I 0%nat <= ng). { rewrite integral_is_density by lia. replace (n - 2 - 0)%nat with (n - 2)%nat by lia. exact LO. }
    destruct ind as [|j]; [lra|]. assert (Q := H3 j ltac:(lia)).
    exists (n - 2 - S j)%nat. split; [lia|]. assert (E1 := integral_is_density n h g (S j) H1). assert (E2 := integral_is_density n h g j ltac:(lia)).
    replace (S (n - 2 - S j))%nat with (n - 2 - j)%nat by lia. rewrite <- E1, <- E2. split; [|lra].
    set (a := (j - win_lo (S j))%nat). set (c := (win_hi n nall (S j) - win_lo (S j))%nat) in *.
    assert (Ha : (S a < c)%nat) by (unfold a, c, win_hi, win_lo in *; lia). assert (Hb : (win_lo (S j) + a = j)%nat) by (unfold a, win_lo; lia).
    assert (W := window_increasing NA Hh G (S j) H1). set (xs := map (fun j => ln (I j)) (window n nall (S j))) in *. set (ys := map (fun j => ln (m (n - 1 - (j + 1))%nat)) (window n nall (S j))).
    assert (X : nth a xs 0 = ln (I j)). { unfold xs, window. fold c. set (f := fun j => ln (I j)). rewrite nth_map_seq by lia. unfold f. now rewrite Hb. }
    assert (X' : nth (S a) xs 0 = ln (I (S j))). { unfold xs, window. fold c. set (f := fun j => ln (I j)). rewrite nth_map_seq by lia. unfold f. now replace (win_lo (S j) + S a)%nat with (S j) by lia. }
    assert (Y : nth a ys 0 = ln (m (n - 2 - j)%nat)). { unfold ys, window. fold c. set (f := fun j => ln (m (n - 1 - (j + 1))%nat)). rewrite nth_map_seq by lia. unfold f. rewrite Hb. f_equal. f_equal. lia. }
    assert (Y' : nth (S a) ys 0 = ln (m (n - 2 - S j)%nat)). { unfold ys, window. fold c. set (f := fun j => ln (m (n - 1 - (j + 1))%nat)). rewrite nth_map_seq by lia. unfold f. replace (win_lo (S j) + S a)%nat with (S j) by lia. f_equal. f_equal. lia. }
    assert (B := HS xs ys a (ln ng)). rewrite X, X', Y, Y' in B. assert (0 < I j) by (apply I_pos; auto; lia).
    destruct B as [B1 B2].
    - unfold xs, ys. now rewrite !map_length.
    - unfold xs, window. rewrite map_length, seq_length. exact Ha.
    - exact W.
    - split; [destruct Q as [Q| ->]; [left; apply ln_increasing; lra|lra]|left; apply ln_increasing; lra].
    - destruct GM as [_ [GP GI]]. assert (ln (m (n - 2 - S j)%nat) < ln (m (n - 2 - j)%nat)) by (apply ln_increasing; [apply GP; lia|apply GI; lia]).
      rewrite Rmin_right in B1 by lra. rewrite Rmax_left in B2 by lra. assert (L10 : 0 < ln 10) by (rewrite <- ln_1; apply ln_increasing; lra).
      unfold log10. split; apply Rmult_le_compat_r; auto; left; now apply Rinv_0_lt_compat.
  Qed.
End C94.
(** for smooth HODs no solution is checked: any value the minimiser returns is stored *)
(** *** HODs without a sharp cut *)
Lemma tm_all : forall n m hd M, (forall i, (i < n)%nat -> pow10 (h_mmin (hd M)) <= m i) -> tm_indices n m hd M = seq 0 n.
Proof.
  intros n m hd M H. unfold tm_indices. assert (K : forall l, (forall i, In i l -> (i < n)%nat) -> filter (fun i => Rleb (pow10 (h_mmin (hd M))) (m i)) l = l).
  { induction l as [|a l IH]; intros L; auto. simpl. replace (Rleb _ _) with true by (symmetry; apply Rleb_spec; apply H, L; simpl; auto). f_equal. apply IH. intros i Hi. apply L. simpl. auto. }
  apply K. intros i Hi. apply in_seq in Hi. lia.
Qed.
(** when no mass of the grid is masked out the density is Simpson's rule over the whole grid *)
Lemma smooth_density_all : forall n h m dndm hd M, (forall i, (i < n)%nat -> pow10 (h_mmin (hd M)) <= m i) ->
  smooth_density n h m dndm hd M = scipy_simpson n h (fun i => m i * dndm i * total_occupation (hd M) (m i)).
Proof.
  intros n h m dndm hd M H. unfold smooth_density. rewrite tm_all by auto. rewrite seq_length. apply simpson_ext. intros i Hi. cbv zeta. rewrite seq_nth by auto. reflexivity.
Qed.
(** refused exactly when the density with M_min at the bottom of the grid is below the request; otherwise some value is
    stored, and no check is made that it gives the requested density *)
Theorem c94_smooth_exceeded_iff : forall n h m dndm hd minimise Mmin ng,
  (find_m_min_smooth n h m dndm hd minimise Mmin ng = Raise NGException <-> smooth_density n h m dndm hd Mmin < ng) /\
  (ng <= smooth_density n h m dndm hd Mmin -> exists M, find_m_min_smooth n h m dndm hd minimise Mmin ng = Ok M).
Proof.
  intros. unfold find_m_min_smooth. destruct (Rltb _ _) eqn:E; [apply Rltb_spec in E|apply Rltb_false in E]; split; [tauto|lra|split; [discriminate|lra]|eauto].
Qed.
(** a minimiser that never returns something worse than its starting point (as Nelder-Mead does) is at least as close
    to the request as log10 M_min = 12 *)
Theorem c94_smooth_no_worse_than_start : forall n h m dndm hd minimise Mmin ng M, (forall f x0, f (minimise f x0) <= f x0) ->
  find_m_min_smooth n h m dndm hd minimise Mmin ng = Ok M ->
  Rabs (smooth_density n h m dndm hd M - ng) <= Rabs (smooth_density n h m dndm hd 12 - ng).
Proof.
  intros n h m dndm hd minimise Mmin ng M H E. unfold find_m_min_smooth in E. destruct (Rltb _ _); [discriminate|]. injection E as <-.
  exact (H (fun x => Rabs (smooth_density n h m dndm hd x - ng)) 12).
Qed.
(** the minimiser returns a point of least value of [f], if [f] has one *)
Definition finds_minimum (minimise : (R -> R) -> R -> R) (f : R -> R) : Prop := (exists y, forall x, f y <= f x) -> forall x, f (minimise f 12) <= f x.
(** an exact minimiser returns a solution whenever there is one, and only then *)
Theorem c94_smooth_solution_iff : forall n h m dndm hd minimise Mmin ng M, finds_minimum minimise (fun x => Rabs (smooth_density n h m dndm hd x - ng)) ->
  find_m_min_smooth n h m dndm hd minimise Mmin ng = Ok M ->
  (smooth_density n h m dndm hd M = ng <-> exists M', smooth_density n h m dndm hd M' = ng).
Proof.
  intros n h m dndm hd minimise Mmin ng M H E. split; [eauto|]. intros [M' Q]. unfold find_m_min_smooth in E. destruct (Rltb _ _); [discriminate|]. injection E as <-.
  assert (K := fun W => H W M'). specialize (K ltac:(exists M'; intros x; rewrite Q, Rminus_diag_eq, Rabs_R0 by reflexivity; apply Rabs_pos)). cbv beta in K. rewrite Q in K. replace (ng - ng) with 0 in K by ring. rewrite Rabs_R0 in K.
  assert (A := Rabs_pos (smooth_density n h m dndm hd (minimise (fun x => Rabs (smooth_density n h m dndm hd x - ng)) 12) - ng)).
  apply Rminus_diag_uniq. destruct (Req_dec (smooth_density n h m dndm hd (minimise (fun x => Rabs (smooth_density n h m dndm hd x - ng)) 12) - ng) 0) as [Z|Z]; auto. apply Rabs_pos_lt in Z. lra.
Qed.
Lemma cont_bigsum : forall n (f : nat -> R -> R) x, (forall i, (i < n)%nat -> continuity_pt (f i) x) -> continuity_pt (fun t => bigsum n (fun i => f i t)) x.
Proof.
  induction n as [|n IH]; intros f x H. { apply continuity_pt_const. intros a b. reflexivity. }
  apply (continuity_pt_ext (fun t => bigsum n (fun i => f i t) + f n t)). { intros t. rewrite bigsum_S. reflexivity. }
  apply continuity_pt_plus; [apply IH; intros i Hi; apply H; lia|apply H; lia].
Qed.
Lemma zheng_total_cont : forall central M1 alpha M0 sig x M, sig <> 0 -> continuity_pt (fun M => total_occupation (Zheng05 central M M1 alpha M0 sig) x) M.
Proof.
  intros central M1 alpha M0 sig x M Hs.
  assert (C : continuity_pt (fun M => zheng_co M sig x) M).
  { unfold zheng_co. apply continuity_pt_mult; [apply continuity_pt_const; intros a b; reflexivity|]. apply continuity_pt_plus; [apply continuity_pt_const; intros a b; reflexivity|].
    apply (continuity_pt_comp (fun M => (log10 x - M) / sig) erf).
    - apply continuity_pt_mult; [apply continuity_pt_minus; [apply continuity_pt_const; intros a b; reflexivity|apply derivable_continuous_pt, derivable_pt_id]|apply continuity_pt_const; intros a b; reflexivity].
    - apply derivable_continuous_pt. eexists. apply is_derive_Reals. apply erf_derive. }
  unfold total_occupation, satellite_occupation, nc, h_central, central_occupation. simpl. unfold one. destruct central; simpl.
  - apply continuity_pt_plus; auto. apply continuity_pt_mult; [apply continuity_pt_mult; auto; apply continuity_pt_const; intros a b; reflexivity|apply continuity_pt_const; intros a b; reflexivity].
  - apply continuity_pt_plus; auto. apply continuity_pt_const; intros a b; reflexivity.
Qed.
(** Zheng05: a request between the densities at M_min = Mmin and M_min = Mmin + 5 sig_logm (while no mass is masked out)
    is met exactly by an exact minimiser *)
Theorem c94_smooth_zheng05 : forall n h m dndm central M1 alpha M0 sig minimise Mmin ng, 0 < sig -> (forall i, (i < n)%nat -> pow10 Mmin <= m i) ->
  let hd := fun M => Zheng05 central M M1 alpha M0 sig in
  finds_minimum minimise (fun x => Rabs (smooth_density n h m dndm hd x - ng)) ->
  smooth_density n h m dndm hd (Mmin + 5 * sig) <= ng <= smooth_density n h m dndm hd Mmin ->
  exists M, find_m_min_smooth n h m dndm hd minimise Mmin ng = Ok M /\ smooth_density n h m dndm hd M = ng.
Proof.
  intros n h m dndm central M1 alpha M0 sig minimise Mmin ng Hs HM hd HX [LO HI].
  destruct (proj2 (c94_smooth_exceeded_iff n h m dndm hd minimise Mmin ng) HI) as [M E]. exists M. split; auto.
  apply (c94_smooth_solution_iff n h m dndm hd minimise Mmin ng M HX E).
  set (F := fun M => scipy_simpson n h (fun i => m i * dndm i * total_occupation (hd M) (m i))).
  assert (A : forall M, M <= Mmin + 5 * sig -> smooth_density n h m dndm hd M = F M).
  { intros X Hx. apply smooth_density_all. intros i Hi. simpl. apply Rle_trans with (pow10 Mmin); auto. unfold pow10. destruct (Req_dec (X - 5 * sig) Mmin) as [->|]; [lra|]. left. apply Rpower_lt; lra. }
  rewrite A in LO, HI by lra.
  assert (C : continuity (fun M => ng - F M)).
  { intros X. apply continuity_pt_minus; [apply continuity_pt_const; intros a b; reflexivity|]. unfold F.
    apply (continuity_pt_ext (fun X => h * bigsum n (fun i => scipy_simpson_weight n i * (m i * dndm i * total_occupation (hd X) (m i))))). { intros t. rewrite ExclusionProofs.simpson_big. reflexivity. }
    apply continuity_pt_mult; [apply continuity_pt_const; intros a b; reflexivity|]. apply (cont_bigsum n (fun i X => scipy_simpson_weight n i * (m i * dndm i * total_occupation (hd X) (m i)))). intros i Hi.
    apply continuity_pt_mult; [apply continuity_pt_const; intros a b; reflexivity|]. apply continuity_pt_mult; [apply continuity_pt_const; intros a b; reflexivity|]. apply zheng_total_cont. lra. }
  destruct (Req_dec ng (F Mmin)) as [E1|E1]; [exists Mmin; rewrite A; lra|]. destruct (Req_dec ng (F (Mmin + 5 * sig))) as [E2|E2]; [exists (Mmin + 5 * sig); rewrite A; lra|].
  destruct (IVT (fun M => ng - F M) Mmin (Mmin + 5 * sig) C) as [X [HX1 HX2]]; try lra. exists X. rewrite A by lra. lra.
Qed.
(** finding: with a negative request (or any below the densities the HOD can reach) a value is still returned, whose density is not
    the requested one: nothing is raised *)
Theorem c94_smooth_unreachable_is_silent_refuted : forall n h m dndm hd minimise Mmin ng,
  (forall M, ng < smooth_density n h m dndm hd M) ->
  exists M, find_m_min_smooth n h m dndm hd minimise Mmin ng = Ok M /\ ng < smooth_density n h m dndm hd M.
Proof.
  intros n h m dndm hd minimise Mmin ng H. destruct (proj2 (c94_smooth_exceeded_iff n h m dndm hd minimise Mmin ng)) as [M E]; [left; apply H|]. exists M. split; auto.
Qed.

(** ** C95: is the density at the solution the requested one? *)
Section C95.
  Variables (spl : list R -> list R -> R -> R) (n nall : nat) (h : R) (m dndm : nat -> R) (Mmin : R).
  Hypothesis N : (5 <= n)%nat.
  Hypothesis NA : (n <= nall)%nat.
  Hypothesis Hh : 0 < h.
  Hypothesis GM : grid n m.
  Hypothesis DP : forall i, (i < n)%nat -> 0 < dndm i.
  Hypothesis M0 : pow10 Mmin <= m 0%nat.
  Hypothesis HS : interpolates_list spl.
  (** tracers per unit ln(mass) for a given HOD *)
  Definition per_lnm (hd : hod) (i : nat) : R := m i * dndm i * total_occupation hd (m i).
  (** solving for the density above the grid mass m_i0 *)
  Definition solve_for (hd0 : hod) (i0 : nat) : res R := find_m_min_sharp spl n nall h m (per_lnm hd0) (density_from h (per_lnm hd0) n i0).

  Lemma above : forall i, (i < n)%nat -> pow10 Mmin <= m i.
  Proof. intros i Hi. destruct GM as [_ [_ GI]]. destruct i; auto. assert (m 0%nat < m (S i)) by (apply GI; lia). lra. Qed.
  Lemma trap_ext_from : forall f g i0, (forall i, (i0 <= i < n)%nat -> f i = g i) -> (i0 < n)%nat -> density_from h f n i0 = density_from h g n i0.
  Proof. intros f g i0 H Hi. unfold density_from, trapezoid_rule. apply bigsum_ext. intros i Hi2. rewrite !H by lia. reflexivity. Qed.
  Lemma trap_lt_from : forall f g i0, (forall i, (i0 <= i < n)%nat -> f i <= g i) -> f (n - 1)%nat < g (n - 1)%nat -> (i0 < n - 1)%nat -> density_from h f n i0 < density_from h g n i0.
  Proof.
    intros f g i0 H L Hi. unfold density_from, trapezoid_rule. replace (n - 1 - i0)%nat with (S (n - 2 - i0)) by lia. rewrite !bigsum_S.
    apply Rplus_le_lt_compat.
    - apply bigsum_le. intros i Hi2. apply Rmult_le_compat_l; [lra|]. apply Rplus_le_compat; apply H; lia.
    - apply Rmult_lt_compat_l; [lra|]. apply Rplus_le_lt_compat; [apply H; lia|]. replace (i0 + (n - 2 - i0 + 1))%nat with (n - 1)%nat by lia. exact L.
  Qed.
  Lemma zehavi_above : forall central M M1 alpha x, pow10 M <= x -> total_occupation (Zehavi05 central M M1 alpha) x = 1 + zehavi_so M1 alpha x.
  Proof.
    intros central M M1 alpha x H. unfold total_occupation, central_occupation, satellite_occupation, nc, h_central, central_occupation; simpl.
    rewrite zco_above by auto. destruct central; simpl; unfold one; field.
  Qed.
  Lemma zso_pos : forall M1 alpha x, 0 < zehavi_so M1 alpha x.
  Proof. intros. unfold zehavi_so, Rpower. apply exp_pos. Qed.
  (** Zehavi05: the density above the solved mass, computed with the solved M_min, is exactly the requested one *)
  Theorem c95_zehavi05 : forall central M1 alpha i0, (0 < i0 < n - 1)%nat ->
    exists M, solve_for (Zehavi05 central Mmin M1 alpha) i0 = Ok M /\ pow10 M = m i0 /\
      density_from h (per_lnm (Zehavi05 central M M1 alpha)) n i0 = density_from h (per_lnm (Zehavi05 central Mmin M1 alpha)) n i0.
  Proof.
    intros central M1 alpha i0 Hi. destruct GM as [_ [GP GI]]. assert (P0 : 0 < m i0) by (apply GP; lia). exists (log10 (m i0)). split; [|split; [now apply pow10_log10|]].
    - unfold solve_for. apply c94_exact_at_grid_masses; auto. intros i Hi2. unfold per_lnm. rewrite zehavi_above by (apply above; auto).
      assert (Z := zso_pos M1 alpha (m i)). apply Rmult_lt_0_compat; [apply Rmult_lt_0_compat; auto|lra].
    - apply trap_ext_from; [|lia]. intros i Hi2. unfold per_lnm. rewrite !zehavi_above; auto; [apply above; lia|]. rewrite pow10_log10 by auto. destruct (Nat.eq_dec i i0); [subst; lra|left; apply GI; lia].
  Qed.
  (** with the central condition nothing lives below the cut, so the mean density is the requested one up to the
      interval containing the cut; without it (central=False) satellites below the cut come on top: the mean
      density exceeds the request *)
  Theorem c95_zehavi05_without_central_condition_refuted : forall M1 alpha i0, (0 < i0 < n - 1)%nat ->
    exists M, solve_for (Zehavi05 false Mmin M1 alpha) i0 = Ok M /\ density_from h (per_lnm (Zehavi05 false Mmin M1 alpha)) n i0 < density_from h (per_lnm (Zehavi05 false M M1 alpha)) n 0.
  Proof.
    intros M1 alpha i0 Hi. destruct (c95_zehavi05 false M1 alpha i0 Hi) as [M [H1 [H2 H3]]]. exists M. split; auto. rewrite <- H3.
    set (g := per_lnm (Zehavi05 false M M1 alpha)). assert (G : forall i, (i < n)%nat -> 0 < g i).
    { intros i Hi2. unfold g, per_lnm. destruct GM as [_ [GP _]]. apply Rmult_lt_0_compat; [apply Rmult_lt_0_compat; auto|]. unfold total_occupation, satellite_occupation, central_occupation; simpl.
      assert (Z := zso_pos M1 alpha (m i)). unfold zehavi_co. destruct (Rltb (m i) (pow10 M)); lra. }
    rewrite <- (total_last n h g) by lia. replace (density_from h g n i0) with (integral n h g (n - 2 - i0)). { apply I_incr; auto; lia. } rewrite integral_is_density by lia. f_equal. lia.
  Qed.
  Lemma tinker_above : forall central M M1 Mcut x, pow10 M < x -> total_occupation (Tinker05 central M M1 Mcut) x = 1 + exp (- pow10 Mcut / (x - pow10 M)) * (x / pow10 M1).
  Proof.
    intros central M M1 Mcut x H. unfold total_occupation, central_occupation, satellite_occupation, h_central; simpl. rewrite andb_false_r. unfold tinker_so.
    rewrite zco_above by lra. replace (Reqb x (pow10 M)) with false by (symmetry; apply Reqb_false; lra). ring.
  Qed.
  Lemma tinker_at : forall central M M1 Mcut, total_occupation (Tinker05 central M M1 Mcut) (pow10 M) = 1.
  Proof.
    intros. unfold total_occupation, central_occupation, satellite_occupation, h_central; simpl. rewrite andb_false_r. unfold tinker_so. rewrite zco_above by lra.
    replace (Reqb (pow10 M) (pow10 M)) with true by (symmetry; now apply Reqb_spec). ring.
  Qed.
  Lemma tinker_ge1 : forall central M M1 Mcut x, pow10 M <= x -> 1 <= total_occupation (Tinker05 central M M1 Mcut) x.
  Proof.
    intros central M M1 Mcut x [H| <-]; [|rewrite tinker_at; lra]. rewrite tinker_above by auto. assert (0 < exp (- pow10 Mcut / (x - pow10 M)) * (x / pow10 M1)); [|lra].
    apply Rmult_lt_0_compat; [apply exp_pos|]. assert (A := pow10_pos M). apply Rdiv_lt_0_compat; [lra|apply pow10_pos].
  Qed.
  (** Tinker05: raising M_min lowers the satellite occupation at every mass *)
  Lemma tinker_decr : forall central M M' M1 Mcut x, pow10 M < pow10 M' -> pow10 M' <= x -> total_occupation (Tinker05 central M' M1 Mcut) x < total_occupation (Tinker05 central M M1 Mcut) x.
  Proof.
    intros central M M' M1 Mcut x L H. assert (A := pow10_pos M). assert (B := pow10_pos Mcut). assert (C := pow10_pos M1). rewrite (tinker_above central M) by lra. assert (D : 0 < x / pow10 M1) by (apply Rdiv_lt_0_compat; lra).
    destruct H as [H|H].
    - rewrite tinker_above by auto. apply Rplus_lt_compat_l. apply Rmult_lt_compat_r; auto. apply exp_increasing. unfold Rdiv. rewrite <- !Ropp_mult_distr_l. apply Ropp_lt_contravar. apply Rmult_lt_compat_l; auto.
      apply Rinv_lt_contravar; [apply Rmult_lt_0_compat; lra|lra].
    - rewrite <- H at 1. rewrite tinker_at. assert (0 < exp (- pow10 Mcut / (x - pow10 M)) * (x / pow10 M1)) by (apply Rmult_lt_0_compat; [apply exp_pos|auto]). lra.
  Qed.
  (** finding: for Tinker05 the solver counts satellites as if M_min were at the bottom of the grid; with the
      solved M_min there are strictly fewer, so the density obtained is strictly below the one requested *)
  Theorem c95_tinker05_refuted : forall central M1 Mcut i0, (0 < i0 < n - 1)%nat ->
    exists M, solve_for (Tinker05 central Mmin M1 Mcut) i0 = Ok M /\ pow10 M = m i0 /\
      density_from h (per_lnm (Tinker05 central M M1 Mcut)) n i0 < density_from h (per_lnm (Tinker05 central Mmin M1 Mcut)) n i0.
  Proof.
    intros central M1 Mcut i0 Hi. destruct GM as [_ [GP GI]]. assert (P0 : 0 < m i0) by (apply GP; lia). exists (log10 (m i0)). split; [|split; [now apply pow10_log10|]].
    - unfold solve_for. apply c94_exact_at_grid_masses; auto. intros i Hi2. unfold per_lnm. assert (Z := tinker_ge1 central Mmin M1 Mcut (m i) (above i Hi2)).
      apply Rmult_lt_0_compat; [apply Rmult_lt_0_compat; auto|lra].
    - assert (S : forall i, (i0 <= i < n)%nat -> per_lnm (Tinker05 central (log10 (m i0)) M1 Mcut) i < per_lnm (Tinker05 central Mmin M1 Mcut) i).
      { intros i Hi2. unfold per_lnm. apply Rmult_lt_compat_l; [apply Rmult_lt_0_compat; [apply GP|apply DP]; lia|]. apply tinker_decr; rewrite pow10_log10 by auto.
        - assert (m 0%nat < m i0) by (apply GI; lia). lra.
        - destruct (Nat.eq_dec i i0); [subst; lra|left; apply GI; lia]. }
      apply trap_lt_from; [intros i Hi2; left; now apply S|apply S; lia|lia].
  Qed.
End C95.

(** non-vacuity: linear interpolation meets both hypotheses about the spline *)
Fixpoint linterp (x y : list R) (t : R) : R :=
  match x, y with
  | a :: ((b :: _) as x'), u :: ((v :: _) as y') => if Rle_dec t b then u + (v - u) * ((t - a) / (b - a)) else linterp x' y' t
  | _, u :: _ => u
  | _, _ => 0
  end.
Lemma linterp_between : stays_between linterp.
Proof.
  intros x. induction x as [|a x IH]; intros y i t L Hi H T; [simpl in Hi; lia|]. destruct x as [|b x]; [simpl in Hi; lia|]. destruct y as [|u [|v y]]; try discriminate.
  assert (AB : a < b) by (apply (H 0%nat 1%nat); simpl; lia). cbn [linterp].
  assert (Q : a <= t -> t <= b -> 0 <= (t - a) / (b - a) <= 1).
  { intros T1 T2. split; [apply Rmult_le_pos; [lra|left; apply Rinv_0_lt_compat; lra]|]. apply Rmult_le_reg_r with (b - a); [lra|]. unfold Rdiv. rewrite Rmult_assoc, Rinv_l by lra. lra. }
  destruct i as [|i].
  - simpl in T. simpl nth. destruct (Rle_dec t b) as [K|K]; [|lra]. specialize (Q ltac:(lra) K). set (w := (t - a) / (b - a)) in *.
    unfold Rmin, Rmax. destruct (Rle_dec u v).
    + assert (0 <= (v - u) * w) by (apply Rmult_le_pos; lra). assert (0 <= (v - u) * (1 - w)) by (apply Rmult_le_pos; lra). lra.
    + assert (0 <= (u - v) * w) by (apply Rmult_le_pos; lra). assert (0 <= (u - v) * (1 - w)) by (apply Rmult_le_pos; lra). lra.
  - assert (B : b <= nth (S i) (a :: b :: x) 0). { destruct i as [|i]; [simpl; lra|]. left. apply (H 1%nat (S (S i))). simpl in Hi |- *. lia. }
    destruct (Rle_dec t b) as [K|K].
    + assert (E : t = b) by lra. assert (i = 0%nat). { destruct i as [|i]; auto. exfalso. assert (Z := H 1%nat (S (S i)) ltac:(simpl in Hi |- *; lia)). simpl nth in Z, B, T. destruct T as [T _]. lra. } subst i t. simpl nth.
      replace ((b - a) / (b - a)) with 1 by (field; lra). replace (u + (v - u) * 1) with v by ring. split; [apply Rmin_l|apply Rmax_l].
    + apply (IH (v :: y) i t); [simpl in L |- *; lia|simpl in Hi |- *; lia| |exact T]. intros p q Hpq. apply (H (S p) (S q)). simpl in Hpq |- *. lia.
Qed.
Lemma linterp_interpolates : interpolates_list linterp.
Proof.
  intros x. induction x as [|a x IH]; intros y i L Hi H; [simpl in Hi; lia|]. destruct y as [|u y]; [discriminate|]. destruct x as [|b x].
  - destruct i; [|simpl in Hi; lia]. destruct y; reflexivity.
  - destruct y as [|v y]; [discriminate|]. assert (AB : a < b) by (apply (H 0%nat 1%nat); simpl; lia). cbn [linterp]. destruct i as [|i].
    + simpl nth. destruct (Rle_dec a b); [|lra]. unfold Rdiv. replace (a - a) with 0 by ring. ring.
    + destruct i as [|i].
      * simpl nth. destruct (Rle_dec b b); [|lra]. replace ((b - a) / (b - a)) with 1 by (field; lra). ring.
      * assert (Z := H 1%nat (S (S i)) ltac:(simpl in Hi |- *; lia)). destruct (Rle_dec (nth (S (S i)) (a :: b :: x) 0) b) as [K|K]; [simpl in Z, K; lra|].
        apply (IH (v :: y) (S i)); [simpl in L |- *; lia|simpl in Hi |- *; lia|]. intros p q Hpq. apply (H (S p) (S q)). simpl in Hpq |- *. lia.
Qed.
Example c95_nonvacuous : interpolates_list linterp /\ stays_between linterp /\ grid 6 (fun i => INR (S i)) /\ pow10 0 <= INR 1 /\ (0 < 2 < 6 - 1)%nat.
Proof.
  split; [apply linterp_interpolates|]. split; [apply linterp_between|]. split; [|split; [rewrite pow10_0; simpl; lra|lia]]. split; [lia|]. split; [intros; apply lt_0_INR; lia|intros; apply lt_INR; lia].
Qed.
Example c94_nonvacuous : find_m_min_sharp linterp 6 6 2 (fun i => INR (S i)) (fun _ => 1) (density_from 2 (fun _ => 1) 6 2) = Ok (log10 (INR 3)) /\ density_from 2 (fun _ => 1) 6 2 = 6.
Proof.
  split; [|unfold density_from, trapezoid_rule; simpl; lra].
  exact (c94_exact_at_grid_masses linterp 6 6 2 (fun i => INR (S i)) (fun _ => 1) ltac:(lia) ltac:(lia) ltac:(lra) ltac:(intros; lra) linterp_interpolates 2%nat ltac:(lia)).
Qed.

(** non-vacuity of the smooth branch *)
Example c94_smooth_nonvacuous : let dens := smooth_density 3 1 (fun i => pow10 (11 + INR i)) (fun _ => 1) (fun M => Zheng05 true M 13 1 11 0.3) in
  exists mini M, finds_minimum mini (fun x => Rabs (dens x - dens 11)) /\
  find_m_min_smooth 3 1 (fun i => pow10 (11 + INR i)) (fun _ => 1) (fun M => Zheng05 true M 13 1 11 0.3) mini 11 (dens 11) = Ok M /\ dens M = dens 11.
Proof.
  intros dens. exists (fun _ _ => 11), 11. split; [|split; auto].
  - intros _ x. replace (dens 11 - dens 11) with 0 by ring. rewrite Rabs_R0. apply Rabs_pos.
  - destruct (proj2 (c94_smooth_exceeded_iff 3 1 (fun i => pow10 (11 + INR i)) (fun _ => 1) (fun M => Zheng05 true M 13 1 11 0.3) (fun _ _ => 11) 11 (dens 11)) (Rle_refl _)) as [M E].
    rewrite E. unfold find_m_min_smooth in E. destruct (Rltb _ _); [discriminate|]. congruence.
Qed.

Print Assumptions c94_exact_at_grid_masses.
Print Assumptions c94_brackets.
Print Assumptions c95_zehavi05.
Print Assumptions c95_tinker05_refuted.
Print Assumptions c94_smooth_zheng05.
Example c94_eight_met : (3 <= 3)%nat /\ (3 + 6 <= 9)%nat /\ density_from 1 (fun _ => 1) 9 (3 + 1) <= 9 / 2 < density_from 1 (fun _ => 1) 9 3.
Proof. repeat split; auto; unfold density_from, trapezoid_rule; cbn [Nat.sub Nat.add bigsum]; lra. Qed.

(** which method: the Zehavi05 family, Tinker05 and ContinuousPowerLaw are solved by inverting the cumulative density - no minimiser involved -, the others by
    minimisation, without a spline *)
Theorem c94_method : forall n nall h m dndm Mmin ng central M1 alpha M0 sig fca fcb fs delta x Mcut Mmax logA sigmaA (p : R -> spinelli_params),
  let spline_only hd := forall spl mi mi', find_m_min spl mi n nall h m dndm hd Mmin ng = find_m_min spl mi' n nall h m dndm hd Mmin ng /\
    find_m_min spl mi n nall h m dndm hd Mmin ng = find_m_min_sharp spl n nall h m (fun i => m i * dndm i * total_occupation (hd Mmin) (m i)) ng in
  let minimiser_only hd := forall spl spl' mi, find_m_min spl mi n nall h m dndm hd Mmin ng = find_m_min spl' mi n nall h m dndm hd Mmin ng /\
    find_m_min spl mi n nall h m dndm hd Mmin ng = find_m_min_smooth n h m dndm hd mi Mmin ng in
  spline_only (fun M => Zehavi05 central M M1 alpha) /\ spline_only (fun M => Zehavi05WithMax central M M1 alpha Mmax) /\ spline_only (fun M => Zehavi05Marked central M M1 logA alpha Mmax) /\
  spline_only (fun M => Tinker05 central M M1 Mcut) /\ spline_only (fun M => ContinuousPowerLaw central M M1 logA alpha Mmax sigmaA) /\
  minimiser_only (fun M => Zheng05 central M M1 alpha M0 sig) /\ minimiser_only (fun M => Contreras13 central M M1 alpha M0 sig fca fcb fs delta x) /\
  minimiser_only (fun M => Geach12 central M M1 alpha M0 sig fca fcb fs delta x) /\ minimiser_only (fun M => ConstantHOD central logA M sigmaA) /\ minimiser_only (fun M => Spinelli19 central (p M)).
Proof. intros. unfold spline_only, minimiser_only. repeat split. Qed.
Print Assumptions c94_method.
