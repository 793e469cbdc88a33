(** Extended splines outside their tables. *)
From Coq Require Import Reals List Bool Arith Lia Lra.
From Verif Require Import Model.RBool Model.ExtSpline Model.Profiles Model.HaloModel Spec.HMSpec Spec.TailSpec Proofs.HMProofs.
Import ListNotations.
Local Open Scope R_scope.

Lemma chord_lines : reproduces_lines chord.
Proof.
  intros m z a b t Hm Hz. destruct m as [|[|m]]; try lia. unfold arr. simpl. assert (z 0%nat < z 1%nat) by (apply Hz; lia). field. lra.
Qed.
Lemma skipn_seq_ : forall j s n, skipn j (seq s n) = seq (s + j) (n - j).
Proof.
  induction j; intros s n; simpl; [now rewrite Nat.add_0_r, Nat.sub_0_r|]. destruct n; simpl; auto. rewrite IHj. f_equal. lia.
Qed.
Lemma seq_arr : forall (f : nat -> R) s n, map f (seq s n) = arr n (fun i => f (s + i)%nat).
Proof.
  intros f s n. unfold arr. revert s. induction n; intros s; simpl; auto. rewrite Nat.add_0_r. f_equal. rewrite IHn. rewrite <- seq_shift, map_map. apply map_ext. intros. f_equal. lia.
Qed.
Lemma last_slice : forall n x, (0 < n)%nat -> py_last 10 (tab n x) = arr (Nat.min 10 n) (fun i => x (n - Nat.min 10 n + i)%nat).
Proof.
  intros n x Hn. unfold py_last. rewrite tab_length. unfold tab. rewrite skipn_map, skipn_seq_, seq_arr. replace (n - (n - 10))%nat with (Nat.min 10 n) by lia. unfold arr. apply map_ext. intros. f_equal. lia.
Qed.
Lemma firstn_seq_ : forall j s n, firstn j (seq s n) = seq s (Nat.min j n).
Proof. induction j; intros s [|n]; simpl; auto. now rewrite IHj. Qed.
Lemma first_slice : forall n x, firstn 10 (tab n x) = arr (Nat.min 10 n) x.
Proof. intros. unfold tab. now rewrite firstn_map, firstn_seq_. Qed.
Lemma arr_in : forall n f v, In v (arr n f) <-> exists i, (i < n)%nat /\ v = f i.
Proof. intros. rewrite <- tab_arr. apply tab_in. Qed.
Lemma forallb_false_ex : forall (l : list R) p, forallb p l = false -> exists v, In v l /\ p v = false.
Proof. induction l; intros p H; simpl in *; [discriminate|]. destruct (p a) eqn:E; simpl in H; [destruct (IHl _ H) as [v [? ?]]; eauto|eauto]. Qed.
Lemma gef_pl : forall us spl m z w b mx wn f x, reproduces_lines us -> (2 <= m)%nat -> (forall i, (i < m)%nat -> 0 < z i) -> (forall i j, (i < j < m)%nat -> z i < z j) -> 0 < x ->
  get_extension_func us spl ExtPowerLaw (arr m z) (arr m w) b mx = ExtOk wn f ->
  (forall A p, 0 < A -> (forall i, (i < m)%nat -> w i = A * Rpower (z i) p) -> f x = A * Rpower x p) /\
  ((exists i, (i < m)%nat /\ w i <= 0) -> f x = 0) /\ ((forall i, (i < m)%nat -> 0 < w i) -> 0 < f x).
Proof.
  intros us spl m z w b mx wn f x L Hm Hz Hi Hx H. simpl in H.
  replace (forallb (fun v => Rltb 0 v) (arr m z)) with true in H.
  2: { symmetry. apply forallb_forall. intros v Hv. apply arr_in in Hv. destruct Hv as [i [Hi' ->]]. apply Rltb_spec; auto. }
  simpl in H. 
  assert (POS : (forall i, (i < m)%nat -> 0 < w i) -> f = power_law_extension (us (map ln (arr m z)) (map (fun v => ln (v * 1)) (arr m w))) false).
  { intros P. replace (forallb (fun v => Rltb 0 v) (arr m w)) with true in H.
    2: { symmetry. apply forallb_forall. intros v Hv. apply arr_in in Hv. destruct Hv as [i [Hi' ->]]. apply Rltb_spec; auto. }
    destruct m as [|m]; [lia|]. assert (W0 := P 0%nat ltac:(lia)). unfold arr in H; simpl in H. 
    replace (Rltb (w 0%nat) 0) with false in H by (symmetry; apply Rltb_false; lra). simpl in H. injection H as _ <-. unfold arr; simpl. reflexivity. }
  split; [|split].
  - intros A p HA E. rewrite POS. 2: { intros i Hi'. rewrite E by auto. apply Rmult_lt_0_compat; auto. apply exp_pos. }
    unfold power_law_extension. unfold arr. rewrite !map_map. fold (arr m (fun i => ln (z i))).
    replace (map (fun x0 => ln (w x0 * 1)) (seq 0 m)) with (arr m (fun i => ln A + p * ln (z i))).
    2: { unfold arr. apply map_ext_in. intros i Hi'. apply in_seq in Hi'. rewrite Rmult_1_r, E by lia. rewrite ln_mult by (auto; apply exp_pos). unfold Rpower. now rewrite ln_exp. }
    rewrite L; auto. 2: { intros i j Hij. apply ln_increasing; [apply Hz; lia|now apply Hi]. }
    rewrite exp_plus, exp_ln by auto. unfold Rpower. ring.
  - intros [i [Hi' Hw]]. replace (forallb (fun v => Rltb 0 v) (arr m w)) with false in H.
    2: { symmetry. apply not_true_iff_false. rewrite forallb_forall. intros K. assert (Q := K (w i)). rewrite Rltb_spec in Q. assert (0 < w i); [|lra]. apply Q. apply arr_in. eauto. }
    simpl in H. injection H as _ <-. reflexivity.
  - intros P. rewrite (POS P). unfold power_law_extension. rewrite Rmult_1_r. apply exp_pos.
Qed.
Section E.
  Variables (sp : nat -> list R -> list R -> R -> R) (us : list R -> list R -> R -> R) (n : nat) (x y : nat -> R).
  Hypothesis G : grid n x.
  Lemma efun_above : forall lo up ml f t, efun sp us (tab n x) (tab n y) lo up ml = Ok f -> x (n - 1)%nat < t ->
    exists w uf, get_extension_func us (sp 3%nat (tab n x) (tab n y)) up (py_last 10 (tab n x)) (py_last 10 (tab n y)) true (x (n - 1)%nat) = ExtOk w uf /\ f t = uf t.
  Proof.
    intros lo up ml f t H Ht. apply efun_cases in H. destruct H as [s [H ->]]. unfold ext_spline_init in H. cbv beta iota zeta delta [orb] in H.
    destruct (get_extension_func us _ lo _ _ _ _) as [w lf| |]; try discriminate.
    rewrite (tab_lmax n x G) in H. destruct (get_extension_func us _ up _ _ _ _) as [w2 uf| |]; try discriminate. injection H as <-. exists w2, uf. split; auto.
    unfold call_scalar; simpl. rewrite (tab_lmin n x G). assert (x 0%nat <= x (n - 1)%nat) by (apply (grid_mono n); auto; [lia|]; destruct G; lia).
    replace (Rltb t (x 0%nat)) with false by (symmetry; apply Rltb_false; lra). replace (Rltb (x (n - 1)%nat) t) with true by (symmetry; now apply Rltb_spec). reflexivity.
  Qed.
  Lemma efun_below : forall lo up ml f t, efun sp us (tab n x) (tab n y) lo up ml = Ok f -> t < x 0%nat ->
    exists w lf, get_extension_func us (sp 3%nat (tab n x) (tab n y)) lo (firstn 10 (tab n x)) (firstn 10 (tab n y)) ml (x 0%nat) = ExtOk w lf /\ f t = lf t.
  Proof.
    intros lo up ml f t H Ht. apply efun_cases in H. destruct H as [s [H ->]]. unfold ext_spline_init in H. cbv beta iota zeta delta [orb] in H.
    rewrite (tab_lmin n x G) in H.
    destruct (get_extension_func us _ lo _ _ _ _) as [w lf| |] eqn:E; try discriminate.
    destruct (get_extension_func us _ up _ _ _ _) as [w2 uf| |]; try discriminate. injection H as <-. exists w, lf. split; auto.
    unfold call_scalar; simpl. replace (Rltb t (x 0%nat)) with true by (symmetry; now apply Rltb_spec). reflexivity.
  Qed.
  Hypothesis Hs : interpolates (sp 3%nat).
  Lemma n0 : (0 < n)%nat. Proof. apply G. Qed.
  Lemma s0 : sp 3%nat (tab n x) (tab n y) (x 0%nat) = y 0%nat. Proof. apply Hs; auto. apply n0. Qed.
  Lemma efun_flat_head : forall up ml f, efun sp us (tab n x) (tab n y) ExtBoundary up ml = Ok f -> flat_head x f.
  Proof.
    intros up ml f H t Ht. destruct (efun_below _ _ _ _ _ H Ht) as [w [lf [E ->]]]. simpl in E. injection E as _ <-.
    rewrite (efun_node _ _ _ _ _ _ _ _ _ 0%nat Hs G n0 H). unfold boundary_extension. rewrite s0. ring.
  Qed.
  Lemma efun_proportional_head : forall g up f, efun sp us (tab n x) (tab n y) (ExtCallable g) up true = Ok f -> proportional_head g x f.
  Proof.
    intros g up f H Hg t Ht. destruct (efun_below _ _ _ _ _ H Ht) as [w [lf [E ->]]]. simpl in E.
    replace (Reqb (g (x 0%nat)) 0) with false in E. 2: { symmetry. apply not_true_iff_false. rewrite Reqb_spec. auto. }
    injection E as _ <-. rewrite (efun_node _ _ _ _ _ _ _ _ _ 0%nat Hs G n0 H). unfold normed_callable. rewrite s0. field. auto.
  Qed.
  Hypothesis L : reproduces_lines us.
  Hypothesis N2 : (2 <= n)%nat.
  Lemma efun_pl_tail : forall lo ml f, efun sp us (tab n x) (tab n y) lo ExtPowerLaw ml = Ok f -> power_law_tail n x f.
  Proof.
    intros lo ml f H t Ht. destruct (efun_above _ _ _ _ _ H Ht) as [w [uf [E F]]]. rewrite !last_slice in E by apply n0. set (m := Nat.min 10 n) in *.
    assert (Hm : (2 <= m <= n)%nat) by lia. assert (Hm' : (n - m <= n - 10)%nat) by (unfold m; lia).
    assert (Z1 : forall i, (i < m)%nat -> 0 < x (n - m + i)%nat) by (intros; apply G; lia). assert (Z2 : forall i j, (i < j < m)%nat -> x (n - m + i)%nat < x (n - m + j)%nat) by (intros; apply G; lia).
    assert (T0 : 0 < t). { assert (0 < x (n - 1)%nat) by (apply G; lia). lra. }
    destruct (gef_pl _ _ _ _ _ _ _ _ _ t L (proj1 Hm) Z1 Z2 T0 E) as [A [B C]].
    assert (V : forall i, (i < n)%nat -> f (x i) = y i) by (intros i Hi; exact (efun_node _ _ _ _ _ _ _ _ _ i Hs G Hi H)).
    rewrite <- F in A, B, C. split; [|split].
    - intros a p Ha K. apply A; auto. intros i Hi. rewrite <- V by lia. apply K. split; lia.
    - intros [i [[I1 I2] K]]. apply B. assert (J : (n - m <= i)%nat) by lia. exists (i - (n - m))%nat. split; [lia|]. replace (n - m + (i - (n - m)))%nat with i by lia. rewrite V in K by lia. auto.
    - intros K. apply C. intros i Hi. rewrite <- V by lia. apply K. split; lia.
  Qed.
  Lemma efun_pl_head : forall up ml f, efun sp us (tab n x) (tab n y) ExtPowerLaw up ml = Ok f -> power_law_head n x f.
  Proof.
    intros up ml f H t [T0 Ht]. destruct (efun_below _ _ _ _ _ H Ht) as [w [uf [E F]]]. rewrite !first_slice in E. set (m := Nat.min 10 n) in *.
    assert (Hm : (2 <= m <= n)%nat) by lia. assert (Z1 : forall i, (i < m)%nat -> 0 < x i) by (intros; apply G; lia). assert (Z2 : forall i j, (i < j < m)%nat -> x i < x j) by (intros; apply G; lia).
    destruct (gef_pl _ _ _ _ _ _ _ _ _ t L (proj1 Hm) Z1 Z2 T0 E) as [A [B C]].
    assert (V : forall i, (i < n)%nat -> f (x i) = y i) by (intros i Hi; exact (efun_node _ _ _ _ _ _ _ _ _ i Hs G Hi H)).
    rewrite <- F in A, B, C. split; [|split].
    - intros a p Ha K. apply A; auto. intros i Hi. rewrite <- V by lia. apply K. split; unfold m in *; lia.
    - intros [i [[I1 I2] K]]. apply B. exists i. split; [lia|]. rewrite V in K by lia. auto.
    - intros K. apply C. intros i Hi. rewrite <- V by lia. apply K. split; lia.
  Qed.
End E.
