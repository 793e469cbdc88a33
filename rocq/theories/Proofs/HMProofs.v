From Coq Require Import Reals List Bool Arith Lia Lra.
From Verif Require Import Model.RBool Model.SplineInt Model.ExtSpline Model.Exclusion Model.Profiles Model.HOD Model.HaloModel Model.Quad.
From Verif Require Import Spec.HMSpec Proofs.ExtSplineProofs Props.ExtSplineProps.
Import ListNotations.
Local Open Scope R_scope.

Lemma tab_arr : forall n f, tab n f = arr n f.
Proof. reflexivity. Qed.
Lemma tab_length : forall n f, length (tab n f) = n.
Proof. intros. unfold tab. now rewrite map_length, seq_length. Qed.
Lemma tab_in : forall n f v, In v (tab n f) <-> exists i, (i < n)%nat /\ v = f i.
Proof. intros. unfold tab. rewrite in_map_iff. split; intros [i [H1 H2]]; exists i; [rewrite in_seq in H2; split; [lia|auto]|split; [auto|rewrite in_seq; lia]]. Qed.
Lemma tab_nth : forall n f i d, (i < n)%nat -> nth i (tab n f) d = f i.
Proof. intros. unfold tab. rewrite (nth_indep _ d (f 0%nat)) by now rewrite map_length, seq_length. rewrite map_nth, seq_nth by auto. reflexivity. Qed.
Lemma tab_ext : forall n f g, (forall i, (i < n)%nat -> f i = g i) -> tab n f = tab n g.
Proof. intros. unfold tab. apply map_ext_in. intros i Hi. apply in_seq in Hi. apply H. lia. Qed.
Lemma tab_ne : forall n f, (0 < n)%nat -> tab n f <> [].
Proof. intros n f H. destruct n; [lia|]. simpl. discriminate. Qed.
Lemma tab_map : forall n f g, map g (tab n f) = tab n (fun i => g (f i)).
Proof. intros. unfold tab. now rewrite map_map. Qed.
Lemma xtf : forall n x f, xtimesf (tab n x) (tab n f) = tab n (fun i => x i * f i).
Proof. intros. unfold xtimesf, tab. induction (seq 0 n) as [|a t IH]; simpl; auto. now rewrite IH. Qed.
Lemma grid_mono : forall n x i j, grid n x -> (i <= j)%nat -> (j < n)%nat -> x i <= x j.
Proof. intros n x i j [_ [_ G]] H1 H2. destruct (Nat.eq_dec i j); [subst; lra|]. left. apply G. lia. Qed.
Lemma tab_lmin : forall n x, grid n x -> lmin (tab n x) = x 0%nat.
Proof.
  intros n x G. assert (N := tab_ne n x (proj1 G)). apply Rle_antisym.
  - apply lmin_lb, tab_in. exists 0%nat. split; auto. apply G.
  - assert (H := lmin_in _ N). apply tab_in in H. destruct H as [i [Hi ->]]. apply (grid_mono n); auto; lia.
Qed.
Lemma tab_lmax : forall n x, grid n x -> lmax (tab n x) = x (n - 1)%nat.
Proof.
  intros n x G. assert (N := tab_ne n x (proj1 G)). destruct G as [P [Q S]]. apply Rle_antisym.
  - assert (H := lmax_in _ N). apply tab_in in H. destruct H as [i [Hi ->]]. apply (grid_mono n); [repeat split; auto|lia|lia].
  - apply lmax_ub, tab_in. exists (n - 1)%nat. split; auto. lia.
Qed.
Lemma grid_ln : forall n x, grid n x -> lmin (tab n (fun i => ln (x i))) = ln (x 0%nat) /\ lmax (tab n (fun i => ln (x i))) = ln (x (n - 1)%nat).
Proof.
  intros n x G. assert (N : tab n (fun i => ln (x i)) <> []) by (apply tab_ne, G).
  assert (M : forall i j, (i <= j)%nat -> (j < n)%nat -> ln (x i) <= ln (x j)).
  { intros i j H1 H2. destruct (Nat.eq_dec i j); [subst; lra|]. left. apply ln_increasing; [apply G; lia|apply G; lia]. }
  destruct G as [P _]. split; apply Rle_antisym.
  - apply lmin_lb, tab_in. exists 0%nat. split; auto.
  - assert (H := lmin_in _ N). apply tab_in in H. destruct H as [i [Hi ->]]. apply M; lia.
  - assert (H := lmax_in _ N). apply tab_in in H. destruct H as [i [Hi ->]]. apply M; lia.
  - apply lmax_ub, tab_in. exists (n - 1)%nat. split; auto. lia.
Qed.

(** the limits of the mass integral *)
Definition lo_lim (h : dmhm) (xmin : option R) : R := ln (match xmin with Some v => v | None => d_m h 0%nat end).
Definition hi_lim (h : dmhm) : R := ln (d_m h (d_nm h - 1)%nat).
Lemma mint_eq : forall I h f xmin, grid (d_nm h) (d_m h) ->
  mint I h f xmin = I (arr (d_nm h) (fun i => ln (d_m h i))) (arr (d_nm h) (fun i => d_m h i * f i)) (lo_lim h xmin) (hi_lim h).
Proof.
  intros I h f xmin G. unfold mint, spline_integral, lo_lim, hi_lim. simpl. rewrite xtf, tab_map, tab_lmin, tab_lmax by auto.
  destruct xmin; reflexivity.
Qed.
Lemma arr_ext : forall n f g, (forall i, (i < n)%nat -> f i = g i) -> arr n f = arr n g.
Proof. exact tab_ext. Qed.
Lemma mint_ext : forall I h f g xmin, (forall i, (i < d_nm h)%nat -> f i = g i) -> mint I h f xmin = mint I h g xmin.
Proof. intros I h f g xmin H. unfold mint. rewrite (tab_ext _ f g H). reflexivity. Qed.
Lemma mint_lin : forall I h f g c xmin, q_linear I -> grid (d_nm h) (d_m h) ->
  mint I h (fun i => f i + c * g i) xmin = mint I h f xmin + c * mint I h g xmin.
Proof.
  intros I h f g c xmin L G. rewrite !mint_eq by auto. rewrite <- L. f_equal. apply arr_ext. intros. ring.
Qed.
Lemma mint_plus : forall I h f g xmin, q_linear I -> grid (d_nm h) (d_m h) -> mint I h (fun i => f i + g i) xmin = mint I h f xmin + mint I h g xmin.
Proof. intros I h f g xmin L G. rewrite <- (Rmult_1_l (mint I h g xmin)), <- (mint_lin I h f g 1) by auto. apply mint_ext. intros. ring. Qed.
Lemma mint_zero : forall I h xmin, q_linear I -> grid (d_nm h) (d_m h) -> mint I h (fun _ => 0) xmin = 0.
Proof. intros I h xmin L G. assert (H := mint_lin I h (fun _ => 0) (fun _ => 0) 1 xmin L G). cbv beta in H. replace (mint I h (fun _ => 0 + 1 * 0) xmin) with (mint I h (fun _ => 0) xmin) in H by (apply mint_ext; intros; ring). lra. Qed.
Lemma mint_scal : forall I h g c xmin, q_linear I -> grid (d_nm h) (d_m h) -> mint I h (fun i => c * g i) xmin = c * mint I h g xmin.
Proof.
  intros I h g c xmin L G. assert (H := mint_lin I h (fun _ => 0) g c xmin L G). rewrite mint_zero in H by auto. rewrite <- (Rplus_0_l (c * mint I h g xmin)), <- H. apply mint_ext. intros. ring.
Qed.
Definition xmin_ok (h : dmhm) (xmin : option R) : Prop := match xmin with Some v => 0 < v <= d_m h (d_nm h - 1)%nat | None => True end.
Lemma lims_ok : forall h xmin, grid (d_nm h) (d_m h) -> xmin_ok h xmin -> lo_lim h xmin <= hi_lim h.
Proof.
  intros h xmin G X. unfold lo_lim, hi_lim. assert (0 < d_nm h)%nat by apply G.
  assert (K : forall a b, 0 < a <= b -> ln a <= ln b). { intros a b [H1 [H2|H2]]; [left; now apply ln_increasing|subst; lra]. }
  destruct xmin as [v|]; simpl in X; apply K; auto. split; [apply G; auto|]. apply (grid_mono (d_nm h)); auto; lia.
Qed.
Lemma mint_pos : forall I h f xmin, q_positive I -> grid (d_nm h) (d_m h) -> xmin_ok h xmin -> (forall i, (i < d_nm h)%nat -> 0 <= f i) -> 0 <= mint I h f xmin.
Proof.
  intros I h f xmin P G X F. rewrite mint_eq by auto. apply P; [now apply lims_ok|]. intros i Hi. apply Rmult_le_pos; [left; now apply G|auto].
Qed.
Lemma mint_le : forall I h f g xmin, q_linear I -> q_positive I -> grid (d_nm h) (d_m h) -> xmin_ok h xmin ->
  (forall i, (i < d_nm h)%nat -> f i <= g i) -> mint I h f xmin <= mint I h g xmin.
Proof.
  intros I h f g xmin L P G X F. assert (H := mint_pos I h (fun i => g i + -1 * f i) xmin P G X). rewrite mint_lin in H by auto.
  assert (0 <= mint I h g xmin + -1 * mint I h f xmin) by (apply H; intros i Hi; specialize (F i Hi); lra). lra.
Qed.

(** the witness quadrature *)
Lemma step_lin : forall n x f g c t k, stepF (map x (seq k n)) (map (fun i => f i + c * g i) (seq k n)) t = stepF (map x (seq k n)) (map f (seq k n)) t + c * stepF (map x (seq k n)) (map g (seq k n)) t.
Proof.
  intros n x f g c t. induction n as [|n IH]; intros k; simpl; [ring|]. destruct n as [|n]; [simpl; ring|].
  specialize (IH (S k)). simpl in IH |- *. rewrite IH. ring.
Qed.
Lemma step_quad_linear : q_linear step_quad.
Proof. intros n x f g c a b. unfold step_quad, arr. rewrite !step_lin. ring. Qed.
Lemma step_quad_positive : q_positive step_quad.
Proof.
  intros n x f a b H F. unfold step_quad, arr.
  assert (K : forall n k, (forall i, (k <= i < k + n)%nat -> 0 <= f i) -> stepF (map x (seq k n)) (map f (seq k n)) a <= stepF (map x (seq k n)) (map f (seq k n)) b).
  { clear F n. induction n as [|n IH]; intros k F; simpl; [lra|]. destruct n as [|n]; [simpl; lra|].
    specialize (IH (S k)). simpl in IH |- *. apply Rplus_le_compat; [|apply IH; intros; apply F; lia].
    apply Rmult_le_compat_l; [apply F; lia|]. apply Rmax_lub; [apply Rmax_l|]. eapply Rle_trans; [|apply Rmax_r]. apply Rmin_glb; [eapply Rle_trans; [apply Rmin_l|auto]|apply Rmin_r]. }
  specialize (K n 0%nat). assert (Q : stepF (map x (seq 0 n)) (map f (seq 0 n)) a <= stepF (map x (seq 0 n)) (map f (seq 0 n)) b) by (apply K; intros; apply F; lia). lra.
Qed.
Lemma step_quad_additive : q_additive step_quad.
Proof. intros x y a b c. unfold step_quad. ring. Qed.
Lemma step_below : forall x y a b, (forall v, In v x -> a <= v) -> (forall v, In v x -> b <= v) -> stepF x y a = stepF x y b.
Proof.
  induction x as [|u x IH]; intros y a b Ha Hb; simpl; auto. destruct x as [|w x]; auto. destruct y as [|v y]; auto.
  rewrite (IH y a b) by (intros; (apply Ha || apply Hb); simpl; auto). f_equal. f_equal.
  rewrite (Rmin_left a w) by (apply Ha; simpl; auto). rewrite (Rmin_left b w) by (apply Hb; simpl; auto).
  rewrite !Rmax_left; auto; [apply Hb|apply Ha]; simpl; auto.
Qed.
Lemma step_above : forall x y a b, (forall v, In v x -> v <= a) -> (forall v, In v x -> v <= b) -> stepF x y a = stepF x y b.
Proof.
  induction x as [|u x IH]; intros y a b Ha Hb; simpl; auto. destruct x as [|w x]; auto. destruct y as [|v y]; auto.
  rewrite (IH y a b) by (intros; (apply Ha || apply Hb); simpl; auto). f_equal. f_equal.
  rewrite (Rmin_right a w) by (apply Ha; simpl; auto). rewrite (Rmin_right b w) by (apply Hb; simpl; auto). reflexivity.
Qed.
Lemma step_quad_zero_outside : q_zero_outside step_quad.
Proof.
  intros x y b. unfold step_quad. split.
  - intros a H. rewrite (step_below x y a (lmin x)); auto; intros v Hv; [eapply Rle_trans; [exact H|]|]; now apply lmin_lb.
  - intros a H1 H2. rewrite (step_above x y b a); [ring| |]; intros v Hv; eapply Rle_trans; try (now apply lmax_ub, Hv); auto.
Qed.

(** extended splines at and outside their tables *)
Lemma efun_cases : forall spline uspline x y lo up ml f, efun spline uspline x y lo up ml = Ok f ->
  exists s, ext_spline_init spline uspline x y lo up ml true None None 3 10 10 = CtorOk s /\ f = call_scalar s.
Proof.
  intros spline uspline x y lo up ml f H. unfold efun in H. destruct (ext_spline_init _ _ _ _ _ _ _ _ _ _ _ _ _) as [s| |]; try discriminate. injection H as <-. eauto.
Qed.
Lemma efun_node : forall spline uspline n x y lo up ml f i, interpolates (spline 3%nat) -> grid n x -> (i < n)%nat ->
  efun spline uspline (tab n x) (tab n y) lo up ml = Ok f -> f (x i) = y i.
Proof.
  intros spline uspline n x y lo up ml f i S G Hi H. apply efun_cases in H. destruct H as [s [H ->]].
  destruct (extended_spline_piecewise _ _ _ _ _ _ _ _ _ _ _ _ _ _ H) as [P _]. rewrite P; [now apply S|].
  rewrite tab_lmin, tab_lmax by auto. split; apply (grid_mono n); auto; lia.
Qed.
Lemma gef_zero : forall us spl xs ys m mx, get_extension_func us spl (ExtCallable zero_ext) xs ys m mx = ExtOk false zero_ext.
Proof. intros. simpl. destruct (negb m); auto. unfold zero_ext at 1. replace (Reqb 0 0) with true by (symmetry; now apply Reqb_spec). reflexivity. Qed.
Lemma efun_above_zero : forall spline uspline n x y lo ml f t, grid n x -> x (n - 1)%nat < t ->
  efun spline uspline (tab n x) (tab n y) lo (ExtCallable zero_ext) ml = Ok f -> f t = 0.
Proof.
  intros spline uspline n x y lo ml f t G Ht H. apply efun_cases in H. destruct H as [s [H ->]].
  unfold ext_spline_init in H. rewrite gef_zero in H. cbv beta iota zeta delta [orb] in H. destruct (get_extension_func _ _ lo _ _ _ _) as [w lf| |]; try discriminate.
  injection H as <-.
  unfold call_scalar; simpl. assert (T := tab_lmin n x G). assert (T' := tab_lmax n x G). rewrite T, T'.
  assert (x 0%nat <= x (n - 1)%nat) by (apply (grid_mono n); auto; [lia|]; destruct G; lia).
  replace (Rltb t (x 0%nat)) with false by (symmetry; apply Rltb_false; lra). replace (Rltb (x (n - 1)%nat) t) with true by (symmetry; now apply Rltb_spec). reflexivity.
Qed.
Lemma efun_below_zero : forall spline uspline n x y up ml f t, grid n x -> t < x 0%nat ->
  efun spline uspline (tab n x) (tab n y) (ExtCallable zero_ext) up ml = Ok f -> f t = 0.
Proof.
  intros spline uspline n x y up ml f t G Ht H. apply efun_cases in H. destruct H as [s [H ->]].
  unfold ext_spline_init in H. rewrite gef_zero in H. cbv beta iota zeta delta [orb] in H.
  destruct (get_extension_func _ _ up _ _ _ _) as [w uf| |]; try discriminate; injection H as <-.
  unfold call_scalar; simpl; rewrite (tab_lmin n x G); replace (Rltb t (x 0%nat)) with true by (symmetry; now apply Rltb_spec); reflexivity.
Qed.
