(** C51-C53 and C86-C88: concentration-mass relations. *)
From Coq Require Import Reals Lra Lia Bool Psatz String List Sorting.Sorted.
From Coquelicot Require Import Coquelicot.
From Verif Require Import Model.RBool Model.SpecialFn Model.HODFloat Model.Profiles Model.Concentration Proofs.Calc Proofs.HODProofs Proofs.BiasProofs Proofs.InterpProofs Proofs.ExtSplineProofs Proofs.ProfileProofs3.
Import ListNotations.
Local Open Scope R_scope.

Lemma rp_pos : forall x y, 0 < Rpower x y.
Proof. intros. apply exp_pos. Qed.
Lemma rp_dec : forall x y b, 0 < x < y -> b < 0 -> Rpower y b < Rpower x b.
Proof. intros. unfold Rpower. apply exp_increasing. assert (ln x < ln y) by (apply ln_increasing; lra). nra. Qed.
Lemma rp_inc : forall x y b, 0 < x < y -> 0 < b -> Rpower x b < Rpower y b.
Proof. intros. unfold Rpower. apply exp_increasing. assert (ln x < ln y) by (apply ln_increasing; lra). nra. Qed.

(** ** C51 *)
Lemma bp_some : forall norm a b c ms mnl m z, ms <> 0 ->
  bullock01power norm a b c (Some ms) mnl m z = Fin (norm * (a / Rpower (1 + z) c * Rpower (m / ms) b)).
Proof.
  intros. unfold bullock01power, truthy. assert (E : Reqb ms 0 = false) by now apply Reqb_false. rewrite E. simpl. unfold power_cm. rewrite E. reflexivity.
Qed.
Lemma bp_none : forall norm a b c ms mnl m z, truthy ms = false -> mnl z <> 0 ->
  bullock01power norm a b c ms mnl m z = bullock01power norm a b c (Some (mnl z)) mnl m z.
Proof. intros norm a b c ms mnl m z T H. rewrite bp_some by auto. unfold bullock01power. rewrite T. unfold power_cm. replace (Reqb (mnl z) 0) with false by (symmetry; now apply Reqb_false). reflexivity. Qed.
Theorem c51_positive_power_law : forall norm a b c ms mnl m z, 0 < norm -> 0 < a -> 0 < ms -> 0 < m ->
  exists v, bullock01power norm a b c (Some ms) mnl m z = Fin v /\ 0 < v /\
    forall lam, 0 < lam -> bullock01power norm a b c (Some ms) mnl (lam * m) z = Fin (Rpower lam b * v).
Proof.
  intros norm a b c ms mnl m z Hn Ha Hms Hm. rewrite bp_some by lra. eexists. split; [reflexivity|]. split.
  - repeat apply Rmult_lt_0_compat; auto; try apply rp_pos. apply Rinv_0_lt_compat, rp_pos.
  - intros lam Hl. rewrite bp_some by lra. f_equal. replace (lam * m / ms) with (lam * (m / ms)) by (field; lra).
    rewrite <- Rpower_mult_distr by (auto; apply Rdiv_lt_0_compat; auto). ring.
Qed.
Theorem c51_decreasing_in_mass : forall norm a b c ms mnl m1 m2 z, 0 < norm -> 0 < a -> 0 < ms -> b < 0 -> 0 < m1 < m2 ->
  exists v1 v2, bullock01power norm a b c (Some ms) mnl m1 z = Fin v1 /\ bullock01power norm a b c (Some ms) mnl m2 z = Fin v2 /\ v2 < v1.
Proof.
  intros. rewrite !bp_some by lra. do 2 eexists. split; [reflexivity|]. split; [reflexivity|].
  apply Rmult_lt_compat_l; auto. apply Rmult_lt_compat_l; [apply Rdiv_lt_0_compat; auto; apply rp_pos|].
  apply rp_dec; auto. assert (0 < / ms) by now apply Rinv_0_lt_compat. unfold Rdiv. split; [apply Rmult_lt_0_compat; lra|apply Rmult_lt_compat_r; lra].
Qed.
Theorem c51_decreasing_in_redshift : forall norm a b c ms mnl m z1 z2, 0 < norm -> 0 < a -> 0 < ms -> 0 < c -> 0 < m -> 0 <= z1 < z2 ->
  exists v1 v2, bullock01power norm a b c (Some ms) mnl m z1 = Fin v1 /\ bullock01power norm a b c (Some ms) mnl m z2 = Fin v2 /\ v2 < v1.
Proof.
  intros. rewrite !bp_some by lra. do 2 eexists. split; [reflexivity|]. split; [reflexivity|].
  apply Rmult_lt_compat_l; auto. apply Rmult_lt_compat_r; [apply rp_pos|]. apply Rmult_lt_compat_l; auto.
  apply Rinv_lt_contravar; [apply Rmult_lt_0_compat; apply rp_pos|]. apply rp_inc; lra.
Qed.
(** without a pivot mass (or with ms = 0) the nonlinear mass at z is the pivot; when its
    minimisation fails (it then returns 0) the concentration of every halo is 0 (b < 0),
    independent of its mass (b = 0) or infinite with the sign of norm * a (b > 0; NaN if norm * a = 0), and no error is raised *)
Theorem c51_default_pivot : forall norm a b c ms mnl m z, ms = None \/ ms = Some 0 ->
  (mnl z <> 0 -> bullock01power norm a b c ms mnl m z = bullock01power norm a b c (Some (mnl z)) mnl m z) /\
  (mnl z = 0 -> b < 0 -> bullock01power norm a b c ms mnl m z = Fin 0) /\
  (mnl z = 0 -> b = 0 -> bullock01power norm a b c ms mnl m z = Fin (norm * (a / Rpower (1 + z) c))) /\
  (mnl z = 0 -> 0 < b -> (0 < norm * a -> bullock01power norm a b c ms mnl m z = PInf) /\ (norm * a < 0 -> bullock01power norm a b c ms mnl m z = NInf) /\
                         (norm * a = 0 -> bullock01power norm a b c ms mnl m z = NaN)).
Proof.
  intros norm a b c ms mnl m z H. assert (T : truthy ms = false).
  { destruct H; subst; simpl; auto. replace (Reqb 0 0) with true; auto. symmetry. now apply Reqb_spec. }
  assert (Z : Reqb 0 0 = true) by now apply Reqb_spec.
  split; [intros K; now apply bp_none|]. split; [|split]; intros K Hb; unfold bullock01power; rewrite T, K; unfold power_cm; rewrite Z.
  - replace (Rltb b 0) with true by (symmetry; now apply Rltb_spec). unfold scale_f, np_mul. f_equal. ring.
  - replace (Rltb b 0) with false by (symmetry; apply Rltb_false; lra). replace (Reqb b 0) with true by (symmetry; now apply Reqb_spec). unfold scale_f, np_mul. f_equal. ring.
  - replace (Rltb b 0) with false by (symmetry; apply Rltb_false; lra). replace (Reqb b 0) with false by (symmetry; apply Reqb_false; lra).
    assert (R := rp_pos (1 + z) c). assert (RI : 0 < / Rpower (1 + z) c) by now apply Rinv_0_lt_compat.
    assert (N0 : forall t, t <> 0 -> Reqb t 0 = false) by (intros; now apply Reqb_false). assert (P1 : forall t, 0 < t -> Rltb 0 t = true) by (intros; now apply Rltb_spec). assert (P0 : forall t, t < 0 -> Rltb 0 t = false) by (intros; apply Rltb_false; lra).
    unfold scale_f, np_mul, Rdiv. destruct (Rtotal_order a 0) as [A|[A|A]].
    + assert (Q : a * / Rpower (1 + z) c < 0) by nra. rewrite (N0 (a * / Rpower (1 + z) c)), (P0 (a * / Rpower (1 + z) c)) by lra. destruct (Rtotal_order norm 0) as [B|[B|B]].
      * rewrite (N0 norm), (P0 norm) by lra. repeat split; intros; auto; nra.
      * subst norm. rewrite Z. repeat split; intros; auto; lra.
      * rewrite (N0 norm), (P1 norm) by lra. repeat split; intros; auto; nra.
    + subst a. rewrite !Rmult_0_l, Z. repeat split; intros; auto; lra.
    + assert (Q : 0 < a * / Rpower (1 + z) c) by nra. rewrite (N0 (a * / Rpower (1 + z) c)), (P1 (a * / Rpower (1 + z) c)) by lra. destruct (Rtotal_order norm 0) as [B|[B|B]].
      * rewrite (N0 norm), (P0 norm) by lra. repeat split; intros; auto; nra.
      * subst norm. rewrite Z. repeat split; intros; auto; lra.
      * rewrite (N0 norm), (P1 norm) by lra. repeat split; intros; auto; nra.
Qed.
Theorem c51_maccio07 : forall norm c0 gamma m1 m2 z, 0 < norm -> 0 < c0 -> 0 < m1 < m2 ->
  0 < maccio07 norm c0 gamma m2 z < maccio07 norm c0 gamma m1 z /\
  (forall lam, 0 < lam -> maccio07 norm c0 gamma (lam * m1) z = Rpower lam (-0.109) * maccio07 norm c0 gamma m1 z) /\
  (0 < gamma -> forall z1 z2, 0 <= z1 < z2 -> maccio07 norm c0 gamma m1 z2 < maccio07 norm c0 gamma m1 z1).
Proof.
  intros norm c0 gamma m1 m2 z Hn Hc Hm. unfold maccio07, Rdiv.
  assert (T : 0 < Rpower 10 (-11)) by apply rp_pos. assert (nc : 0 < norm * c0) by now apply Rmult_lt_0_compat.
  assert (G : forall z, 0 < / Rpower (1 + z) gamma) by (intros; apply Rinv_0_lt_compat, rp_pos).
  repeat split.
  - apply Rmult_lt_0_compat; auto. apply Rmult_lt_0_compat; [|lra]. apply Rmult_lt_0_compat; auto. apply rp_pos.
  - apply Rmult_lt_compat_r; auto. apply Rmult_lt_compat_r; [lra|]. apply Rmult_lt_compat_l; auto. apply rp_dec; [|lra].
    split; [apply Rmult_lt_0_compat; lra|apply Rmult_lt_compat_r; lra].
  - intros lam Hl. replace (lam * m1 * Rpower 10 (-11)) with (lam * (m1 * Rpower 10 (-11))) by ring.
    rewrite <- Rpower_mult_distr by (auto; apply Rmult_lt_0_compat; lra). ring.
  - intros Hg z1 z2 Hz. apply Rmult_lt_compat_l; [apply Rmult_lt_0_compat; [|lra]; apply Rmult_lt_0_compat; auto; apply rp_pos|].
    apply Rinv_lt_contravar; [apply Rmult_lt_0_compat; apply rp_pos|]. apply rp_inc; lra.
Qed.

(** ** C52 *)
(** Table 1 of Duffy et al. (2008), NFW, z = 0-2 *)
Local Open Scope string_scope.
Definition duffy_table1 : list (string * string * (R * R * R)) :=
  [("200c", "full", (5.71, -0.084, 0.47)); ("200c", "relaxed", (6.71, -0.091, 0.44)); ("vir", "full", (7.85, -0.081, 0.71));
   ("vir", "relaxed", (9.23, -0.09, 0.69)); ("200m", "full", (10.14, -0.081, 1.01)); ("200m", "relaxed", (11.93, -0.09, 0.99))].
Theorem c52_table : forall mdef sample a b c, In (mdef, sample, (a, b, c)) duffy_table1 -> duffy_params None None None mdef sample = Ok (a, b, c).
Proof. intros mdef sample a b c H. simpl in H. repeat destruct H as [H|H]; try (injection H as <- <- <- <- <-; reflexivity). destruct H. Qed.
Theorem c52_unknown_mdef : forall a b c mdef sample, ~ In mdef ["200c"; "vir"; "200m"] ->
  duffy_params a b c mdef sample = duffy_params a b c "200c" sample.
Proof.
  intros a b c mdef sample H. unfold duffy_params. replace (duffy_table mdef sample) with (duffy_table "200c" sample); auto.
  unfold duffy_table at 2. destruct (String.eqb_spec mdef "200c"); [subst; exfalso; apply H; simpl; auto|].
  destruct (String.eqb_spec mdef "vir"); [subst; exfalso; apply H; simpl; auto|]. destruct (String.eqb_spec mdef "200m"); [subst; exfalso; apply H; simpl; auto|]. reflexivity.
Qed.
Lemma truthy_iff : forall o, truthy o = true <-> exists v, o = Some v /\ v <> 0.
Proof.
  intros [v|]; simpl; split; intros H; try discriminate.
  - exists v. split; auto. apply Reqb_false. now destruct (Reqb v 0).
  - destruct H as [w [E N]]. injection E as <-. apply Reqb_false in N. now rewrite N.
  - destruct H as [w [E N]]. discriminate.
Qed.
Theorem c52_unknown_sample : forall a b c mdef sample, ~ In sample ["full"; "relaxed"] ->
  ((exists x y w, a = Some x /\ x <> 0 /\ b = Some y /\ y <> 0 /\ c = Some w /\ w <> 0 /\ duffy_params a b c mdef sample = Ok (x, y, w)) \/
   duffy_params a b c mdef sample = Raise TypeError).
Proof.
  intros a b c mdef sample H.
  assert (D : forall f r, duffy_row sample f r = None). { intros. unfold duffy_row. destruct (String.eqb_spec sample "full"); [subst; exfalso; apply H; simpl; auto|]. destruct (String.eqb_spec sample "relaxed"); [subst; exfalso; apply H; simpl; auto|]. reflexivity. }
  assert (T : duffy_table mdef sample = None) by (unfold duffy_table; rewrite !D; destruct (mdef =? "200c"); auto; destruct (mdef =? "vir"); auto; destruct (mdef =? "200m"); auto).
  unfold duffy_params. rewrite T. simpl. unfold py_or.
  destruct (truthy a) eqn:A; [|right; reflexivity]. apply truthy_iff in A. destruct A as [x [-> X]]. simpl.
  destruct (truthy b) eqn:B; [|right; reflexivity]. apply truthy_iff in B. destruct B as [y [-> Y]]. simpl.
  destruct (truthy c) eqn:C; [|right; reflexivity]. apply truthy_iff in C. destruct C as [w [-> W]]. simpl.
  left. exists x, y, w. repeat split; auto.
Qed.
(** a user value is used if and only if it is non-zero; the other two parameters are unaffected *)
Theorem c52_override : forall v a b c mdef sample A B C, duffy_params a b c mdef sample = Ok (A, B, C) ->
  duffy_params None None None mdef sample <> Raise TypeError ->
  (v <> 0 -> duffy_params (Some v) b c mdef sample = Ok (v, B, C) /\ duffy_params a (Some v) c mdef sample = Ok (A, v, C) /\ duffy_params a b (Some v) mdef sample = Ok (A, B, v)) /\
  duffy_params (Some 0) b c mdef sample = duffy_params None b c mdef sample /\ duffy_params a (Some 0) c mdef sample = duffy_params a None c mdef sample /\
  duffy_params a b (Some 0) mdef sample = duffy_params a b None mdef sample.
Proof.
  intros v a b c mdef sample A B C H Hd. unfold duffy_params in *. destruct (duffy_table mdef sample) as [[[ta tb] tc]|]; [|exfalso; apply Hd; reflexivity]. simpl in *. clear Hd.
  assert (Z : forall y, py_or (Some 0) y = y) by (intros; unfold py_or; simpl; replace (Reqb 0 0) with true by (symmetry; now apply Reqb_spec); reflexivity).
  assert (N : v <> 0 -> forall y, py_or (Some v) y = Ok v) by (intros Hv y; unfold py_or; simpl; replace (Reqb v 0) with false by (symmetry; now apply Reqb_false); reflexivity).
  rewrite !Z. split; [|repeat split].
  intros Hv. rewrite !(N Hv).
  destruct (py_or a (Ok ta)); [|discriminate]. destruct (py_or b (Ok tb)); [|discriminate]. destruct (py_or c (Ok tc)); [|discriminate]. simpl in *. injection H as -> -> ->. auto.
Qed.
(** finding: a requested slope of 0 (mass-independent concentration) is silently replaced by the tabulated slope *)
Theorem c52_zero_slope_ignored_refuted : forall mdef norm a c z m1 m2, In mdef ["200c"; "vir"; "200m"] -> 0 < norm -> 0 < a -> a <> 0 -> 0 < c -> 0 < m1 < m2 ->
  exists v1 v2, duffy08 norm 2000000000000 (Some a) (Some 0) (Some c) mdef "relaxed" m1 z = Ok (Fin v1) /\
                duffy08 norm 2000000000000 (Some a) (Some 0) (Some c) mdef "relaxed" m2 z = Ok (Fin v2) /\ v2 < v1.
Proof.
  intros mdef norm a c z m1 m2 Hd Hn Ha _ Hc Hm.
  assert (exists b, b < 0 /\ duffy_params (Some a) (Some 0) (Some c) mdef "relaxed" = Ok (a, b, c)) as [b [Hb E]].
  { unfold duffy_params, py_or, truthy. replace (Reqb 0 0) with true by (symmetry; now apply Reqb_spec).
    replace (Reqb a 0) with false by (symmetry; apply Reqb_false; lra). replace (Reqb c 0) with false by (symmetry; apply Reqb_false; lra).
    simpl in Hd. destruct Hd as [<-|[<-|[<-|[]]]]; simpl; eexists; split; try reflexivity; lra. }
  unfold duffy08. rewrite E. simpl. unfold power_cm. replace (Reqb 2000000000000 0) with false by (symmetry; apply Reqb_false; lra). simpl.
  do 2 eexists. split; [reflexivity|]. split; [reflexivity|].
  apply Rmult_lt_compat_l; auto. apply Rmult_lt_compat_l; [apply Rdiv_lt_0_compat; auto; apply rp_pos|]. apply rp_dec; auto; lra.
Qed.
Local Close Scope string_scope.

(** ** C53 *)
Lemma or_acc_length : forall l acc, length (or_accumulate acc l) = length l.
Proof. induction l; intros; simpl; auto. Qed.
Lemma or_acc_nth : forall l acc i, (i < length l)%nat -> nth i (or_accumulate acc l) false = (acc || existsb (fun b => b) (firstn (S i) l))%bool.
Proof.
  induction l as [|b l IH]; intros acc i Hi; simpl in Hi; [lia|]. destruct i; simpl.
  - destruct acc, b; reflexivity.
  - rewrite IH by lia. simpl. destruct acc, b; reflexivity.
Qed.
Lemma bullock_mask_nth : forall raw z i, (i < length raw)%nat ->
  nth i (bullock_mask raw z) 0 = Rmax z (if existsb (fun v => Reqb v (lmin raw)) (firstn (S i) raw) then lmin raw else nth i raw 0).
Proof.
  intros raw z i Hi. unfold bullock_mask.
  set (msk := or_accumulate false (map (fun v => Reqb v (lmin raw)) raw)).
  assert (Lm : length msk = length raw) by (unfold msk; rewrite or_acc_length, map_length; reflexivity).
  assert (Lc : (i < length (combine msk raw))%nat) by (rewrite combine_length, Lm; lia).
  set (f := fun p : bool * R => if fst p then lmin raw else snd p). set (g := fun v : R => if Rltb v z then z else v).
  rewrite (nth_indep _ 0 (g (f (false, 0)))) by (rewrite !map_length; exact Lc). rewrite map_nth, map_nth, combine_nth by exact Lm.
  unfold msk. rewrite or_acc_nth by now rewrite map_length. rewrite firstn_map. rewrite orb_false_l.
  assert (EX : existsb (fun b : bool => b) (map (fun v => Reqb v (lmin raw)) (firstn (S i) raw)) = existsb (fun v => Reqb v (lmin raw)) (firstn (S i) raw)).
  { generalize (firstn (S i) raw). intros l. induction l; simpl; auto. now rewrite IHl. }
  rewrite EX. unfold f; cbv [fst snd]. set (V := if existsb _ _ then lmin raw else nth i raw 0). unfold g.
  destruct (Rltb V z) eqn:E; [apply Rltb_spec in E; rewrite Rmax_left; lra|apply Rltb_false in E; rewrite Rmax_right; lra].
Qed.
Lemma bullock_mask_length : forall raw z, length (bullock_mask raw z) = length raw.
Proof. intros. unfold bullock_mask. rewrite map_length, map_length, combine_length, or_acc_length, map_length. lia. Qed.
Local Opaque seq.
(** the raw formation redshift is between 0 and 50 *)
Lemma raw_range : forall growth s, 0 <= bullock_raw growth s <= 50.
Proof.
  intros growth s. unfold bullock_raw, interp1d_fill. set (pts := rev _).
  assert (H : forall p, In p (sort_pts pts) -> 0 <= snd p <= 50).
  { intros p Hp. rewrite sort_in in Hp. unfold pts in Hp. rewrite <- in_rev in Hp. destruct p as [g zz]. apply in_combine_r in Hp. simpl. unfold z_fine in Hp. apply in_map_iff in Hp. destruct Hp as [i [<- Hi]]. apply in_seq in Hi.
    assert (INR i <= 4999). { replace 4999 with (INR 4999) by (rewrite INR_IZR_INZ; f_equal; reflexivity). apply le_INR. lia. }
    assert (0 <= INR i) by apply pos_INR. lra. }
  destruct (np_interp (sort_pts pts) s) eqn:E; [exact (interp_range _ _ _ _ _ H E)|]. destruct (sort_pts pts) as [|[a ya] t]; [lra|]. destruct (Rltb s a); lra.
Qed.
(** every halo has formed by z, and no halo forms before redshift 50 *)
Theorem c53_formation_redshift_bounds : forall growth sqrt_nu m z i, (i < length m)%nat ->
  z <= nth i (bullock_zc growth sqrt_nu m z) 0 <= Rmax z 50.
Proof.
  intros growth sn m z i Hi. unfold bullock_zc. set (raw := map _ m). assert (L : length raw = length m) by apply map_length.
  rewrite bullock_mask_nth by lia. split; [apply Rmax_l|]. apply Rle_max_compat_l.
  assert (R : forall x, In x raw -> 0 <= x <= 50) by (intros x Hx; unfold raw in Hx; apply in_map_iff in Hx; destruct Hx as [q [<- _]]; apply raw_range).
  assert (IN : In (nth i raw 0) raw) by (apply nth_In; lia). destruct (existsb _ _); [|apply R, IN]. 
  apply Rle_trans with (nth i raw 0); [now apply lmin_lb|apply R, IN].
Qed.
Theorem c53_concentration_bounds : forall norm K growth sqrt_nu m z i, 0 <= norm -> 0 <= K -> 0 <= z <= 50 -> (i < length m)%nat ->
  norm * K <= nth i (bullock_cm norm K growth sqrt_nu m z) 0 <= norm * K * (51 / (1 + z)).
Proof.
  intros norm K growth sn m z i Hn HK Hz Hi. unfold bullock_cm. set (zc := bullock_zc growth sn m z).
  assert (L : (i < length zc)%nat) by (unfold zc, bullock_zc; rewrite bullock_mask_length, map_length; exact Hi).
  set (f := fun v => norm * K * (v + 1) / (z + 1)). rewrite (nth_indep (map f zc) 0 (f 0)) by now rewrite map_length. rewrite map_nth. unfold f.
  assert (B := c53_formation_redshift_bounds growth sn m z i Hi). fold zc in B. rewrite Rmax_right in B by lra. set (v := nth i zc 0) in *. clearbody v.
  assert (nk : 0 <= norm * K) by now apply Rmult_le_pos. assert (I : 0 < / (z + 1)) by (apply Rinv_0_lt_compat; lra).
  replace (norm * K * (v + 1) / (z + 1)) with (norm * K * ((v + 1) / (z + 1))) by (field; lra). split.
  - rewrite <- (Rmult_1_r (norm * K)) at 1. apply Rmult_le_compat_l; auto. apply Rmult_le_reg_r with (z + 1); [lra|]. unfold Rdiv. rewrite Rmult_assoc, Rinv_l by lra. lra.
  - apply Rmult_le_compat_l; auto. replace (1 + z) with (z + 1) by ring. apply Rmult_le_compat_r; lra.
Qed.
(** the exact effect of the masks: the value at position i *)
Theorem c53_masking : forall growth sqrt_nu m z i, let raw := map (fun mm => bullock_raw growth (sqrt_nu mm)) m in (i < length m)%nat ->
  ((exists j, (j <= i)%nat /\ nth j raw 0 = lmin raw) -> nth i (bullock_zc growth sqrt_nu m z) 0 = Rmax z (lmin raw)) /\
  ((forall j, (j <= i)%nat -> nth j raw 0 <> lmin raw) -> nth i (bullock_zc growth sqrt_nu m z) 0 = Rmax z (nth i raw 0)).
Proof.
  intros growth sn m z i raw Hi. assert (L : length raw = length m) by apply map_length. unfold bullock_zc. fold raw. rewrite bullock_mask_nth by lia.
  assert (F : forall j, (j <= i)%nat -> nth j raw 0 = nth j (firstn (S i) raw) 0).
  { intros j Hj. rewrite <- (firstn_skipn (S i) raw) at 1. apply app_nth1. rewrite firstn_length. lia. }
  split; intros H.
  - destruct H as [j [Hj E]]. replace (existsb _ _) with true; auto. symmetry. apply existsb_exists. exists (nth j raw 0). split; [|now apply Reqb_spec].
    rewrite F by auto. apply nth_In. rewrite firstn_length. lia.
  - replace (existsb _ _) with false; auto. symmetry. apply not_true_is_false. intros E. apply existsb_exists in E. destruct E as [v [Hv E]]. apply Reqb_spec in E.
    apply In_nth with (d := 0) in Hv. destruct Hv as [j [Hj E2]]. rewrite firstn_length in Hj. apply (H j); [lia|]. rewrite F by lia. congruence.
Qed.
(** finding: the relation depends on the order of the masses - if the first halo has the lowest formation
    redshift (e.g. masses sorted downwards), every halo gets its concentration *)
Theorem c53_order_independent_refuted : forall norm K growth sqrt_nu m z, let raw := map (fun mm => bullock_raw growth (sqrt_nu mm)) m in
  nth 0 raw 0 = lmin raw -> forall i, (i < length m)%nat -> nth i (bullock_cm norm K growth sqrt_nu m z) 0 = nth 0 (bullock_cm norm K growth sqrt_nu m z) 0.
Proof.
  intros norm K growth sn m z raw H i Hi. unfold bullock_cm.
  assert (L : length (bullock_zc growth sn m z) = length m) by (unfold bullock_zc; rewrite bullock_mask_length, map_length; reflexivity).
  assert (E : forall j, (j < length m)%nat -> nth j (bullock_zc growth sn m z) 0 = Rmax z (lmin raw)).
  { intros j Hj. apply (proj1 (c53_masking growth sn m z j Hj)). exists 0%nat. split; [lia|exact H]. }
  set (f := fun zc => norm * K * (zc + 1) / (z + 1)).
  rewrite !(nth_indep (map f _) 0 (f 0)) by (rewrite map_length; lia). rewrite !map_nth. rewrite (E i Hi), (E 0%nat); auto. lia.
Qed.
(** the inverse growth table is exact at its nodes when the growth factor falls with redshift *)
Lemma zfine_nth : forall i, (i < 5000)%nat -> nth i z_fine 0 = INR i * 50 / 4999.
Proof.
  intros i Hi. unfold z_fine. rewrite (nth_indep _ 0 ((fun i => INR i * 50 / 4999) 0%nat)) by (rewrite map_length, seq_length; exact Hi).
  rewrite (map_nth (fun i => INR i * 50 / 4999)). rewrite seq_nth by exact Hi. reflexivity.
Qed.
Lemma ss_app : forall (l1 l2 : list (R * R)), StronglySorted ltp l1 -> StronglySorted ltp l2 -> (forall p q, In p l1 -> In q l2 -> ltp p q) -> StronglySorted ltp (l1 ++ l2).
Proof.
  induction l1 as [|a t IH]; intros l2 H1 H2 H; simpl; auto. inversion H1; subst. constructor.
  - apply IH; auto. intros. apply H; auto. now right.
  - apply List.Forall_forall. intros x Hx. apply in_app_iff in Hx. destruct Hx as [Hx|Hx]; [rewrite List.Forall_forall in H5; auto|]. apply H; auto. now left.
Qed.
Lemma table_sorted : forall growth n k, (forall x y, 0 <= x < y -> growth y < growth x) ->
  StronglySorted ltp (rev (combine (map growth (map (fun i => INR i * 50 / 4999) (seq k n))) (map (fun i => INR i * 50 / 4999) (seq k n)))).
Proof.
  intros growth n. Local Transparent seq. induction n as [|n IH]; intros k G; simpl; [constructor|]. Local Opaque seq. apply ss_app; [now apply IH|repeat constructor|].
  intros p q Hp Hq. destruct Hq as [<-|[]]. rewrite <- in_rev in Hp. destruct p as [g zz]. unfold ltp; simpl.
  assert (exists i, (k < i)%nat /\ g = growth (INR i * 50 / 4999)) as [i [Hi ->]].
  { apply in_combine_l in Hp. rewrite map_map in Hp. apply in_map_iff in Hp. destruct Hp as [i [<- Hi]]. apply in_seq in Hi. exists i. split; [lia|reflexivity]. }
  apply G. apply lt_INR in Hi. assert (0 <= INR k) by apply pos_INR. lra.
Qed.
Theorem c53_inverse_at_nodes : forall growth i, (forall x y, 0 <= x < y -> growth y < growth x) -> (i < 5000)%nat ->
  bullock_raw growth (growth (INR i * 50 / 4999)) = INR i * 50 / 4999.
Proof.
  intros growth i G Hi. unfold bullock_raw, interp1d_fill. set (pts := rev _).
  assert (S : StronglySorted ltp pts) by (unfold pts, z_fine; now apply table_sorted). rewrite sort_id by exact S.
  rewrite (interp_knot pts _ (INR i * 50 / 4999)); auto. unfold pts. apply -> in_rev.
  assert (In (nth i (combine (map growth z_fine) z_fine) (growth 0, 0)) (combine (map growth z_fine) z_fine)).
  { apply nth_In. rewrite combine_length, map_length. unfold z_fine. rewrite map_length, seq_length. lia. }
  rewrite combine_nth in H by apply map_length. rewrite map_nth, zfine_nth in H by exact Hi. exact H.
Qed.
Theorem c53_table_ends : forall growth s, (forall x y, 0 <= x < y -> growth y < growth x) ->
  (growth 0 < s -> bullock_raw growth s = 0) /\ (s < growth 50 -> bullock_raw growth s = 50).
Proof.
  intros growth s G. unfold bullock_raw, interp1d_fill. set (pts := rev _).
  assert (S : StronglySorted ltp pts) by (unfold pts, z_fine; now apply table_sorted). rewrite sort_id by exact S.
  assert (B : forall p, In p pts -> growth 50 <= fst p <= growth 0).
  { intros [g zz] Hp. unfold pts in Hp. rewrite <- in_rev in Hp. apply in_combine_l in Hp. unfold z_fine in Hp. rewrite map_map in Hp. apply in_map_iff in Hp. destruct Hp as [i [<- Hi]]. apply in_seq in Hi. simpl.
    assert (Q : INR i <= 4999). { replace 4999 with (INR 4999) by (rewrite INR_IZR_INZ; f_equal; reflexivity). apply le_INR. lia. }
    assert (0 <= INR i) by apply pos_INR. split.
    - destruct (Req_dec (INR i * 50 / 4999) 50) as [->|N]; [lra|]. left. apply G. lra.
    - destruct (Req_dec (INR i * 50 / 4999) 0) as [->|N]; [lra|]. left. apply G. lra. }
  assert (NE : exists p t, pts = p :: t). { destruct pts as [|p t] eqn:E; [|eauto]. exfalso. apply (f_equal (@length _)) in E. unfold pts in E. rewrite rev_length, combine_length, map_length in E. unfold z_fine in E. rewrite map_length, seq_length in E. discriminate. }
  destruct NE as [[a ya] [t E]]. assert (A := B (a, ya)). rewrite E in A. specialize (A (or_introl eq_refl)). simpl in A. split; intros H.
  - rewrite interp_above by (intros p Hp; specialize (B p Hp); lra). rewrite E. replace (Rltb s a) with false; auto. symmetry. apply Rltb_false. lra.
  - rewrite interp_below by (intros p Hp; specialize (B p Hp); lra). rewrite E. replace (Rltb s a) with true; auto. symmetry. apply Rltb_spec. lra.
Qed.
Local Transparent seq.

(** ** C86: interp_concentration *)
Lemma combine_ss : forall (m c : list R), StronglySorted Rlt m -> StronglySorted ltp (combine m c).
Proof.
  induction m as [|a m IH]; intros [|y c] S; simpl; try constructor.
  - apply IH. now inversion S.
  - inversion S; subst. apply List.Forall_forall. intros [x yx] Hx. apply in_combine_l in Hx. rewrite List.Forall_forall in H2. unfold ltp; simpl; auto.
Qed.
Lemma filter_ss : forall f (l : list (R * R)), StronglySorted ltp l -> StronglySorted ltp (filter f l).
Proof.
  intros f l S. induction S as [|a t S IH F]; simpl; [constructor|]. destruct (f a); auto. constructor; auto.
  apply List.Forall_forall. intros x Hx. apply filter_In in Hx. rewrite List.Forall_forall in F. now apply F.
Qed.
Definition positive_part (m c : list R) := filter (fun p : R * R => Rltb 0 (snd p)) (combine m c).
Lemma interp_conc_nth : forall m c i, (i < length m)%nat -> positive_part m c <> [] ->
  nth i (interp_conc m c) 0 = interp1d_fill 1 1 (positive_part m c) (nth i m 0).
Proof.
  intros m c i Hi H. unfold interp_conc. fold (positive_part m c). destruct (positive_part m c) as [|p t] eqn:E; [congruence|]. rewrite <- E.
  rewrite (nth_indep _ 0 (interp1d_fill 1 1 (positive_part m c) 0)) by (rewrite map_length; exact Hi). apply map_nth.
Qed.
(** no zero (or negative) concentration survives, whatever the wrapped relation returned and however the masses are ordered *)
Theorem c86_positive : forall m c v, In v (interp_conc m c) -> 0 < v.
Proof.
  intros m c v H. unfold interp_conc in H. fold (positive_part m c) in H.
  assert (P : forall p, In p (positive_part m c) -> 0 < snd p) by (intros p Hp; apply filter_In in Hp; now apply Rltb_spec).
  destruct (positive_part m c) as [|p t] eqn:E; [apply in_map_iff in H; destruct H as [x [<- _]]; lra|]. rewrite <- E in *.
  apply in_map_iff in H. destruct H as [x [<- _]]. unfold interp1d_fill. set (pts := positive_part m c) in *.
  destruct (np_interp (sort_pts pts) x) as [y|] eqn:Q.
  - destruct (interp_bracket _ _ _ Q) as [p1 [p2 [H1 [H2 [_ [H3 _]]]]]]. rewrite sort_in in H1. rewrite sort_in in H2. apply P in H1. apply P in H2.
    eapply Rlt_le_trans; [|exact H3]. now apply Rmin_pos.
  - destruct (sort_pts pts) as [|[a ya] u]; [lra|]. destruct (Rltb x a); lra.
Qed.
(** where the wrapped relation is positive it is unchanged (masses increasing) *)
Theorem c86_unchanged_where_positive : forall m c i, StronglySorted Rlt m -> length c = length m -> (i < length m)%nat ->
  0 < nth i c 0 -> nth i (interp_conc m c) 0 = nth i c 0.
Proof.
  intros m c i S L Hi Hp.
  assert (IN : In (nth i m 0, nth i c 0) (positive_part m c)).
  { apply filter_In. split; [|simpl; now apply Rltb_spec]. rewrite <- combine_nth by lia. apply nth_In. rewrite combine_length. lia. }
  rewrite interp_conc_nth; auto; [|intros E; rewrite E in IN; destruct IN].
  unfold interp1d_fill. assert (SS : StronglySorted ltp (positive_part m c)) by now apply filter_ss, combine_ss. rewrite sort_id by exact SS.
  rewrite (interp_knot _ _ _ SS IN). reflexivity.
Qed.
(** below the first and above the last positive value the concentration is 1 *)
Theorem c86_one_outside : forall m c i, StronglySorted Rlt m -> length c = length m -> (i < length m)%nat ->
  ((forall j, (j < length m)%nat -> 0 < nth j c 0 -> (i < j)%nat) \/ (forall j, (j < length m)%nat -> 0 < nth j c 0 -> (j < i)%nat)) ->
  nth i (interp_conc m c) 0 = 1.
Proof.
  intros m c i S L Hi H.
  assert (MONO : forall a b, (a < b)%nat -> (b < length m)%nat -> nth a m 0 < nth b m 0).
  { clear -S. induction S as [|x t S IH F]; intros a b Hab Hb; simpl in Hb; [lia|]. destruct b; [lia|]. destruct a; simpl.
    - rewrite List.Forall_forall in F. apply F. apply nth_In. lia.
    - apply IH; lia. }
  assert (SS : StronglySorted ltp (positive_part m c)) by now apply filter_ss, combine_ss.
  assert (PI : forall p, In p (positive_part m c) -> exists j, (j < length m)%nat /\ 0 < nth j c 0 /\ fst p = nth j m 0).
  { intros [x y] Hp. apply filter_In in Hp. destruct Hp as [Hp Hy]. apply In_nth with (d := (0, 0)) in Hp. destruct Hp as [j [Hj E]]. rewrite combine_length in Hj. rewrite combine_nth in E by lia.
    injection E as E1 E2. exists j. simpl in *. apply Rltb_spec in Hy. subst. repeat split; auto; lia. }
  destruct (positive_part m c) as [|p t] eqn:E.
  - unfold interp_conc. fold (positive_part m c). rewrite E. rewrite (nth_indep _ 0 1) by (rewrite map_length; exact Hi). change 1 with ((fun _ : R => 1) 0) at 2. apply map_nth.
  - rewrite interp_conc_nth; auto; [|rewrite E; discriminate]. rewrite E. unfold interp1d_fill. rewrite sort_id by exact SS.
    destruct H as [H|H].
    + rewrite interp_below; [|intros q Hq; destruct (PI q Hq) as [j [H1 [H2 ->]]]; apply MONO; auto]. destruct p as [a ya]. destruct (Rltb _ a); reflexivity.
    + rewrite interp_above; [|intros q Hq; destruct (PI q Hq) as [j [H1 [H2 ->]]]; apply MONO; auto]. destruct p as [a ya]. destruct (Rltb _ a); reflexivity.
Qed.
(** across a gap of non-positive values the concentration is the straight line between its ends *)
Theorem c86_gap_is_linear : forall m c P1 a ca gap b cb P2 i, StronglySorted Rlt m -> length c = length m -> (i < length m)%nat ->
  combine m c = P1 ++ (a, ca) :: gap ++ (b, cb) :: P2 -> 0 < ca -> 0 < cb -> (forall p, In p gap -> snd p <= 0) -> a <= nth i m 0 < b ->
  nth i (interp_conc m c) 0 = ca + (cb - ca) / (b - a) * (nth i m 0 - a).
Proof.
  intros m c P1 a ca gap b cb P2 i S L Hi E Ha Hb G Hx.
  assert (Q : positive_part m c = filter (fun p : R * R => Rltb 0 (snd p)) P1 ++ (a, ca) :: (b, cb) :: filter (fun p : R * R => Rltb 0 (snd p)) P2).
  { unfold positive_part. rewrite E, !filter_app. simpl. replace (Rltb 0 ca) with true by (symmetry; now apply Rltb_spec). rewrite filter_app. simpl.
    replace (Rltb 0 cb) with true by (symmetry; now apply Rltb_spec). f_equal. f_equal. replace (filter _ gap) with (@nil (R * R)); auto.
    clear -G. induction gap as [|p t IH]; simpl; auto. replace (Rltb 0 (snd p)) with false; [apply IH; intros; apply G; now right|]. symmetry. apply Rltb_false. apply G. now left. }
  assert (SS : StronglySorted ltp (positive_part m c)) by now apply filter_ss, combine_ss.
  rewrite interp_conc_nth; auto; [|rewrite Q; destruct (filter _ P1); discriminate]. unfold interp1d_fill. rewrite sort_id by exact SS. rewrite Q in *.
  rewrite interp_chord; auto.
Qed.
Example c86_nonvacuous : interp_conc [1; 2; 3] [4; 0; 8] = [4; 6; 8].
Proof.
  assert (S : StronglySorted Rlt [1; 2; 3]) by (repeat constructor; lra).
  assert (A := c86_unchanged_where_positive [1;2;3] [4;0;8] 0 S eq_refl ltac:(simpl; lia) ltac:(simpl; lra)).
  assert (B := c86_gap_is_linear [1;2;3] [4;0;8] [] 1 4 [(2,0)] 3 8 [] 1 S eq_refl ltac:(simpl; lia) eq_refl ltac:(lra) ltac:(lra) ltac:(intros p [<-|[]]; simpl; lra) ltac:(simpl; lra)).
  assert (C := c86_unchanged_where_positive [1;2;3] [4;0;8] 2 S eq_refl ltac:(simpl; lia) ltac:(simpl; lra)).
  assert (L : length (interp_conc [1;2;3] [4;0;8]) = 3%nat). { unfold interp_conc. destruct (filter _ _); rewrite map_length; reflexivity. }
  destruct (interp_conc [1;2;3] [4;0;8]) as [|x [|y [|w [|]]]]; try discriminate. simpl in A, B, C. rewrite A, B, C. replace (4 + (8 - 4) / (3 - 1) * (2 - 1)) with 6 by field. reflexivity.
Qed.

(** ** C87: Ludlow16 *)
(* unfold the wrappers before the table of candidates (conversion order only) *)
Strategy 100 [lud_pick lud_cs lud_cvec interp1d np_interp sort_pts].
Lemma cvec_range : forall c, In c lud_cvec -> 1 <= c <= 100.
Proof.
  intros c H. unfold lud_cvec in H. apply in_map_iff in H. destruct H as [i [<- Hi]]. apply in_seq in Hi.
  assert (Q : INR i <= 399). { replace 399 with (INR 399) by (rewrite INR_IZR_INZ; f_equal; reflexivity). apply le_INR. lia. } assert (0 <= INR i) by apply pos_INR.
  unfold pow10. split.
  - rewrite <- (Rpower_O 10) by lra. apply Rle_Rpower; lra.
  - replace 100 with (Rpower 10 2). + apply Rle_Rpower; lra. + replace 2 with (INR 2) by (simpl; lra). rewrite Rpower_pow by lra. simpl. lra.
Qed.
Lemma filter2_in : forall (f g : R -> bool) l c, In c (filter f (filter g l)) <-> In c l /\ g c = true /\ f c = true.
Proof. intros. rewrite !filter_In. tauto. Qed.
Lemma cs_in : forall E C z c, In c (lud_cs E C z) <-> In c lud_cvec /\ Rltb 0 (lud_brackets E C z c) = true /\ negb (Rltb (lud_zf E C z c) 0) = true.
Proof. intros. unfold lud_cs. exact (filter2_in _ _ _ _). Qed.
Lemma cs_range : forall E C z c, In c (lud_cs E C z) -> 1 <= c <= 100.
Proof. intros E C z c H. rewrite cs_in in H. destruct H as [H _]. exact (cvec_range c H). Qed.
Lemma pick_range : forall g cs c, (forall c, In c cs -> 1 <= c <= 100) -> lud_pick (map g cs) cs = Ok c -> 1 <= c <= 100.
Proof.
  intros g cs c R H. unfold lud_pick in H.
  destruct cs as [|c0 ct] eqn:Q; [discriminate|]. rewrite <- Q in *. assert (NE : cs <> []) by (rewrite Q; discriminate).
  destruct (forallb _ _) in H; [injection H as <-; apply R; now apply lmin_in|]. destruct (forallb _ _) in H; [injection H as <-; apply R; now apply lmax_in|].
  unfold interp1d in H. destruct (np_interp _ 0) eqn:K in H; [|discriminate]. injection H as <-.
  refine (interp_range _ _ _ 1 100 _ K). intros [x y] Hp. rewrite sort_in in Hp. apply in_combine_r in Hp. simpl. now apply R.
Qed.
(** the concentration before normalisation is between 1 and 100 for every mass, whatever the cosmology *)
Theorem c87_between_1_and_100 : forall E f C m z c, lud_eq7 E f C m z = Ok c -> 1 <= c <= 100.
Proof. intros E f C m z c H. unfold lud_eq7 in H. cbv zeta in H. exact (pick_range (lud_arg E f C m z) (lud_cs E C z) c (cs_range E C z) H). Qed.
Lemma pick_fails : forall g cs, lud_pick (map g cs) cs = Raise ValueError <-> cs = [].
Proof.
  intros g cs. unfold lud_pick. split; [|intros ->; reflexivity].
  destruct cs as [|c0 ct] eqn:Q; auto. rewrite <- Q. intros H. exfalso. set (args := map g cs) in *.
  destruct (forallb (fun a => negb (Rleb a 0)) args) eqn:A; [discriminate|]. destruct (forallb (fun a => negb (Rleb 0 a)) args) eqn:B; [discriminate|].
  assert (X : exists a, In a args /\ a <= 0). { apply not_true_iff_false in A. rewrite forallb_forall in A. 
    destruct (existsb (fun a => Rleb a 0) args) eqn:X; [apply existsb_exists in X; destruct X as [a [X1 X2]]; exists a; split; auto; now apply Rleb_spec|].
    exfalso. apply A. intros a Ha. destruct (Rleb a 0) eqn:Y; auto. exfalso. assert (existsb (fun a => Rleb a 0) args = true) by (apply existsb_exists; eauto). congruence. }
  assert (Y : exists a, In a args /\ 0 <= a). { apply not_true_iff_false in B. rewrite forallb_forall in B. 
    destruct (existsb (fun a => Rleb 0 a) args) eqn:X0; [apply existsb_exists in X0; destruct X0 as [a [X1 X2]]; exists a; split; auto; now apply Rleb_spec|].
    exfalso. apply B. intros a Ha. destruct (Rleb 0 a) eqn:Y; auto. exfalso. assert (existsb (fun a => Rleb 0 a) args = true) by (apply existsb_exists; eauto). congruence. }
  assert (K : forall a, In a args -> exists c, In (a, c) (combine args cs)).
  { intros a Ha. apply In_nth with (d := 0) in Ha. destruct Ha as [j [Hj <-]]. assert (LA : length args = length cs) by apply map_length. exists (nth j cs 0). rewrite <- combine_nth by exact LA. apply nth_In. rewrite combine_length. lia. }
  destruct X as [a [Ia La]]. destruct Y as [b [Ib Lb]]. destruct (K a Ia) as [ca Hca]. destruct (K b Ib) as [cb Hcb].
  unfold interp1d in H. destruct (interp_some (sort_pts (combine args cs)) 0 (a, ca) (b, cb)) as [y Ey]; auto; try apply sort_sorted; try (rewrite sort_in; assumption).
  rewrite Ey in H. discriminate.
Qed.
(** it fails exactly when no candidate concentration has a physical formation redshift *)
Theorem c87_fails_iff_no_candidate : forall E f C m z, lud_eq7 E f C m z = Raise ValueError <-> lud_cs E C z = [].
Proof. intros E f C m z. unfold lud_eq7. cbv zeta. exact (pick_fails (lud_arg E f C m z) (lud_cs E C z)). Qed.
Lemma pick_brackets : forall g cs c, lud_pick (map g cs) cs = Ok c ->
  (exists c1 c2, In c1 cs /\ In c2 cs /\ g c1 <= 0 <= g c2 /\ Rmin c1 c2 <= c <= Rmax c1 c2) \/
  ((forall c', In c' cs -> 0 < g c') /\ In c cs /\ forall c', In c' cs -> c <= c') \/
  ((forall c', In c' cs -> g c' < 0) /\ In c cs /\ forall c', In c' cs -> c' <= c).
Proof.
  intros g cs c H. unfold lud_pick in H.
  destruct cs as [|c0 ct] eqn:Q; [discriminate|]. rewrite <- Q in *. assert (NE : cs <> []) by (rewrite Q; discriminate).
  destruct (forallb (fun a => negb (Rleb a 0)) (map g cs)) eqn:A.
  { injection H as <-. right; left. rewrite forallb_forall in A. repeat split; [|now apply lmin_in|intros; now apply lmin_lb].
    intros c' Hc. specialize (A (g c') (in_map g _ _ Hc)). apply Rleb_false. now destruct (Rleb (g c') 0). }
  destruct (forallb (fun a => negb (Rleb 0 a)) (map g cs)) eqn:B.
  { injection H as <-. right; right. rewrite forallb_forall in B. repeat split; [|now apply lmax_in|intros; now apply lmax_ub].
    intros c' Hc. specialize (B (g c') (in_map g _ _ Hc)). apply Rleb_false. now destruct (Rleb 0 (g c')). }
  left. unfold interp1d in H. destruct (np_interp _ 0) eqn:K in H; [|discriminate]. injection H as <-.
  destruct (interp_bracket _ _ _ K) as [[a1 c1] [[a2 c2] [H1 [H2 [H3 H4]]]]]. rewrite sort_in in H1. rewrite sort_in in H2. simpl in *.
  assert (G : forall a c, In (a, c) (combine (map g cs) cs) -> In c cs /\ a = g c).
  { clear. induction cs as [|x t IH]; simpl; [tauto|]. intros a c [E|E]; [injection E as <- <-; auto|]. destruct (IH a c E); auto. }
  destruct (G _ _ H1) as [I1 ->]. destruct (G _ _ H2) as [I2 ->]. exists c1, c2. auto.
Qed.
(** inside the table the answer lies between two candidates at which lhs - rhs has opposite signs *)
Theorem c87_brackets_the_root : forall E f C m z c, lud_eq7 E f C m z = Ok c ->
  (exists c1 c2, In c1 (lud_cs E C z) /\ In c2 (lud_cs E C z) /\ lud_arg E f C m z c1 <= 0 <= lud_arg E f C m z c2 /\ Rmin c1 c2 <= c <= Rmax c1 c2) \/
  ((forall c', In c' (lud_cs E C z) -> 0 < lud_arg E f C m z c') /\ In c (lud_cs E C z) /\ forall c', In c' (lud_cs E C z) -> c <= c') \/
  ((forall c', In c' (lud_cs E C z) -> lud_arg E f C m z c' < 0) /\ In c (lud_cs E C z) /\ forall c', In c' (lud_cs E C z) -> c' <= c).
Proof. intros E f C m z c H. unfold lud_eq7 in H. cbv zeta in H. exact (pick_brackets (lud_arg E f C m z) (lud_cs E C z) c H). Qed.
Lemma scalar_fails : forall g cs, (forall c', In c' cs -> 0 < g c') \/ (forall c', In c' cs -> g c' < 0) -> interp1d (combine (map g cs) cs) 0 = Raise ValueError.
Proof.
  intros g cs K. unfold interp1d.
  assert (G : forall p, In p (sort_pts (combine (map g cs) cs)) -> exists c, In c cs /\ fst p = g c).
  { intros [a c1] Hp. rewrite sort_in in Hp. apply in_combine_l in Hp. apply in_map_iff in Hp. destruct Hp as [c2 [<- Hc]]. eauto. }
  destruct K as [K|K].
  - rewrite interp_below; auto. intros p Hp. destruct (G p Hp) as [c' [I ->]]. auto.
  - rewrite interp_above; auto. intros p Hp. destruct (G p Hp) as [c' [I ->]]. auto.
Qed.
(** finding: for a scalar mass there is no clamping - it raises where a one-element array returns the end of the table *)
Theorem c87_scalar_agrees_with_array_refuted : forall E f C m z c, lud_eq7 E f C m z = Ok c ->
  (forall c', In c' (lud_cs E C z) -> 0 < lud_arg E f C m z c') \/ (forall c', In c' (lud_cs E C z) -> lud_arg E f C m z c' < 0) ->
  lud_eq7_scalar E f C m z = Raise ValueError.
Proof. intros E f C m z c H K. unfold lud_eq7_scalar. cbv zeta. exact (scalar_fails (lud_arg E f C m z) (lud_cs E C z) K). Qed.
Lemma scalar_agrees : forall g cs c1 c2, In c1 cs -> In c2 cs -> g c1 <= 0 -> 0 <= g c2 -> interp1d (combine (map g cs) cs) 0 = lud_pick (map g cs) cs.
Proof.
  intros g cs c1 c2 I1 I2 H1 H2. unfold lud_pick.
  destruct cs as [|c0 ct] eqn:Q; [destruct I1|]. rewrite <- Q in *.
  replace (forallb (fun a => negb (Rleb a 0)) (map g cs)) with false.
  - replace (forallb (fun a => negb (Rleb 0 a)) (map g cs)) with false; auto. symmetry. apply not_true_iff_false. rewrite forallb_forall. intros A. specialize (A _ (in_map g _ _ I2)). apply Rleb_spec in H2. rewrite H2 in A. discriminate.
  - symmetry. apply not_true_iff_false. rewrite forallb_forall. intros A. specialize (A _ (in_map g _ _ I1)). apply Rleb_spec in H1. rewrite H1 in A. discriminate.
Qed.
Theorem c87_scalar_agrees_otherwise : forall E f C m z c1 c2, In c1 (lud_cs E C z) -> In c2 (lud_cs E C z) -> lud_arg E f C m z c1 <= 0 -> 0 <= lud_arg E f C m z c2 ->
  lud_eq7_scalar E f C m z = lud_eq7 E f C m z.
Proof. intros E f C m z c1 c2 I1 I2 H1 H2. unfold lud_eq7, lud_eq7_scalar. cbv zeta. exact (scalar_agrees (lud_arg E f C m z) (lud_cs E C z) c1 c2 I1 I2 H1 H2). Qed.
Lemma pick_exn : forall g cs e, lud_pick (map g cs) cs = Raise e -> e = ValueError.
Proof.
  intros g cs e Q. unfold lud_pick in Q. destruct cs; [congruence|]. destruct (forallb _ _) in Q; [discriminate|]. destruct (forallb _ _) in Q; [discriminate|]. unfold interp1d in Q. destruct (np_interp _ 0) in Q; congruence.
Qed.
(** non-vacuity: an environment in which all candidates are physical *)
Example c87_nonvacuous : exists E, lud_cs E 650 0 <> [] /\ forall f m, exists c, lud_eq7 E f 650 m 0 = Ok c.
Proof.
  set (E := mkLud (fun _ => 1) (fun _ => 650) 1 0 (fun z => 1 / (1 + z)) 1.686 (fun m => / m)).
  assert (NE : lud_cs E 650 0 <> []).
  { assert (In 1 (lud_cs E 650 0)).
    - assert (B : lud_brackets E 650 0 1 = 1) by (unfold lud_brackets, E; simpl; field).
      rewrite cs_in. split; [|split].
      + unfold lud_cvec. apply in_map_iff. exists 0%nat. split; [|apply in_seq; lia]. unfold pow10, Rdiv. rewrite !Rmult_0_l. rewrite Rpower_O; lra.
      + rewrite B. apply Rltb_spec. lra.
      + unfold lud_zf. rewrite B. replace (Rpower 1 0.33333 - 1) with 0 by (unfold Rpower; rewrite ln_1, Rmult_0_r, exp_0; ring). replace (Rltb 0 0) with false; auto. symmetry. apply Rltb_false. lra.
    - intros Q. rewrite Q in H. destruct H. }
  exists E. split; auto. intros f m. destruct (lud_eq7 E f 650 m 0) as [c|e] eqn:Q; eauto. exfalso. apply NE. apply (proj1 (c87_fails_iff_no_candidate E f 650 m 0)). rewrite Q. f_equal. unfold lud_eq7 in Q. cbv zeta in Q. exact (pick_exn (lud_arg E f 650 m 0) _ e Q).
Qed.

(** ** C88: Ludlow16Empirical *)
Definition q88 (x : R) := 4.135 - 0.564 * x - 0.21 * x ^ 2 + 0.0557 * x ^ 3 - 0.00348 * x ^ 4.
Lemma q88_pos : forall x, 1 <= x <= 8 -> 0 < q88 x.
Proof.
  intros x Hx. unfold q88. set (s := 8 - x). replace x with (8 - s) by (unfold s; ring). assert (S : 0 <= s <= 7) by (unfold s; lra). clearbody s.
  replace (4.135 - 0.564 * (8 - s) - 0.21 * (8 - s) ^ 2 + 0.0557 * (8 - s) ^ 3 - 0.00348 * (8 - s) ^ 4) with
    (0.44732 + s * (0.35664 - 0.20952 * s + 0.0313 * s ^ 2) + s ^ 3 * (0.02436 - 0.00348 * s)) by lra.
  assert (SQ := pow2_ge_0 (s - 3.347)). assert (0 <= 0.35664 - 0.20952 * s + 0.0313 * s ^ 2) by (simpl in *; lra).
  assert (0 <= s ^ 3) by (apply pow_le; lra). assert (0 <= 0.02436 - 0.00348 * s) by lra. nra.
Qed.
Lemma q88_neg : forall x, 9 <= x -> q88 x < 0.
Proof.
  intros x Hx. unfold q88. set (s := x - 9). replace x with (9 + s) by (unfold s; ring). assert (S : 0 <= s) by (unfold s; lra). clearbody s.
  replace (4.135 - 0.564 * (9 + s) - 0.21 * (9 + s) ^ 2 + 0.0557 * (9 + s) ^ 3 - 0.00348 * (9 + s) ^ 4) with
    (- (0.17798 + 0.95658 * s + 0.39738 * s ^ 2 + 0.06958 * s ^ 3 + 0.00348 * s ^ 4)) by lra.
  assert (0 <= s ^ 2) by (apply pow_le; lra). assert (0 <= s ^ 3) by (apply pow_le; lra). assert (0 <= s ^ 4) by (apply pow_le; lra). lra.
Qed.
Lemma le_nu0_eq : forall growth z, 0 <= z -> growth z <> 0 -> le_nu0 growth z = q88 (1 + z) / growth z.
Proof. intros growth z Hz Hg. unfold le_nu0, q88. cbv zeta. field. split; lra. Qed.
Lemma le_sig_eq : forall growth m z, 0 < m -> le_sig growth m z =
  growth z * 22.26 / (Rpower (10000000000 / m) (-0.292) + 1.53 * Rpower (10000000000 / m) (-0.017) + 3.36 * Rpower (10000000000 / m) (-0.094)).
Proof.
  intros growth m z Hm. unfold le_sig. cbv zeta. set (xi := 10000000000 / m).
  assert (A : Rpower xi (-0.292) = / Rpower xi 0.292) by (rewrite <- Rpower_Ropp; f_equal; lra).
  assert (B : Rpower xi (-0.017) = Rpower xi 0.275 * / Rpower xi 0.292) by (rewrite <- Rpower_Ropp, <- Rpower_plus; f_equal; lra).
  assert (C : Rpower xi (-0.094) = Rpower xi 0.198 * / Rpower xi 0.292) by (rewrite <- Rpower_Ropp, <- Rpower_plus; f_equal; lra).
  rewrite A, B, C. assert (P1 := rp_pos xi 0.292). assert (P2 := rp_pos xi 0.275). assert (P3 := rp_pos xi 0.198).
  set (p := Rpower xi 0.292) in *. set (q := Rpower xi 0.275) in *. set (r := Rpower xi 0.198) in *. clearbody p q r. field. repeat split; lra.
Qed.
Lemma le_sig_pos : forall growth m z, 0 < m -> 0 < growth z -> 0 < le_sig growth m z.
Proof.
  intros. rewrite le_sig_eq by auto. assert (P1 := rp_pos (10000000000 / m) (-0.292)). assert (P2 := rp_pos (10000000000 / m) (-0.017)). assert (P3 := rp_pos (10000000000 / m) (-0.094)).
  apply Rdiv_lt_0_compat; lra.
Qed.
Lemma le_sig_dec : forall growth m1 m2 z, 0 < m1 < m2 -> 0 < growth z -> le_sig growth m2 z < le_sig growth m1 z.
Proof.
  intros growth m1 m2 z Hm Hg. rewrite !le_sig_eq by lra.
  assert (X : 0 < 10000000000 / m2 < 10000000000 / m1). { split; [apply Rdiv_lt_0_compat; lra|]. apply Rmult_lt_compat_l; [lra|]. apply Rinv_lt_contravar; [apply Rmult_lt_0_compat|]; lra. }
  assert (A := rp_dec _ _ (-0.292) X ltac:(lra)). assert (B := rp_dec _ _ (-0.017) X ltac:(lra)). assert (C := rp_dec _ _ (-0.094) X ltac:(lra)).
  assert (P1 := rp_pos (10000000000 / m1) (-0.292)). assert (P2 := rp_pos (10000000000 / m1) (-0.017)). assert (P3 := rp_pos (10000000000 / m1) (-0.094)).
  apply Rmult_lt_compat_l; [lra|]. apply Rinv_lt_contravar; [apply Rmult_lt_0_compat; lra|lra].
Qed.
Definition shape88 (beta g1 g2 x : R) : R := Rpower x (- g1) * Rpower (1 + Rpower x (1 / beta)) (- beta * (g2 - g1)).
Lemma shape88_dec : forall beta g1 g2 x y, 0 < beta -> 0 < g1 -> 0 < g2 -> 0 < x < y -> shape88 beta g1 g2 y < shape88 beta g1 g2 x.
Proof.
  intros beta g1 g2 x y Hb H1 H2 Hxy. unfold shape88, Rpower. rewrite <- !exp_plus. apply exp_increasing. apply Ropp_lt_cancel.
  set (F := fun x => - (- g1 * ln x + - beta * (g2 - g1) * ln (1 + exp (1 / beta * ln x)))).
  apply (smono_of_derive F (fun x => (g1 + g2 * exp (1 / beta * ln x)) / (x * (1 + exp (1 / beta * ln x))))); [lra| |].
  - intros t Ht. unfold F. assert (0 < exp (1 / beta * ln t)) by apply exp_pos. auto_derive; [repeat split; lra|]. set (w := exp (1 / beta * ln t)) in *. clearbody w. field. repeat split; lra.
  - intros t Ht. assert (0 < exp (1 / beta * ln t)) by apply exp_pos. set (w := exp (1 / beta * ln t)) in *. apply Rdiv_lt_0_compat; [nra|apply Rmult_lt_0_compat; lra].
Qed.
Lemma emp_val : forall P growth delta_c m z, 0 < delta_c -> 0 < m -> 0 < growth z -> 0 <= z -> 0 < q88 (1 + z) ->
  let x := delta_c / le_sig growth m z / le_nu0 growth z in 0 < x /\
  ludlow16emp P growth delta_c m z = Fin (le_norm P * le_ev (c0_0 P) (c0_z P) z * shape88 (le_ev (beta_0 P) (beta_z P) z) (le_ev (gamma1_0 P) (gamma1_z P) z) (le_ev (gamma2_0 P) (gamma2_z P) z) x).
Proof.
  intros P growth dc m z Hd Hm Hg Hz Hq x. assert (N : 0 < le_nu0 growth z) by (rewrite le_nu0_eq by lra; apply Rdiv_lt_0_compat; auto).
  assert (X : 0 < x) by (unfold x; apply Rdiv_lt_0_compat; auto; apply Rdiv_lt_0_compat; auto; now apply le_sig_pos). split; auto.
  unfold ludlow16emp. cbv zeta. fold x. unfold np_fpow. replace (Rltb x 0) with false by (symmetry; apply Rltb_false; lra). f_equal. unfold shape88. ring.
Qed.
Lemma le_ev_pos : forall p0 pz z, 0 < p0 -> 0 < le_ev p0 pz z.
Proof. intros. apply Rmult_lt_0_compat; auto. apply rp_pos. Qed.
Lemma emp_decreasing : forall P growth delta_c m1 m2 z, 0 < le_norm P -> 0 < c0_0 P -> 0 < beta_0 P -> 0 < gamma1_0 P -> 0 < gamma2_0 P ->
  0 < delta_c -> 0 < m1 < m2 -> 0 < growth z -> 0 <= z -> 0 < q88 (1 + z) ->
  exists v1 v2, ludlow16emp P growth delta_c m1 z = Fin v1 /\ ludlow16emp P growth delta_c m2 z = Fin v2 /\ 0 < v2 < v1.
Proof.
  intros P growth dc m1 m2 z Hn Hc Hb H1 H2 Hd Hm Hg Hz Hq.
  destruct (emp_val P growth dc m1 z) as [X1 E1]; auto; try lra. destruct (emp_val P growth dc m2 z) as [X2 E2]; auto; try lra.
  rewrite E1, E2. do 2 eexists. split; [reflexivity|]. split; [reflexivity|]. clear E1 E2.
  assert (K : 0 < le_norm P * le_ev (c0_0 P) (c0_z P) z) by (apply Rmult_lt_0_compat; auto; now apply le_ev_pos). split.
  - apply Rmult_lt_0_compat; auto. apply Rmult_lt_0_compat; apply rp_pos.
  - apply Rmult_lt_compat_l; auto. apply shape88_dec; try now apply le_ev_pos. split; auto.
    assert (N : 0 < le_nu0 growth z) by (rewrite le_nu0_eq by lra; apply Rdiv_lt_0_compat; auto).
    apply Rmult_lt_compat_r; [now apply Rinv_0_lt_compat|]. apply Rmult_lt_compat_l; auto. assert (S1 := le_sig_pos growth m1 z ltac:(lra) Hg). assert (S2 := le_sig_pos growth m2 z ltac:(lra) Hg).
    apply Rinv_lt_contravar; [now apply Rmult_lt_0_compat|]. now apply le_sig_dec.
Qed.
(** up to z = 7 the relation is finite, positive and falls with mass *)
Theorem c88_decreasing : forall P growth delta_c m1 m2 z, 0 < le_norm P -> 0 < c0_0 P -> 0 < beta_0 P -> 0 < gamma1_0 P -> 0 < gamma2_0 P ->
  0 < delta_c -> 0 < m1 < m2 -> 0 < growth z -> 0 <= z <= 7 ->
  exists v1 v2, ludlow16emp P growth delta_c m1 z = Fin v1 /\ ludlow16emp P growth delta_c m2 z = Fin v2 /\ 0 < v2 < v1.
Proof. intros. apply emp_decreasing; auto; try lra. apply q88_pos. lra. Qed.
Lemma emp_nan : forall P growth delta_c m z, 0 < delta_c -> 0 < m -> 0 < growth z -> 0 <= z -> q88 (1 + z) < 0 -> ludlow16emp P growth delta_c m z = NaN.
Proof.
  intros P growth dc m z Hd Hm Hg Hz Hq. unfold ludlow16emp. cbv zeta. unfold np_fpow.
  assert (N : le_nu0 growth z < 0). { rewrite le_nu0_eq by lra. assert (0 < / growth z) by now apply Rinv_0_lt_compat. unfold Rdiv. nra. }
  replace (Rltb (dc / le_sig growth m z / le_nu0 growth z) 0) with true; auto. symmetry. apply Rltb_spec.
  assert (0 < dc / le_sig growth m z) by (apply Rdiv_lt_0_compat; auto; now apply le_sig_pos). assert (/ le_nu0 growth z < 0) by now apply Rinv_lt_0_compat. unfold Rdiv in *. nra.
Qed.
(** finding: from z = 8 on it is NaN for every mass *)
Theorem c88_high_redshift_refuted : forall P growth delta_c m z, 0 < delta_c -> 0 < m -> 0 < growth z -> 8 <= z -> ludlow16emp P growth delta_c m z = NaN.
Proof. intros. apply emp_nan; auto; try lra. apply q88_neg. lra. Qed.

(** the four redshift exponents act only through (1 + z): the relation at z is the relation without evolution whose parameters
    are the given ones times (1 + z) to their exponents; at z = 0 the exponents are irrelevant *)
Lemma le_ev_zero : forall p z, le_ev p 0 z = p.
Proof. intros. unfold le_ev, Rpower. rewrite Rmult_0_l, exp_0. ring. Qed.
Theorem c88_evolution : forall c0 cz b0 bz g0 gz h0 hz norm growth delta_c m z,
  ludlow16emp (mkLE c0 cz b0 bz g0 gz h0 hz norm) growth delta_c m z =
  ludlow16emp (mkLE (c0 * Rpower (1 + z) cz) 0 (b0 * Rpower (1 + z) bz) 0 (g0 * Rpower (1 + z) gz) 0 (h0 * Rpower (1 + z) hz) 0 norm) growth delta_c m z.
Proof. intros. unfold ludlow16emp. simpl. rewrite !le_ev_zero. reflexivity. Qed.
Print Assumptions c88_evolution.
Theorem c88_today : forall c0 cz b0 bz g0 gz h0 hz cz' bz' gz' hz' norm growth delta_c m,
  ludlow16emp (mkLE c0 cz b0 bz g0 gz h0 hz norm) growth delta_c m 0 = ludlow16emp (mkLE c0 cz' b0 bz' g0 gz' h0 hz' norm) growth delta_c m 0.
Proof.
  assert (Z : forall p, Rpower (1 + 0) p = 1) by (intros; unfold Rpower; rewrite Rplus_0_r, ln_1, Rmult_0_r; apply exp_0).
  intros. rewrite c88_evolution, !Z. symmetry. rewrite c88_evolution, !Z. reflexivity.
Qed.
Print Assumptions c88_today.
(** the overall normalisation multiplies the result *)
Theorem c88_amplitude : forall c0 cz b0 bz g0 gz h0 hz norm growth delta_c m z v k,
  ludlow16emp (mkLE c0 cz b0 bz g0 gz h0 hz norm) growth delta_c m z = Fin v ->
  ludlow16emp (mkLE c0 cz b0 bz g0 gz h0 hz (k * norm)) growth delta_c m z = Fin (k * v) /\
  ludlow16emp (mkLE (k * c0) cz b0 bz g0 gz h0 hz norm) growth delta_c m z = Fin (k * v).
Proof.
  intros c0 cz b0 bz g0 gz h0 hz norm growth dc m z v k. unfold ludlow16emp. simpl. unfold np_fpow. destruct (Rltb _ 0); [discriminate|].
  intros E. injection E as <-. split; f_equal; unfold le_ev; ring.
Qed.
Print Assumptions c88_amplitude.

(** ** C53: a concrete pair of haloes whose concentrations swap with the order of the array *)
Theorem c53_order_matters_witness_refuted : exists growth sqrt_nu norm K z,
  bullock_cm norm K growth sqrt_nu [1; 2] z = [51; 1] /\ bullock_cm norm K growth sqrt_nu [2; 1] z = [1; 1].
Proof.
  exists (fun x => - x), (fun m => if Rltb m 1.5 then -60 else 1), 1, 1, 0.
  assert (G : forall x y : R, 0 <= x < y -> - y < - x) by (intros; lra).
  assert (A : bullock_raw (fun x => - x) (-60) = 50) by (apply (c53_table_ends (fun x => - x) (-60) G); lra).
  assert (B : bullock_raw (fun x => - x) 1 = 0) by (apply (c53_table_ends (fun x => - x) 1 G); lra).
  assert (L1 : Rltb 1 1.5 = true) by (apply Rltb_spec; lra). assert (L2 : Rltb 2 1.5 = false) by (apply Rltb_false; lra).
  assert (M1 : lmin [50; 0] = 0) by (simpl; unfold Rmin; destruct (Rle_dec _ _); lra). assert (M2 : lmin [0; 50] = 0) by (simpl; unfold Rmin; destruct (Rle_dec _ _); lra).
  assert (E0 : Reqb 0 0 = true) by now apply Reqb_spec. assert (E5 : Reqb 50 0 = false) by (apply Reqb_false; lra).
  assert (R0 : Rltb 0 0 = false) by (apply Rltb_false; lra). assert (R5 : Rltb 50 0 = false) by (apply Rltb_false; lra).
  unfold bullock_cm, bullock_zc. cbn [map]. rewrite L1, L2, A, B. unfold bullock_mask. rewrite M1, M2. cbn [map or_accumulate combine orb fst snd]. rewrite E0, E5.
  cbn [map or_accumulate combine orb fst snd]. rewrite R0, R5. split; repeat (f_equal; try (field; lra)); lra.
Qed.

(** C88: the exact redshift at which the relation breaks down: there is one z* between 7 and 8 (the same for every
    cosmology, mass and parameter set), with a finite, positive, decreasing relation before it and NaN after it *)
Lemma q88_derive : forall x, is_derive q88 x (- 0.564 - 0.42 * x + 0.1671 * x ^ 2 - 0.01392 * x ^ 3).
Proof. intros x. unfold q88. auto_derive; [trivial|]. simpl. lra. Qed.
Lemma q88_decr : forall x y, 7.9 <= x < y -> q88 y < q88 x.
Proof.
  intros x y Hx. apply Ropp_lt_cancel. apply (smono_of_derive (fun t => - q88 t) (fun x => - (- 0.564 - 0.42 * x + 0.1671 * x ^ 2 - 0.01392 * x ^ 3))); [lra| |].
  - intros t Ht. apply (is_derive_opp q88 t). apply q88_derive.
  - intros t Ht. assert (T : 7.9 <= t) by lra. set (s := t - 7.9). replace t with (7.9 + s) by (unfold s; lra). assert (S : 0 <= s) by (unfold s; lra). clearbody s.
    simpl. assert (0 <= s * s) by nra. assert (0 <= s * (s * s)) by (apply Rmult_le_pos; auto). lra.
Qed.
Lemma q88_root : exists x, 8 < x < 9 /\ q88 x = 0.
Proof.
  assert (C : continuity (fun t => - q88 t)). { intros t. apply continuity_pt_opp. apply derivable_continuous_pt. eexists. apply is_derive_Reals. apply q88_derive. }
  destruct (IVT (fun t => - q88 t) 8 9 C) as [x [Hx E]]; try lra.
  - assert (0 < q88 8) by (apply q88_pos; lra). lra.
  - assert (q88 9 < 0) by (apply q88_neg; lra). lra.
  - exists x. assert (q88 x = 0) by lra. split; auto. assert (0 < q88 8) by (apply q88_pos; lra). assert (q88 9 < 0) by (apply q88_neg; lra).
    split; [destruct (Req_dec x 8) as [->|]; lra|destruct (Req_dec x 9) as [->|]; lra].
Qed.
Theorem c88_threshold : exists zstar, 7 < zstar < 8 /\
  (forall P growth delta_c m1 m2 z, 0 < le_norm P -> 0 < c0_0 P -> 0 < beta_0 P -> 0 < gamma1_0 P -> 0 < gamma2_0 P ->
     0 < delta_c -> 0 < m1 < m2 -> 0 < growth z -> 0 <= z < zstar ->
     exists v1 v2, ludlow16emp P growth delta_c m1 z = Fin v1 /\ ludlow16emp P growth delta_c m2 z = Fin v2 /\ 0 < v2 < v1) /\
  (forall P growth delta_c m z, 0 < delta_c -> 0 < m -> 0 < growth z -> zstar < z -> ludlow16emp P growth delta_c m z = NaN).
Proof.
  destruct q88_root as [x [Hx E]]. exists (x - 1). split; [lra|]. split.
  - intros P growth dc m1 m2 z Hn Hc Hb H1 H2 Hd Hm Hg Hz. apply emp_decreasing; auto; try lra.
    destruct (Rle_dec (1 + z) 8); [apply q88_pos; lra|]. rewrite <- E. apply q88_decr. lra.
  - intros P growth dc m z Hd Hm Hg Hz. apply emp_nan; auto; try lra. rewrite <- E. apply q88_decr. lra.
Qed.
Print Assumptions c51_positive_power_law.
Print Assumptions c52_override.
Print Assumptions c53_masking.
Print Assumptions c53_inverse_at_nodes.
Print Assumptions c86_gap_is_linear.
Print Assumptions c87_brackets_the_root.
Print Assumptions c88_decreasing.
Print Assumptions c88_threshold.
