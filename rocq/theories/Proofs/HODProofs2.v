From Coq Require Import Reals Lra Lia Bool Psatz List Sorted.
From Coquelicot Require Import Coquelicot.
From Verif Require Import Model.RBool Model.SpecialFn Model.HOD Model.HODFloat Model.HODPopulate Model.HODLeauthaud Spec.ProbSpec
  Proofs.Calc Proofs.Erf Proofs.ProbProofs Proofs.HODProofs.
Import ListNotations.
Local Open Scope R_scope.

Ltac mulpos := first [ lra | left; apply erf1_pos | left; apply exp_pos | left; apply rpow_pos | left; apply pow10_pos
  | apply Rmult_le_pos; mulpos | apply Rplus_le_le_0_compat; mulpos | idtac ].

Lemma zehavi_nonneg : forall c Mmin M1 al m, 0 < m -> nonneg_at (Zehavi05 c Mmin M1 al) m.
Proof.
  intros. apply nonneg_generic; simpl; try (unfold one; lra).
  - destruct (zehavi_co_01 Mmin m) as [->| ->]; lra.
  - left. apply rpow_pos.
Qed.
Lemma zheng_nonneg : forall c Mmin M1 al M0 sig m, 0 < m -> nonneg_at (Zheng05 c Mmin M1 al M0 sig) m.
Proof.
  intros. apply nonneg_generic; simpl; try (unfold one; lra).
  - assert (A := zheng_range Mmin sig m). lra.
  - unfold zheng_so. destruct Rltb; [left; apply rpow_pos|lra].
Qed.
Lemma contreras_nonneg : forall c Mmin M1 al M0 sig fca fcb fs d x m, 0 < m ->
  0 <= fca <= 1 -> 0 <= fcb -> 0 <= fs -> nonneg_at (Contreras13 c Mmin M1 al M0 sig fca fcb fs d x) m.
Proof.
  intros. apply nonneg_generic; simpl; try (unfold one; lra).
  - unfold contreras_co. mulpos.
  - unfold contreras_so. mulpos.
Qed.
Lemma tinker_nonneg : forall c Mmin M1 Mcut m, 0 < m -> nonneg_at (Tinker05 c Mmin M1 Mcut) m.
Proof.
  intros. apply nonneg_generic; simpl; try (unfold one; lra).
  - destruct (zehavi_co_01 Mmin m) as [->| ->]; lra.
  - now apply tinker_so_nonneg.
Qed.
Lemma withmax_nonneg : forall c Mmin M1 al Mmax m, 0 < m -> nonneg_at (Zehavi05WithMax c Mmin M1 al Mmax) m.
Proof.
  intros. apply nonneg_generic; simpl; try (unfold one; lra).
  - destruct (withmax_co_01 Mmin Mmax m) as [->| ->]; lra.
  - left. apply rpow_pos.
Qed.
Lemma marked_nonneg : forall c Mmin M1 lA al Mmax m, 0 < m -> nonneg_at (Zehavi05Marked c Mmin M1 lA al Mmax) m.
Proof.
  intros. assert (P := pow10_pos lA). apply nonneg_generic; simpl; unfold marked_tpc; try lra.
  - destruct (withmax_co_01 Mmin Mmax m) as [->| ->]; lra.
  - unfold zehavi_so. mulpos.
Qed.
Lemma cpl_nonneg : forall c Mmin M1 lA al Mmax sA m, 0 < m -> nonneg_at (ContinuousPowerLaw c Mmin M1 lA al Mmax sA) m.
Proof.
  intros. apply nonneg_generic; simpl; try (unfold one; lra).
  unfold cpl_so. destruct (_ && _); [|lra]. mulpos.
Qed.
Lemma constant_nonneg : forall c lA Mmin sA m, 0 < m -> nonneg_at (ConstantHOD c lA Mmin sA) m.
Proof.
  intros. apply nonneg_generic; simpl; try (unfold one; lra).
  unfold constant_so. destruct Rltb; [|lra]. left; apply pow10_pos.
Qed.
Lemma spinelli_co_nonneg : forall p m, 0 < m -> 0 <= sp_a1 p -> 0 <= sp_a2 p -> 0 <= spinelli_co p m.
Proof. intros. unfold spinelli_co. mulpos. Qed.
Lemma spinelli_co_pos : forall p m, 0 < m -> 0 <= sp_a1 p -> 0 < sp_a2 p -> 0 < spinelli_co p m.
Proof.
  intros. unfold spinelli_co. apply Rmult_lt_0_compat; [|apply exp_pos]. apply Rmult_lt_0_compat; auto.
  apply Rplus_le_lt_0_compat; auto. mulpos.
Qed.
Lemma b2R_nonneg : forall b, 0 <= b2R b.
Proof. destruct b; simpl; lra. Qed.
Lemma spinelli_so_nonneg : forall p m, 0 <= spinelli_so p m.
Proof. intros. unfold spinelli_so. cbv zeta. mulpos. apply b2R_nonneg. Qed.
Lemma spinelli_nonneg : forall c p m, 0 < m -> 0 <= sp_a1 p -> 0 <= sp_a2 p ->
  (c = true -> pow10 (sp_Mmin_counts p) <= m <= pow10 (sp_Mmax_counts p)) ->
  nonneg_at (Spinelli19 c p) m.
Proof.
  intros c p m Hm H1 H2 Hc. apply nonneg_generic; simpl.
  - now apply spinelli_co_nonneg.
  - apply spinelli_so_nonneg.
  - unfold spinelli_tpc. destruct spinelli_in; lra.
  - unfold h_central; simpl. intros. destruct (Hc H) as [A B]. unfold spinelli_tpc, spinelli_in.
    rewrite (proj2 (Rleb_spec _ _) A), (proj2 (Rleb_spec _ _) B). simpl. lra.
Qed.

(** C03 *)
Lemma contreras_iff : forall Mmin sig fca x, 0 < x -> 0 < sig ->
  ((forall m, 0 < m -> 0 <= contreras_co Mmin sig fca 0 x m <= 1) <-> 0 <= fca <= 1/2).
Proof.
  intros Mmin sig fca x Hx Hs. split.
  - intros H. assert (L : 0 <= fca).
    { specialize (H 1 ltac:(lra)). rewrite contreras_fcb0 in H. assert (E := erf1_pos (log10 (1 / pow10 Mmin) / x / sig)).
      destruct (Rle_or_lt 0 fca) as [|N]; auto. nra. }
    split; auto. destruct (Rle_or_lt fca (1/2)) as [|N]; auto.
    destruct (contreras_sup Mmin sig fca x (2*fca - 1)) as [m [Hm A]]; try lra.
    specialize (H m Hm). lra.
  - intros [A B] m Hm. rewrite contreras_fcb0. set (z := log10 _ / x / sig). assert (E := erf_range z).
    split; [apply Rmult_le_pos; lra|]. nra.
Qed.
Lemma contreras_range : forall Mmin sig fca x m, 0 < fca -> 0 < contreras_co Mmin sig fca 0 x m < 2 * fca.
Proof.
  intros. rewrite contreras_fcb0. set (z := log10 _ / x / sig). assert (E := erf_range z). split.
  - apply Rmult_lt_0_compat; lra.
  - replace (2 * fca) with (fca * 2) by ring. apply Rmult_lt_compat_l; lra.
Qed.
Lemma contreras_bad : forall Mmin sig fca x, 0 < x -> 0 < sig -> 1/2 < fca ->
  exists m, 0 < m /\ 1 < contreras_co Mmin sig fca 0 x m.
Proof.
  intros. destruct (contreras_sup Mmin sig fca x (2*fca - 1)) as [m [Hm A]]; try lra. exists m. split; auto. lra.
Qed.

(** * Leauthaud11 *)
Section L.
  Variable interp1d : list R -> list R -> R -> R.
  Notation run := (leau_run interp1d).
  Notation hist := (leau_history interp1d).

  Definition is_eval (q : leau_op) : bool := match q with QMmin => false | _ => true end.
  Definition derived (p : leau_params) : R := mean_log_halo_mass p (l_sm_thresh p).

  (* two objects that differ at most in the supplied M_min and the private caches *)
  Definition equiv (o o' : leau_obj) : Prop :=
    set_Mmin (lo_params o) 0 = set_Mmin (lo_params o') 0 /\ lo_central o = lo_central o'.

  Lemma set_set : forall p a b, set_Mmin (set_Mmin p a) b = set_Mmin p b.
  Proof. reflexivity. Qed.
  Lemma set_self : forall p, set_Mmin p (l_Mmin p) = p.
  Proof. destruct p; reflexivity. Qed.
  Lemma mlhm_set : forall p v x, mean_log_halo_mass (set_Mmin p v) x = mean_log_halo_mass p x.
  Proof. reflexivity. Qed.
  Lemma mlsm_set : forall p v x, mean_log_stellar_mass interp1d (set_Mmin p v) x = mean_log_stellar_mass interp1d p x.
  Proof. reflexivity. Qed.

  (* closed form of the results *)
  Definition v_co (p : leau_params) (m : R) : R :=
    0.5 * (1 - erf ((l_sm_thresh p - mean_log_stellar_mass interp1d p m) / (sqrt 2 * l_sig_logmstar p))).
  Definition v_so (p : leau_params) (m : R) : R :=
    exp (- leau_mcut p / m) * Rpower (m / leau_msat p) (l_alphasat p) * v_co p m.
  Lemma co_val : forall o m, leau_co interp1d o m =
    (mkObj (set_Mmin (lo_params o) (derived (lo_params o))) (lo_msat o) (lo_mcut o) (lo_central o), v_co (lo_params o) m).
  Proof. reflexivity. Qed.
  Lemma so_val : forall o m, leau_so interp1d o m =
    (mkObj (set_Mmin (lo_params o) (derived (lo_params o))) (Some (leau_msat (lo_params o))) (Some (leau_mcut (lo_params o))) (lo_central o), v_so (lo_params o) m).
  Proof. reflexivity. Qed.

  Definition v_sat (o : leau_obj) (m : R) : R :=
    if lo_central o then v_co (lo_params o) m / 1 * v_so (lo_params o) m else v_so (lo_params o) m.
  Definition v_run (o : leau_obj) (q : leau_op) : R :=
    match q with
    | QCentral m => v_co (lo_params o) m
    | QNc m => v_co (lo_params o) m / 1
    | QSat m => v_sat o m
    | QNs m => v_sat o m / 1
    | QTotal m => v_co (lo_params o) m + v_sat o m
    | QSS m => v_sat o m ^ 2
    | QCS m => if lo_central o then v_sat o m * 1 else v_co (lo_params o) m * v_sat o m
    | QMmin => l_Mmin (lo_params o)
    end.
  Lemma run_val : forall o q, snd (run o q) = v_run o q.
  Proof.
    intros [p ms mc c] q. destruct q; simpl; unfold v_sat, leau_sat; simpl; try reflexivity; destruct c; reflexivity.
  Qed.
  Lemma run_params : forall o q, lo_params (fst (run o q)) =
    (if is_eval q then set_Mmin (lo_params o) (derived (lo_params o)) else lo_params o).
  Proof. intros [p ms mc c] q. destruct q; simpl; unfold leau_sat; simpl; try reflexivity; destruct c; reflexivity. Qed.
  Lemma run_central : forall o q, lo_central (fst (run o q)) = lo_central o.
  Proof. intros [p ms mc c] q. destruct q; simpl; unfold leau_sat; simpl; try reflexivity; destruct c; reflexivity. Qed.

  Lemma hist_central : forall qs o, lo_central (hist o qs) = lo_central o.
  Proof. induction qs; intros; simpl; auto. rewrite IHqs. apply run_central. Qed.
  Lemma hist_params : forall qs o, lo_params (hist o qs) =
    (if existsb is_eval qs then set_Mmin (lo_params o) (derived (lo_params o)) else lo_params o).
  Proof.
    induction qs as [|q qs IH]; intros; simpl; auto. rewrite IH, run_params. destruct (is_eval q); simpl; auto.
    destruct (existsb is_eval qs); auto.
  Qed.
  Lemma v_run_set : forall p ms mc ms' mc' c v q, is_eval q = true ->
    v_run (mkObj (set_Mmin p v) ms mc c) q = v_run (mkObj p ms' mc' c) q.
  Proof. intros. destruct q; try discriminate H; reflexivity. Qed.
  Lemma obj_eta : forall o, o = mkObj (lo_params o) (lo_msat o) (lo_mcut o) (lo_central o).
  Proof. destruct o; reflexivity. Qed.

  Lemma history_indep : forall o qs q, is_eval q = true -> snd (run (hist o qs) q) = snd (run o q).
  Proof.
    intros o qs q H. rewrite !run_val. rewrite (obj_eta (hist o qs)), hist_params, hist_central.
    destruct o as [p ms mc c]; cbn [lo_params lo_central lo_msat lo_mcut]. destruct (existsb is_eval qs).
    - now apply v_run_set.
    - rewrite <- (set_self p) at 1. now apply v_run_set.
  Qed.
  Lemma supplied_indep : forall p ms mc c v q, is_eval q = true ->
    snd (run (mkObj (set_Mmin p v) ms mc c) q) = snd (run (mkObj p ms mc c) q).
  Proof. intros. rewrite !run_val. now apply v_run_set. Qed.
  Lemma mmin_history : forall o qs, snd (run (hist o qs) QMmin) =
    (if existsb is_eval qs then mean_log_halo_mass (lo_params o) (l_sm_thresh (lo_params o)) else l_Mmin (lo_params o)).
  Proof. intros. simpl. rewrite hist_params. destruct (existsb is_eval qs); reflexivity. Qed.
  Lemma params_fixed : forall o qs qs', existsb is_eval qs = true ->
    lo_params (hist o (qs ++ qs')) = lo_params (hist o qs).
  Proof. intros. rewrite !hist_params, existsb_app, H. reflexivity. Qed.

  Lemma leau_co_range : forall o m, 0 < snd (run o (QCentral m)) < 1.
  Proof.
    intros. simpl. match goal with |- context [erf ?z] => assert (H := erf_range z) end. lra.
  Qed.
  Lemma leau_co_mono : forall o m m', 0 < l_sig_logmstar (lo_params o) ->
    mean_log_stellar_mass interp1d (lo_params o) m <= mean_log_stellar_mass interp1d (lo_params o) m' ->
    snd (run o (QCentral m)) <= snd (run o (QCentral m')).
  Proof.
    intros o m m' Hs H. rewrite !run_val. unfold v_run, v_co. set (p := lo_params o) in *.
    assert (E : erf ((l_sm_thresh p - mean_log_stellar_mass interp1d p m') / (sqrt 2 * l_sig_logmstar p))
      <= erf ((l_sm_thresh p - mean_log_stellar_mass interp1d p m) / (sqrt 2 * l_sig_logmstar p))); [|lra].
    apply erf_mono. apply Rmult_le_compat_r; [|lra]. left. apply Rinv_0_lt_compat, Rmult_lt_0_compat; auto.
    apply sqrt_lt_R0; lra.
  Qed.
  Lemma v_so_pos : forall p m, 0 < v_so p m.
  Proof.
    intros. unfold v_so. apply Rmult_lt_0_compat; [apply Rmult_lt_0_compat; [apply exp_pos|apply rpow_pos]|].
    unfold v_co. match goal with |- context [erf ?z] => assert (H := erf_range z) end. lra.
  Qed.
  Lemma v_co_pos : forall p m, 0 < v_co p m.
  Proof. intros. unfold v_co. match goal with |- context [erf ?z] => assert (H := erf_range z) end. lra. Qed.
  Lemma leau_pos : forall o q, is_eval q = true -> 0 < snd (run o q).
  Proof.
    intros o q H. rewrite run_val.
    assert (A := fun m => v_co_pos (lo_params o) m). assert (B := fun m => v_so_pos (lo_params o) m).
    assert (C : forall m, 0 < v_sat o m).
    { intros. unfold v_sat. destruct (lo_central o); auto. rewrite Rdiv_1. now apply Rmult_lt_0_compat. }
    destruct q; simpl in *; try discriminate H; rewrite ?Rdiv_1; auto.
    - specialize (A m). specialize (C m). lra.
    - specialize (C m). nra.
    - destruct (lo_central o); apply Rmult_lt_0_compat; auto. lra.
  Qed.
End L.

(** C11 *)
Definition gform (m1 b d g t : R) : R := m1 + b * t + exp (d * t * ln 10) / (1 + exp (- g * t * ln 10)) - 0.5.
Lemma rpower_pow10 : forall t d, Rpower (pow10 t) d = exp (d * t * ln 10).
Proof. intros. unfold pow10, Rpower. rewrite ln_exp. f_equal. ring. Qed.
Lemma pow10_div : forall a b, pow10 a / pow10 b = pow10 (a - b).
Proof.
  intros. unfold pow10, Rpower. unfold Rdiv. rewrite <- exp_Ropp, <- exp_plus. f_equal. ring.
Qed.
Lemma mlhm_form : forall p x, mean_log_halo_mass p x =
  gform (evolve (l_m1_0 p) (l_m1_a p) (l_redshift p)) (evolve (l_beta_0 p) (l_beta_a p) (l_redshift p))
   (evolve (l_delta_0 p) (l_delta_a p) (l_redshift p)) (evolve (l_gamma_0 p) (l_gamma_a p) (l_redshift p))
   (x - evolve (l_m0_0 p) (l_m0_a p) (l_redshift p)).
Proof.
  intros. unfold mean_log_halo_mass, gform. cbv zeta. rewrite pow10_div, log10_pow10, !rpower_pow10. reflexivity.
Qed.
Lemma gform_incr : forall m1 b d g t t', 0 < b -> 0 <= d -> 0 <= g -> t < t' -> gform m1 b d g t < gform m1 b d g t'.
Proof.
  intros m1 b d g t t' Hb Hd Hg Ht. unfold gform. assert (L := ln10_pos).
  assert (A : b * t < b * t') by (apply Rmult_lt_compat_l; auto).
  assert (B : exp (d * t * ln 10) / (1 + exp (- g * t * ln 10)) <= exp (d * t' * ln 10) / (1 + exp (- g * t' * ln 10))); [|lra].
  assert (E1 := exp_pos (- g * t * ln 10)). assert (E2 := exp_pos (- g * t' * ln 10)).
  apply Rmult_le_compat.
  - left; apply exp_pos.
  - left; apply Rinv_0_lt_compat; lra.
  - destruct (Req_dec d 0) as [->|N]; [right; f_equal; ring|]. left. apply exp_increasing. apply Rmult_lt_compat_r; auto.
    apply Rmult_lt_compat_l; lra.
  - apply Rinv_le_contravar; [lra|]. destruct (Req_dec g 0) as [->|N]; [right; do 2 f_equal; ring|].
    apply Rplus_le_compat_l. left. apply exp_increasing. apply Rmult_lt_compat_r; auto. nra.
Qed.
Lemma gform_cont : forall m1 b d g t, continuous (gform m1 b d g) t.
Proof.
  intros. apply (ex_derive_continuous (gform m1 b d g)). unfold gform. auto_derive. assert (E := exp_pos (- g * t * ln 10)). lra.
Qed.
Lemma gform_surj : forall m1 b d g y, 0 < b -> 0 <= d -> 0 <= g -> exists t, gform m1 b d g t = y.
Proof.
  intros m1 b d g y Hb Hd Hg. assert (L := ln10_pos).
  set (T := (Rabs (y - m1) + 2) / b). assert (HT : 0 < T) by (unfold T; apply Rdiv_lt_0_compat; auto; assert (Q := Rabs_pos (y - m1)); lra).
  assert (bT : b * T = Rabs (y - m1) + 2) by (unfold T; field; lra).  clearbody T.
  assert (lo : gform m1 b d g (- T) <= y).
  { unfold gform. assert (E1 := exp_pos (- g * - T * ln 10)).
    assert (exp (d * - T * ln 10) / (1 + exp (- g * - T * ln 10)) <= 1).
    { set (w := exp (- g * - T * ln 10)) in *. 
      assert (exp (d * - T * ln 10) <= 1); [|set (u := exp (d * - T * ln 10)) in *; apply Rmult_le_reg_r with (1 + w); [lra|];
        replace (u / (1 + w) * (1 + w)) with u by (field; lra); lra]. rewrite <- exp_0. 
      destruct (Req_dec d 0) as [->|N]; [right; f_equal; ring|]. left; apply exp_increasing.
      assert (0 < d * T * ln 10) by (repeat apply Rmult_lt_0_compat; lra). lra. }
    assert (Q := Rle_abs (- (y - m1))). rewrite Rabs_Ropp in Q. lra. }
  assert (hi : y <= gform m1 b d g T).
  { unfold gform. assert (E1 := exp_pos (- g * T * ln 10)).
    assert (0 < exp (d * T * ln 10) / (1 + exp (- g * T * ln 10))) by (apply Rdiv_lt_0_compat; [apply exp_pos|lra]).
    assert (Q := Rle_abs (y - m1)). lra. }
  destruct (IVT_gen (gform m1 b d g) (- T) T y) as [t [_ Ht]].
  - intros x. apply continuity_pt_filterlim. apply gform_cont.
  - rewrite Rmin_left, Rmax_right by lra. lra.
  - exists t. exact Ht.
Qed.

Definition smhm_signs (p : leau_params) : Prop :=
  0 < evolve (l_beta_0 p) (l_beta_a p) (l_redshift p) /\ 0 <= evolve (l_delta_0 p) (l_delta_a p) (l_redshift p) /\ 0 <= evolve (l_gamma_0 p) (l_gamma_a p) (l_redshift p).
Lemma mlhm_incr : forall p x y, smhm_signs p -> x < y -> mean_log_halo_mass p x < mean_log_halo_mass p y.
Proof. intros p x y [A [B C]] H. rewrite !mlhm_form. apply gform_incr; try assumption. unfold Rminus. apply Rplus_lt_compat_r. assumption. Qed.
Lemma mlhm_bij : forall p y, smhm_signs p -> exists! x, mean_log_halo_mass p x = y.
Proof.
  intros p y S. destruct S as [A [B C]] eqn:ES.
  destruct (gform_surj (evolve (l_m1_0 p) (l_m1_a p) (l_redshift p)) _ _ _ y A B C) as [t Ht].
  exists (t + evolve (l_m0_0 p) (l_m0_a p) (l_redshift p)). split.
  - rewrite mlhm_form. replace (t + evolve (l_m0_0 p) (l_m0_a p) (l_redshift p) - evolve (l_m0_0 p) (l_m0_a p) (l_redshift p)) with t by ring. exact Ht.
  - intros x' H'. destruct (Rtotal_order x' (t + evolve (l_m0_0 p) (l_m0_a p) (l_redshift p))) as [L|[E|G]]; auto.
    + apply (mlhm_incr p) in L; [|exact S]. rewrite H', mlhm_form in L.
      replace (t + evolve (l_m0_0 p) (l_m0_a p) (l_redshift p) - evolve (l_m0_0 p) (l_m0_a p) (l_redshift p)) with t in L by ring. lra.
    + apply Rgt_lt in G. apply (mlhm_incr p) in G; [|exact S]. rewrite H', mlhm_form in G.
      replace (t + evolve (l_m0_0 p) (l_m0_a p) (l_redshift p) - evolve (l_m0_0 p) (l_m0_a p) (l_redshift p)) with t in G by ring. lra.
Qed.

(* the interpolation nodes are strictly increasing, and an interpolant inverts the relation at the nodes *)
Definition strictly_increasing (xs : list R) : Prop :=
  forall i j, (i < j < length xs)%nat -> nth i xs 0 < nth j xs 0.
Definition interpolates (f : list R -> list R -> R -> R) : Prop :=
  forall xs ys i, strictly_increasing xs -> length xs = length ys -> (i < length xs)%nat ->
    f xs ys (nth i xs 0) = nth i ys 0.
Lemma table_length : length log_sm_table = 1000%nat.
Proof. unfold log_sm_table. now rewrite map_length, seq_length. Qed.
Lemma table_nth : forall i, (i < 1000)%nat -> nth i log_sm_table 0 = INR i * 14 / 999.
Proof.
  intros i H. unfold log_sm_table. set (f := fun i : nat => INR i * 14 / 999).
  rewrite nth_indep with (d' := f 0%nat) by (rewrite map_length, seq_length; exact H).
  rewrite (map_nth f), seq_nth by auto. reflexivity.
Qed.
Lemma nodes_nth : forall p i, (i < 1000)%nat -> nth i (map (mean_log_halo_mass p) log_sm_table) 0 = mean_log_halo_mass p (INR i * 14 / 999).
Proof.
  intros. rewrite nth_indep with (d' := mean_log_halo_mass p 0) by now rewrite map_length, table_length.
  rewrite map_nth, table_nth; auto.
Qed.
Lemma nodes_increasing : forall p, smhm_signs p -> strictly_increasing (map (mean_log_halo_mass p) log_sm_table).
Proof.
  intros p S i j H. rewrite map_length, table_length in H. rewrite !nodes_nth by lia. apply mlhm_incr; auto.
  assert (INR i < INR j) by (apply lt_INR; lia). lra.
Qed.
Lemma roundtrip : forall interp1d p i, interpolates interp1d -> smhm_signs p -> (i < 1000)%nat ->
  mean_log_stellar_mass interp1d p (pow10 (mean_log_halo_mass p (INR i * 14 / 999))) = INR i * 14 / 999.
Proof.
  intros f p i Hf S Hi. unfold mean_log_stellar_mass. rewrite log10_pow10, <- (nodes_nth p i Hi).
  rewrite Hf; [apply table_nth; auto|apply nodes_increasing; auto|now rewrite map_length|now rewrite map_length, table_length].
Qed.
(* an interpolant exists: table lookup *)
Fixpoint lookup (xs ys : list R) (x : R) : R :=
  match xs, ys with a :: xs', b :: ys' => if Reqb x a then b else lookup xs' ys' x | _, _ => 0 end.
Lemma lookup_interpolates : interpolates lookup.
Proof.
  intros xs. induction xs as [|a xs IH]; intros ys i S L Hi; [simpl in Hi; lia|]. destruct ys as [|b ys]; [discriminate L|].
  destruct i; simpl.
  - destruct (Reqb a a) eqn:E; auto. apply Reqb_false in E. lra.
  - destruct (Reqb _ a) eqn:E.
    + apply Reqb_spec in E. specialize (S 0%nat (Datatypes.S i)). simpl in S. simpl in Hi. specialize (S ltac:(lia)). lra.
    + apply IH; simpl in *; try lia. intros j k H. specialize (S (Datatypes.S j) (Datatypes.S k)). simpl in S. apply S. lia.
Qed.
