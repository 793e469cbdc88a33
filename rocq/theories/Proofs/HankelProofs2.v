From Coq Require Import Reals Ascii String List Bool ZArith Lra Lia.
From Verif Require Import Model.RBool Model.NumpyList Model.Hankel Spec.HankelSpec
  Proofs.ExtSplineProofs Proofs.HankelProofs.
Import ListNotations.
Local Open Scope R_scope.

Lemma sinh_pos : forall t, 0 < t -> 0 < sinh t.
Proof.
  intros t Ht. unfold sinh. assert (exp (- t) < exp t) by (apply exp_increasing; lra). lra.
Qed.
Lemma cosh_pos : forall t, 0 < cosh t.
Proof. intros t. unfold cosh. pose proof (exp_pos t). pose proof (exp_pos (-t)). lra. Qed.
Lemma tanh_bounds : forall t, 0 < t -> 0 < tanh t < 1.
Proof.
  intros t Ht. unfold tanh. pose proof (sinh_pos t Ht). pose proof (cosh_pos t).
  split; [apply Rdiv_lt_0_compat; assumption|].
  apply Rmult_lt_reg_r with (cosh t); [assumption|].
  unfold Rdiv. rewrite Rmult_assoc, Rinv_l by lra.
  unfold sinh, cosh in *. pose proof (exp_pos (-t)). lra.
Qed.
Lemma sinh_ge : forall t, 0 <= t -> t <= sinh t.
Proof.
  intros t Ht. unfold sinh.
  destruct (Req_dec t 0) as [->|Hn]; [rewrite Ropp_0, exp_0; lra|].
  (* exp t >= ... via exp(t) - exp(-t) >= 2t: MVT-free, from exp convexity *)
  assert (H : forall u, 0 <= u -> 2 * u <= exp u - exp (- u)).
  { intros u Hu. destruct (Req_dec u 0) as [->|Hu0]; [rewrite Ropp_0, exp_0; lra|].
    set (F := fun v => exp v - exp (- v) - 2 * v).
    assert (D : forall v, derivable_pt_lim F v (exp v + exp (- v) - 2)).
    { intros v. unfold F.
      replace (exp v + exp (- v) - 2) with (exp v - (exp (- v) * (- 1)) - 2 * 1) by ring.
      apply derivable_pt_lim_minus.
      - apply derivable_pt_lim_minus.
        + apply derivable_pt_lim_exp.
        + apply (derivable_pt_lim_comp (fun v => - v) exp).
          * replace (-1) with (- (1)) by ring. apply derivable_pt_lim_opp. apply derivable_pt_lim_id.
          * apply derivable_pt_lim_exp.
      - apply (derivable_pt_lim_scal (fun v => v) 2 v 1). apply derivable_pt_lim_id. }
    destruct (MVT_cor2 F (fun v => exp v + exp (- v) - 2) 0 u ltac:(lra)
      ltac:(intros c _; apply D)) as (c & E & Hc).
    assert (Z : 0 <= exp c + exp (- c) - 2).
    { pose proof (exp_pos c). pose proof (exp_pos (-c)).
      assert (P : exp c * exp (- c) = 1) by (rewrite <- exp_plus; replace (c + - c) with 0 by ring; apply exp_0).
      assert (0 <= exp (-c) * ((exp c - 1) * (exp c - 1))) by (apply Rmult_le_pos; [lra|apply Rle_0_sqr]).
      replace (exp (-c) * ((exp c - 1) * (exp c - 1))) with (exp c * (exp c * exp (-c)) - 2 * (exp c * exp (-c)) + exp (-c)) in * by ring.
      rewrite P in *. lra. }
    unfold F in E. rewrite Ropp_0, exp_0 in E. nra. }
  specialize (H t Ht). lra.
Qed.

Lemma tanh_gt_half : forall t, 1 <= t -> 1/2 < tanh t.
Proof.
  intros t Ht. unfold tanh. pose proof (cosh_pos t).
  apply Rmult_lt_reg_r with (cosh t); [assumption|].
  unfold Rdiv. rewrite (Rmult_assoc (sinh t)), Rinv_l by lra.
  unfold sinh, cosh in *.
  pose proof (exp_pos (-t)).
  assert (exp t = exp (2 * t) * exp (- t)) by (rewrite <- exp_plus; f_equal; ring).
  assert (3 < exp (2 * t)) by (pose proof (exp_ineq1 (2 * t)); lra).
  nra.
Qed.

Lemma og_dpsi_pos : forall h n, 0 < h -> (1 <= n)%nat -> 0 < og_dpsi h n.
Proof.
  intros h n Hh Hn. unfold og_dpsi.
  assert (Ht : 0 < og_t h n).
  { unfold og_t. apply Rmult_lt_0_compat; [assumption|]. apply lt_0_INR; lia. }
  assert (Hs : 0 < og_s h n).
  { unfold og_s. apply Rmult_lt_0_compat; [apply PI_RGT_0|apply sinh_pos; assumption]. }
  pose proof (cosh_pos (og_s h n)).
  replace (Reqb (1 + cosh (og_s h n)) 0) with false by (symmetry; apply Reqb_false; lra).
  apply Rdiv_lt_0_compat; [|lra].
  pose proof (sinh_pos _ Hs). pose proof (cosh_pos (og_t h n)). pose proof PI_RGT_0.
  assert (0 < PI * og_t h n * cosh (og_t h n)) by (apply Rmult_lt_0_compat; [apply Rmult_lt_0_compat|]; assumption).
  lra.
Qed.

(** the guard [dpsi != 0] of the code never excludes anything *)
Lemma og_dpsi_guard_never_false : forall h n, 1 + cosh (og_s h n) <> 0.
Proof. intros; pose proof (cosh_pos (og_s h n)); lra. Qed.

Lemma og_x_bounds : forall h n, 0 < h -> (1 <= n)%nat -> 0 < og_x h n < PI * INR n.
Proof.
  intros h n Hh Hn. unfold og_x.
  assert (0 < INR n) by (apply lt_0_INR; lia). pose proof PI_RGT_0.
  assert (Hs : 0 < og_s h n / 2).
  { apply Rdiv_lt_0_compat; [|lra]. unfold og_s.
    apply Rmult_lt_0_compat; [apply PI_RGT_0|apply sinh_pos]. unfold og_t. nra. }
  destruct (tanh_bounds _ Hs). assert (0 < PI * INR n) by (apply Rmult_lt_0_compat; assumption).
  split; nra.
Qed.

Lemma og_w1_pos : forall h, 0 < h -> 0 < og_sumpart h 1.
Proof.
  intros h Hh. destruct (og_x_bounds h 1 Hh ltac:(lia)) as [H1 H2].
  simpl INR in H2. unfold og_sumpart.
  pose proof PI_RGT_0. pose proof (og_dpsi_pos h 1 Hh ltac:(lia)).
  assert (0 < sin (og_x h 1)) by (apply sin_gt_0; lra).
  apply Rmult_lt_0_compat; [apply Rmult_lt_0_compat; [apply Rmult_lt_0_compat|]|]; assumption.
Qed.

Lemma og_w2_neg : og_sumpart 1 2 < 0.
Proof.
  assert (Hh : 0 < 1) by lra.
  destruct (og_x_bounds 1 2 Hh ltac:(lia)) as [H1 H2].
  simpl INR in H2. pose proof PI_RGT_0 as HPI.
  assert (H3 : PI < og_x 1 2).
  { unfold og_x. simpl INR.
    assert (1/2 < tanh (og_s 1 2 / 2)).
    { apply tanh_gt_half. unfold og_s, og_t. simpl INR.
      assert (2 <= sinh 2) by (apply sinh_ge; lra).
      replace (1 * (1 + 1)) with 2 by ring. pose proof PI2_1. nra. }
    nra. }
  unfold og_sumpart. pose proof (og_dpsi_pos 1 2 Hh ltac:(lia)).
  assert (sin (og_x 1 2) < 0) by (apply sin_lt_0; lra).
  assert (0 < PI * og_dpsi 1 2 * og_x 1 2) by (apply Rmult_lt_0_compat; [apply Rmult_lt_0_compat|]; lra).
  nra.
Qed.

Lemma og_nmax_1 : og_nmax 1 = 3%nat.
Proof.
  unfold og_nmax. replace (32 / 10 / 1) with (32/10) by field.
  assert (E : (up (32/10) = 4)%Z).
  { symmetry. apply tech_up; simpl; lra. }
  unfold Int_part. rewrite E. reflexivity.
Qed.

Lemma partial_sum_scal : forall (t t' : nat -> R) lam n,
  (forall i, t' i = lam * t i) -> partial_sum t' n = lam * partial_sum t n.
Proof.
  intros t t' lam n H. unfold partial_sum. induction (seq 1 n) as [|i l IH]; simpl; [ring|].
  rewrite IH, H. ring.
Qed.

Definition scale_fun (lam : R) (p : R -> option R) (k : R) : option R :=
  match p k with Some v => Some (lam * v) | None => None end.

Lemma og_term_scale : forall h p rr lam i,
  og_term h (scale_fun lam p) rr i = lam * og_term h p rr i.
Proof.
  intros h p rr lam i. unfold og_term, scale_fun.
  destruct (p (og_x h i / rr)); simpl; ring.
Qed.

Lemma hankel_loop_homogeneous : forall h atol rtol c p rr lam fuel j,
  (1 <= c)%nat -> (og_nmax h <= fuel + 1)%nat ->
  first_stop atol rtol (og_nmax h) c (og_term h p rr) j ->
  first_stop atol rtol (og_nmax h) c (og_term h (scale_fun lam p) rr) j ->
  exists v, hankel_loop h atol rtol c p rr fuel 1 100 0 = Some v /\
            hankel_loop h atol rtol c (scale_fun lam p) rr fuel 1 100 0 = Some (lam * v).
Proof.
  intros h atol rtol c p rr lam fuel j Hc Hf F1 F2.
  destruct (loop_first_stop h atol rtol c p rr Hc fuel Hf) as (j1 & G1 & E1 & _).
  destruct (loop_first_stop h atol rtol c (scale_fun lam p) rr Hc fuel Hf) as (j2 & G2 & E2 & _).
  rewrite (first_stop_unique _ _ _ _ _ _ _ G1 F1) in E1.
  rewrite (first_stop_unique _ _ _ _ _ _ _ G2 F2) in E2.
  eexists. split; [exact E1|]. rewrite E2. f_equal.
  apply partial_sum_scal. intros; apply og_term_scale.
Qed.

Lemma hankel_early_stop : forall h atol rtol c p rr fuel,
  (1 <= c)%nat -> (og_nmax h <= fuel + 1)%nat -> (2 <= og_nmax h)%nat -> atol < 100 ->
  Rabs (partial_sum (og_term h p rr) c) <= atol + rtol * Rabs (partial_sum (og_term h p rr) c) ->
  hankel_loop h atol rtol c p rr fuel 1 100 0 = Some (partial_sum (og_term h p rr) c).
Proof.
  intros h atol rtol c p rr fuel Hc Hf Hn Ha Hs.
  destruct (loop_first_stop h atol rtol c p rr Hc fuel Hf) as (j & G & E & _).
  rewrite E. replace j with 1%nat; [rewrite Nat.mul_1_l; reflexivity|].
  symmetry. eapply first_stop_unique; [exact G|]. split.
  - left. unfold close, previous_sum, chunk_sum. rewrite Nat.mul_1_l. cbn [Nat.mul].
    unfold partial_sum at 1. simpl. rewrite Rminus_0_l, Rabs_Ropp. exact Hs.
  - intros i Hi. assert (i = 0)%nat by lia; subst. intros [K|K]; [|lia].
    unfold close, previous_sum, chunk_sum, partial_sum in K. simpl in K.
    rewrite Rabs_R0, Rminus_0_r, Rabs_pos_eq in K by lra. lra.
Qed.

(** concrete failure of homogeneity, default tolerances *)
Lemma hankel_not_homogeneous : exists (p : R -> option R) (lam v w : R) (fuel : nat),
  hankel_loop 1 (1/10^8) (1/10^8) 1 p 1 fuel 1 100 0 = Some v /\
  hankel_loop 1 (1/10^8) (1/10^8) 1 (scale_fun lam p) 1 fuel 1 100 0 = Some w /\
  0 < lam /\ w <> lam * v.
Proof.
  set (a := 1/10^8).
  assert (Ha : 0 < a < 1/1000) by (unfold a; split; simpl; lra).
  set (w1 := og_sumpart 1 1). set (w2 := og_sumpart 1 2).
  assert (H1 : w1 <> 0) by (pose proof (og_w1_pos 1 ltac:(lra)); unfold w1; lra).
  assert (H2 : w2 <> 0) by (pose proof og_w2_neg; unfold w2; lra).
  assert (Hx : og_x 1 2 / 1 <> og_x 1 1 / 1).
  { destruct (og_x_bounds 1 1 ltac:(lra) ltac:(lia)) as [_ K]. simpl INR in K.
    assert (PI < og_x 1 2).
    { unfold og_x. simpl INR. pose proof PI_RGT_0.
      assert (1/2 < tanh (og_s 1 2 / 2)).
      { apply tanh_gt_half. unfold og_s, og_t. simpl INR.
        assert (2 <= sinh 2) by (apply sinh_ge; lra).
        replace (1 * (1 + 1)) with 2 by ring. pose proof PI2_1. nra. }
      nra. }
    lra. }
  set (p := fun k => if Req_EM_T k (og_x 1 1 / 1) then Some (a / 2 / w1)
                     else if Req_EM_T k (og_x 1 2 / 1) then Some (1 / w2) else Some 0).
  assert (T1 : og_term 1 p 1 1 = a / 2).
  { unfold og_term, p. destruct (Req_EM_T _ _) as [_|N]; [|congruence]. simpl. fold w1. field. exact H1. }
  assert (T2 : og_term 1 p 1 2 = 1).
  { unfold og_term, p. destruct (Req_EM_T _ _) as [N|_]; [congruence|].
    destruct (Req_EM_T _ _) as [_|N]; [|congruence]. simpl. fold w2. field. exact H2. }
  assert (P1 : partial_sum (og_term 1 p 1) 1 = a / 2) by (unfold partial_sum; simpl; rewrite T1; ring).
  assert (P2 : partial_sum (og_term 1 p 1) 2 = a / 2 + 1)
    by (unfold partial_sum; simpl; rewrite T1, T2; ring).
  exists p, 4, (a / 2), (4 * (a / 2 + 1)), 3%nat. split; [|split; [|split; [lra|lra]]].
  - rewrite <- P1. apply hankel_early_stop; rewrite ?og_nmax_1; try lia; try lra.
    rewrite P1, Rabs_pos_eq by lra. nra.
  - assert (Hf : (og_nmax 1 <= 3 + 1)%nat) by (rewrite og_nmax_1; lia).
    destruct (loop_first_stop 1 a a 1 (scale_fun 4 p) 1 ltac:(lia) 3 Hf) as (j & G & E & _).
    rewrite E. f_equal.
    assert (Q : forall n, partial_sum (og_term 1 (scale_fun 4 p) 1) n = 4 * partial_sum (og_term 1 p 1) n)
      by (intros; apply partial_sum_scal; intros; apply og_term_scale).
    assert (P0 : partial_sum (og_term 1 p 1) 0 = 0) by reflexivity.
    replace j with 2%nat; [change (2 * 1)%nat with 2%nat; rewrite Q, P2; reflexivity|].
    symmetry. eapply first_stop_unique; [exact G|]. split.
    + right. rewrite og_nmax_1. lia.
    + intros i Hi. rewrite og_nmax_1. intros [K|K]; [|lia].
      unfold close, previous_sum, chunk_sum in K. destruct i as [|[|i]]; [| |lia].
      * change (0 * 1)%nat with 0%nat in K. rewrite Q, P0 in K.
        rewrite Rmult_0_r, Rabs_R0, Rminus_0_r, Rabs_pos_eq in K by lra. lra.
      * change (0 * 1)%nat with 0%nat in K. change (1 * 1)%nat with 1%nat in K.
        rewrite !Q, P0, P1 in K.
        replace (4 * 0 - 4 * (a / 2)) with (- (2 * a)) in K by field.
        replace (4 * (a/2)) with (2 * a) in K by field.
        rewrite Rabs_Ropp, Rabs_pos_eq in K by lra. nra.
Qed.

(** ** power_to_corr_ogata *)
Lemma downgrade_pos : forall pp p, (2 <= List.length p)%nat ->
  (fst (downgrade pp [p]) = true -> 0 < nth 0 p 0 /\ 0 < nth 1 p 0) /\
  (snd (downgrade pp [p]) = true ->
     0 < nth (List.length p - 1) p 0 /\ 0 < nth (List.length p - 2) p 0).
Proof.
  intros pp p Hl. unfold downgrade. cbn [fst snd forallb]. rewrite !andb_true_r. split.
  - destruct (fst pp); cbn [andb]; [|discriminate].
    destruct (first2_pos p) eqn:E; cbn [negb]; [|discriminate]. intros _.
    unfold first2_pos in E. destruct p as [|a [|b p]]; simpl in Hl; try lia.
    simpl in E. rewrite !andb_true_iff, !Rltb_spec in E. simpl. tauto.
  - destruct (snd pp); cbn [andb]; [|discriminate].
    destruct (last2_pos p) eqn:E; cbn [negb]; [|discriminate]. intros _.
    unfold last2_pos in E. rewrite forallb_forall in E.
    assert (Hin : forall i, (List.length p - 2 <= i < List.length p)%nat ->
                 In (nth i p 0) (skipn (List.length p - 2) p)).
    { intros i Hi. rewrite <- (firstn_skipn (List.length p - 2) p) at 1.
      rewrite app_nth2; rewrite firstn_length_le by lia; [|lia].
      apply nth_In. rewrite skipn_length. lia. }
    split; apply Rltb_spec; apply E; apply Hin; lia.
Qed.

Lemma pfunc_never_fails : forall pp lnk p spl logk, (2 <= List.length p)%nat ->
  exists v, pfunc (downgrade pp [p]) lnk p spl logk = PfOk v.
Proof.
  intros pp lnk p spl logk Hl. unfold pfunc.
  destruct (downgrade_pos pp p Hl) as [_ H2].
  destruct (snd (downgrade pp [p])).
  - destruct (H2 eq_refl) as [A B].
    replace (Rleb (nth (List.length p - 1) p 0) 0) with false by (symmetry; apply Rleb_false; exact A).
    replace (Rleb (nth (List.length p - 2) p 0) 0) with false by (symmetry; apply Rleb_false; exact B).
    cbn [andb orb]. destruct (Rltb logk (lmin lnk)); [destruct (fst (downgrade pp [p]))|destruct (Rltb (lmax lnk) logk)]; eauto.
  - cbn [andb orb]. destruct (Rltb logk (lmin lnk)); [destruct (fst (downgrade pp [p]))|destruct (Rltb (lmax lnk) logk)]; eauto.
Qed.

(** the extrapolated branches *)
Lemma pfunc_lower_pos : forall pp lnk p spl logk v, (2 <= List.length p)%nat ->
  fst (downgrade pp [p]) = true -> logk < lmin lnk ->
  pfunc (downgrade pp [p]) lnk p spl logk = PfOk v ->
  let slope := (ln (nth 1 p 0) - ln (nth 0 p 0)) / (nth 1 lnk 0 - nth 0 lnk 0) in
  0 < nth 0 p 0 /\ 0 < nth 1 p 0 /\ 0 < v /\
  v = nth 0 p 0 * exp (slope * (logk - nth 0 lnk 0)).
Proof.
  intros pp lnk p spl logk v Hl H1 Hk E slope.
  destruct (downgrade_pos pp p Hl) as [D _]. destruct (D H1) as [A B].
  unfold pfunc in E. rewrite H1 in E.
  destruct (snd _ && _); [discriminate|].
  replace (Rltb logk (lmin lnk)) with true in E by (symmetry; apply Rltb_spec; exact Hk).
  inversion E. split; [exact A|]. split; [exact B|]. split; [apply exp_pos|].
  rewrite exp_plus, exp_ln by exact A. rewrite Rmult_comm. f_equal. f_equal.
  unfold slope, Rdiv. ring.
Qed.

Lemma pfunc_upper_pos : forall pp lnk p spl logk v, (2 <= List.length p)%nat ->
  let n := List.length p in
  snd (downgrade pp [p]) = true -> lmax lnk < logk ->
  pfunc (downgrade pp [p]) lnk p spl logk = PfOk v ->
  let slope := (ln (nth (n-1) p 0) - ln (nth (n-2) p 0)) / (nth (n-1) lnk 0 - nth (n-2) lnk 0) in
  0 < nth (n-1) p 0 /\ 0 < nth (n-2) p 0 /\ 0 < v /\
  v = nth (n-1) p 0 * exp (slope * (logk - nth (n-1) lnk 0)).
Proof.
  intros pp lnk p spl logk v Hl n H1 Hk E slope.
  destruct (downgrade_pos pp p Hl) as [_ D]. destruct (D H1) as [A B]. fold n in A, B.
  unfold pfunc in E. rewrite H1 in E. fold n in E.
  destruct (true && _); [discriminate|].
  replace (Rltb logk (lmin lnk)) with false in E
    by (symmetry; apply Rltb_false; pose proof (lmin_le_lmax lnk); lra).
  replace (Rltb (lmax lnk) logk) with true in E by (symmetry; apply Rltb_spec; exact Hk).
  inversion E. split; [exact A|]. split; [exact B|]. split; [apply exp_pos|].
  rewrite exp_plus, exp_ln by exact A. rewrite Rmult_comm. f_equal. f_equal.
  unfold slope, Rdiv. ring.
Qed.

(** power law: k = exp logk *)
Lemma exp_slope_power : forall p0 slope l0 k, 0 < k ->
  p0 * exp (slope * (ln k - l0)) = p0 * Rpower (k / exp l0) slope.
Proof.
  intros p0 slope l0 k Hk. unfold Rpower, Rdiv.
  rewrite ln_mult; [|assumption|apply Rinv_0_lt_compat, exp_pos].
  rewrite ln_Rinv by apply exp_pos. rewrite ln_exp. reflexivity.
Qed.

Lemma og_nmax_pos : forall h, 0 < h -> ((1 <= og_nmax h)%nat <-> h <= 32 / 10).
Proof.
  intros h H. unfold og_nmax. destruct (base_Int_part (32 / 10 / h)) as [A B]. 
  assert (P : 0 < 32 / 10 / h) by (apply Rdiv_lt_0_compat; lra).
  set (z := Int_part (32 / 10 / h)) in *. split; intros L.
  - assert (1 <= z)%Z by lia. apply IZR_le in H0. assert (1 <= 32 / 10 / h) by lra. apply (Rmult_le_compat_r h) in H1; [|lra].
    replace (32 / 10 / h * h) with (32 / 10) in H1 by (field; lra). lra.
  - assert (1 <= 32 / 10 / h). { apply Rmult_le_reg_r with h; auto. replace (32 / 10 / h * h) with (32 / 10) by (field; lra). lra. }
    assert (0 < IZR z) by lra. apply lt_IZR in H1. lia.
Qed.

Lemma ogata_returns : forall spline3 power k r h pp rtol atol, (2 <= List.length power)%nat -> 0 < h <= 32 / 10 ->
  exists out, power_to_corr_ogata spline3 power k r h pp rtol atol = Some out /\
              List.length out = List.length r.
Proof.
  intros spline3 power k r h pp rtol atol Hl [Hh Hh'].
  assert (N : Nat.eqb (og_nmax h) 0 = false) by (apply Nat.eqb_neq; apply (og_nmax_pos h Hh) in Hh'; lia).
  assert (X : forall rr, exists v, ogata_point spline3 h atol rtol (downgrade pp [power]) k power rr = Some v).
  { intros rr. unfold ogata_point.
    set (kk := map (fun n => og_x h n / rr) (seq 1 (og_nmax h))).
    assert (F : forallb pf_ok (map (fun v => pfunc (downgrade pp [power]) (map ln k) power
                 (spline3 (map ln k) power) (ln v)) kk) = true).
    { apply forallb_forall. intros q Hq. apply in_map_iff in Hq. destruct Hq as (u & <- & _).
      destruct (pfunc_never_fails pp (map ln k) power (spline3 (map ln k) power) (ln u) Hl) as [v ->].
      reflexivity. }
    rewrite F, N. cbn [negb andb]. eauto. }
  unfold power_to_corr_ogata.
  assert (Y : exists out, all_some (map (ogata_point spline3 h atol rtol (downgrade pp [power]) k power) r)
                          = Some out /\ List.length out = List.length r).
  { induction r as [|rr r IH]; simpl; [eexists; split; reflexivity|].
    destruct (X rr) as [v ->]. destruct IH as (out & -> & L).
    eexists; split; [reflexivity|simpl; congruence]. }
  destruct Y as (out & -> & L). eexists; split; [reflexivity|].
  rewrite map_length, combine_length, L. lia.
Qed.

(** the selected value is one of the partial sums: the full one, or the one
    ending at the first abscissa beyond the data *)
Lemma rcumsum_nth : forall l acc i, (i < List.length l)%nat ->
  nth i (rcumsum_from acc l) 0 = acc + lsum (firstn (S i) l).
Proof.
  induction l as [|x l IH]; intros acc i Hi; simpl in Hi; [lia|].
  destruct i as [|i]; cbn [rcumsum_from nth firstn].
  - unfold lsum; simpl; ring.
  - rewrite IH by lia. unfold lsum; simpl. ring.
Qed.
Lemma rcumsum_len : forall l acc, List.length (rcumsum_from acc l) = List.length l.
Proof. induction l; intros; simpl; auto. Qed.
Lemma last_nth : forall l : list R, last l 0 = nth (List.length l - 1) l 0.
Proof.
  induction l as [|x l IH]; [reflexivity|].
  destruct l as [|y l]; [reflexivity|].
  change (last (x :: y :: l) 0) with (last (y :: l) 0). rewrite IH. simpl.
  rewrite Nat.sub_0_r. reflexivity.
Qed.
Lemma rcumsum_last : forall l, last (rcumsum l) 0 = lsum l.
Proof.
  intros l. rewrite last_nth. unfold rcumsum. rewrite rcumsum_len.
  destruct l as [|x l]; [reflexivity|].
  rewrite rcumsum_nth by (simpl; lia). rewrite firstn_all2 by (simpl; lia). ring.
Qed.
Lemma first_where_spec : forall f l i j, first_where f l i = Some j ->
  (i <= j < i + List.length l)%nat /\ f (nth (j - i) l 0) = true /\
  forall q, (i <= q < j)%nat -> f (nth (q - i) l 0) = false.
Proof.
  intros f l; induction l as [|x l IH]; intros i j H; simpl in H; [discriminate|].
  destruct (f x) eqn:E.
  - inversion H; subst. rewrite Nat.sub_diag. simpl. split; [lia|]. split; [exact E|]. intros; lia.
  - destruct (IH _ _ H) as (A & B & C). split; [simpl; lia|]. split.
    + replace (j - i)%nat with (S (j - S i)) by lia. exact B.
    + intros q Hq. destruct (Nat.eq_dec q i) as [->|]; [rewrite Nat.sub_diag; exact E|].
      replace (q - i)%nat with (S (q - S i)) by lia. apply C. lia.
Qed.

Lemma ogata_select_partial : forall atol rtol kmax kk summand,
  List.length kk = List.length summand ->
  ogata_select atol rtol kmax kk summand = lsum summand \/
  exists i, (i < List.length summand)%nat /\
    ogata_select atol rtol kmax kk summand = lsum (firstn (S i) summand) /\
    kmax < nth i kk 0 /\ forall q, (q < i)%nat -> nth q kk 0 <= kmax.
Proof.
  intros atol rtol kmax kk summand Hl. unfold ogata_select. rewrite rcumsum_last.
  destruct (Rleb (lmax kk) kmax); [left; reflexivity|].
  destruct (first_where (fun v => Rltb kmax v) kk 0) as [i|] eqn:E; [|left; reflexivity].
  destruct (isclose _ _ _ _); [|left; reflexivity].
  right. destruct (first_where_spec _ _ _ _ E) as (A & B & C).
  exists i. rewrite Nat.sub_0_r in B. split; [lia|]. split; [|split].
  - unfold rcumsum. rewrite rcumsum_nth by lia. ring.
  - apply Rltb_spec; exact B.
  - intros q Hq. specialize (C q ltac:(lia)). rewrite Nat.sub_0_r in C. apply Rltb_false; exact C.
Qed.
