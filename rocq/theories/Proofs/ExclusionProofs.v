From Coq Require Import Reals Lra Lia List Bool Arith Psatz.
From Coquelicot Require Import Coquelicot.
From Verif Require Import Model.RBool Model.Quad Model.Exclusion Spec.QuadSpec
  Proofs.QuadProofs Proofs.QuadProofs2.
Import ListNotations.
Local Open Scope R_scope.

(** well formed object: at least two masses, increasing positive masses *)
Definition excl_ok (e : exclusion) : Prop :=
  (2 <= e_nm e)%nat /\ 0 < e_hd e /\ 0 < e_m e 0%nat /\
  (forall i j, (i < j)%nat -> (j < e_nm e)%nat -> e_m e i < e_m e j).

Lemma ok_pos : forall e i, excl_ok e -> (i < e_nm e)%nat -> 0 < e_m e i.
Proof. intros e i (H1 & H2 & H3 & H4) Hi. destruct i; auto. specialize (H4 0%nat (S i)). assert (0 < S i)%nat by lia. specialize (H4 H Hi). lra. Qed.
Lemma ok_dlnx : forall e, excl_ok e -> 0 < e_dlnx e.
Proof.
  intros e Hok. destruct Hok as (H1 & H2 & H3 & H4). unfold e_dlnx. rewrite <- ln_1. apply ln_increasing; [lra|].
  assert (H := H4 0%nat 1%nat ltac:(lia) ltac:(lia)). apply Rmult_lt_reg_r with (e_m e 0%nat); auto. unfold Rdiv. rewrite Rmult_assoc, Rinv_l; lra.
Qed.

Lemma cube_inj_le : forall a b, 0 <= a -> 0 <= b -> (a ^ 3 <= b ^ 3 <-> a <= b).
Proof.
  intros a b Ha Hb. split; intros K; [|apply pow_incr; lra].
  apply Rnot_lt_le. intros Q.
  assert (E : a^3 - b^3 = (a-b)*(a*a + a*b + b*b)) by ring.
  assert (0 < a * a) by (apply Rmult_lt_0_compat; lra). assert (0 <= a*b) by (apply Rmult_le_pos; lra).
  assert (0 <= b*b) by (apply Rmult_le_pos; lra).
  assert (0 < (a-b)*(a*a + a*b + b*b)) by (apply Rmult_lt_0_compat; lra). lra.
Qed.

Lemma rpower_third : forall x, 0 < x -> Rpower x (1/3) ^ 3 = x.
Proof.
  intros. rewrite <- Rpower_pow by apply exp_pos. rewrite Rpower_mult.
  replace (1/3 * INR 3) with 1 by (simpl; lra). apply Rpower_1; auto.
Qed.

Lemma r_halo_pos : forall e i, 0 < r_halo e i.
Proof. intros. apply exp_pos. Qed.
Lemma r_halo_sphere : forall e i, 0 < e_hd e -> 0 < e_m e i -> 4 / 3 * PI * r_halo e i ^ 3 * e_hd e = e_m e i.
Proof.
  intros. unfold r_halo. rewrite rpower_third.
  - field. split; [lra|]. apply PI_neq0.
  - assert (HP := PI_RGT_0). apply Rdiv_lt_0_compat; [lra|]. apply Rmult_lt_0_compat; lra.
Qed.
Lemma r_halo_unique : forall e i R0, 0 < e_hd e -> 0 < e_m e i -> 0 < R0 ->
  4 / 3 * PI * R0 ^ 3 * e_hd e = e_m e i -> R0 = r_halo e i.
Proof.
  intros e i R0 H1 H2 H3 H4. assert (E := r_halo_sphere e i H1 H2). assert (Hp := r_halo_pos e i). assert (HP := PI_RGT_0).
  assert (R0^3 = r_halo e i ^ 3).
  { apply Rmult_eq_reg_l with (4/3*PI*e_hd e); [lra|]. assert (0 < 4/3*PI*e_hd e) by (apply Rmult_lt_0_compat; lra). lra. }
  apply Rle_antisym; apply cube_inj_le; lra.
Qed.

Lemma sphere_mask_radius : forall e ir im, excl_ok e -> (im < e_nm e)%nat -> 0 < e_r e ir ->
  (sphere_mask e ir im = true <-> e_r e ir / 2 < r_halo e im).
Proof.
  intros e ir im Hok Hi Hr. unfold sphere_mask. rewrite Rltb_spec. unfold mlim.
  assert (Hm := ok_pos e im Hok Hi). destruct Hok as (_ & Hd & _).
  assert (E := r_halo_sphere e im Hd Hm). assert (Hp := r_halo_pos e im). assert (HP := PI_RGT_0).
  assert (HC : 0 < 4/3*PI*e_hd e) by (apply Rmult_lt_0_compat; lra).
  set (C := 4/3*PI*e_hd e) in *.
  replace (4 * PI * (e_r e ir / 2) ^ 3 * e_hd e / 3) with (C * (e_r e ir / 2)^3) by (unfold C; field).
  replace (e_m e im) with (C * r_halo e im ^ 3) by (rewrite <- E; unfold C; ring).
  assert (H := cube_inj_le (r_halo e im) (e_r e ir / 2) ltac:(lra) ltac:(lra)).
  split; intros K.
  - apply Rmult_lt_reg_l in K; auto. apply Rnot_le_lt. intros Q. apply H in Q. lra.
  - apply Rmult_lt_compat_l; auto. apply Rnot_le_lt. intros Q. apply H in Q. lra.
Qed.

Lemma r_halo_mono : forall e i j, excl_ok e -> (i <= j)%nat -> (j < e_nm e)%nat -> r_halo e i <= r_halo e j.
Proof.
  intros e i j Hok Hij Hj.
  assert (Hmi := ok_pos e i Hok ltac:(lia)). assert (Hmj := ok_pos e j Hok Hj).
  assert (Hle : e_m e i <= e_m e j).
  { destruct (Nat.eq_dec i j) as [->|]; [lra|]. destruct Hok as (_ & _ & _ & H). left. apply H; lia. }
  destruct Hok as (_ & Hd & _). assert (HP := PI_RGT_0).
  assert (E1 := r_halo_sphere e i Hd Hmi). assert (E2 := r_halo_sphere e j Hd Hmj).
  assert (P1 := r_halo_pos e i). assert (P2 := r_halo_pos e j).
  assert (HC : 0 < 4/3*PI*e_hd e) by (apply Rmult_lt_0_compat; lra).
  apply cube_inj_le; try lra. apply Rmult_le_reg_l with (4/3*PI*e_hd e); auto. lra.
Qed.

(** * Simpson weights *)
Lemma scipy_weight_pos : forall n i, (2 <= n)%nat -> (i < n)%nat -> 0 < scipy_simpson_weight n i.
Proof.
  intros n i Hn Hi. unfold scipy_simpson_weight.
  destruct (Nat.leb_spec n 1); [lia|]. destruct (Nat.eqb_spec n 2); [lra|].
  assert (Hs : forall m q, 0 < simpson_weight_odd m q).
  { intros. unfold simpson_weight_odd. destruct (_ || _); [lra|]. destruct (Nat.odd q); lra. }
  destruct (Nat.odd n) eqn:En; [apply Hs|].
  destruct (Nat.ltb_spec i (n-1)), (Nat.eqb_spec i (n-1)), (Nat.eqb_spec i (n-2)), (Nat.eqb_spec i (n-3)); try lia;
    try lra; try (specialize (Hs (n-1)%nat i); lra).
  (* i = n-3: an odd index, weight 4/3 - 1/12 *)
  assert (Ho : Nat.odd i = true).
  { subst i. rewrite <- Nat.negb_even, negb_false_iff in En. apply Nat.even_spec in En. destruct En as [k Ek]. apply Nat.odd_spec. exists (k-2)%nat. lia. }
  unfold simpson_weight_odd. rewrite Ho. destruct (Nat.eqb_spec i 0) as [E0|]; [rewrite E0 in Ho; discriminate Ho|].
  destruct (Nat.eqb_spec i (n-1-1)); [lia|]. simpl. lra.
Qed.

Lemma simpson_big : forall n h f, scipy_simpson n h f = h * bigsum n (fun i => scipy_simpson_weight n i * f i).
Proof. intros. unfold scipy_simpson. now rewrite sum_over_seq. Qed.
Lemma simpson_ext : forall n h f g, (forall i, (i < n)%nat -> f i = g i) -> scipy_simpson n h f = scipy_simpson n h g.
Proof. intros. rewrite !simpson_big. f_equal. apply bigsum_ext. intros. now rewrite H. Qed.
Lemma simpson_scal : forall n h c f, scipy_simpson n h (fun i => c * f i) = c * scipy_simpson n h f.
Proof. intros. rewrite !simpson_big. rewrite (bigsum_ext n _ (fun i => c * (scipy_simpson_weight n i * f i))) by (intros; ring). rewrite bigsum_scal. ring. Qed.
Lemma simpson_scalr : forall n h c f, scipy_simpson n h (fun i => f i * c) = scipy_simpson n h f * c.
Proof. intros. rewrite (simpson_ext n h _ (fun i => c * f i)) by (intros; ring). rewrite simpson_scal. ring. Qed.
Lemma simpson_le : forall n h f g, (2 <= n)%nat -> 0 <= h -> (forall i, (i < n)%nat -> f i <= g i) ->
  scipy_simpson n h f <= scipy_simpson n h g.
Proof.
  intros. rewrite !simpson_big. apply Rmult_le_compat_l; auto. apply bigsum_le. intros.
  apply Rmult_le_compat_l; auto. left. apply scipy_weight_pos; auto.
Qed.
Lemma simpson_zero : forall n h, scipy_simpson n h (fun _ => 0) = 0.
Proof. intros. rewrite simpson_big. rewrite (bigsum_ext n _ (fun _ => 0)) by (intros; ring). rewrite bigsum_zero. ring. Qed.
Lemma simpson_nonneg : forall n h f, (2 <= n)%nat -> 0 <= h -> (forall i, (i < n)%nat -> 0 <= f i) -> 0 <= scipy_simpson n h f.
Proof. intros. rewrite <- (simpson_zero n h). apply simpson_le; auto. Qed.

(** double Simpson of a product *)
Lemma simpson_dbl : forall n h f, scipy_simpson n h (fun i => scipy_simpson n h (fun j => f i * f j)) = scipy_simpson n h f ^ 2.
Proof.
  intros. rewrite (simpson_ext n h _ (fun i => f i * scipy_simpson n h f)) by (intros; apply simpson_scal).
  rewrite simpson_scalr. ring.
Qed.

(** the odd rule is composite Simpson *)
Lemma simpson_odd_rule : forall k h f, (1 <= k)%nat -> scipy_simpson (2*k+1) h f = simpson_rule h k f.
Proof.
  intros. rewrite simpson_big, <- w1_odd_sum by auto.
  replace (h / 3 * bigsum (2*k+1) (fun i => w1 (2*k+1) i * f i)) with (h * (/3 * bigsum (2*k+1) (fun i => w1 (2*k+1) i * f i))) by field.
  f_equal. rewrite <- bigsum_scal. apply bigsum_ext. intros i Hi. rewrite w1_or. unfold scipy_simpson_weight, simpson_weight_odd.
  destruct (Nat.leb_spec (2*k+1) 1); [lia|]. destruct (Nat.eqb_spec (2*k+1) 2); [lia|].
  rewrite <- Nat.negb_odd, odd_2k1. simpl negb. cbv iota. destruct (_ || _); [field|]. destruct (Nat.odd i); field.
Qed.

(** * large and small separations, xmin not active *)
Section NoMin.
  Variables (ius : ius_t) (e : exclusion).
  Hypothesis Hok : excl_ok e.
  Hypothesis Hx : e_xmin e = None.
  Let n := e_nm e. Let h := e_dlnx e.
  Let Hn : (2 <= n)%nat. Proof. apply Hok. Qed.
  Let Hh : 0 <= h. Proof. left. apply ok_dlnx; auto. Qed.

  Lemma spl_simpson : forall f, spline_integrate ius e f = scipy_simpson n h f.
  Proof. intros. unfold spline_integrate. now rewrite Hx. Qed.

  Lemma noexcl_eq : forall ir ik, noexcl_integrate ius e ir ik = scipy_simpson n h (raw_integrand e ir ik) ^ 2.
  Proof.
    intros. unfold noexcl_integrate, raw_integrand. destruct (e_bias e); rewrite spl_simpson; auto.
    f_equal. apply simpson_ext. intros; ring.
  Qed.
  Lemma sphere_eq : forall ir ik, sphere_integrate ius e ir ik
     = scipy_simpson n h (fun i => scipy_simpson n h (fun j =>
         b2R (negb (sphere_mask e ir i) && negb (sphere_mask e ir j)) * (raw_integrand e ir ik i * raw_integrand e ir ik j))).
  Proof.
    intros. unfold sphere_integrate. rewrite spl_simpson, <- simpson_dbl. apply simpson_ext; intros. apply simpson_ext; intros.
    unfold zero_where. destruct (sphere_mask e ir i), (sphere_mask e ir i0); simpl; ring.
  Qed.
  Lemma dblsphere_eq : forall ir ik, dblsphere_integrate ius e ir ik
     = scipy_simpson n h (fun i => scipy_simpson n h (fun j =>
         b2R (negb (dblsphere_mask e ir i j)) * (raw_integrand e ir ik i * raw_integrand e ir ik j))).
  Proof.
    intros. unfold dblsphere_integrate. rewrite spl_simpson. apply simpson_ext; intros. apply simpson_ext; intros.
    unfold zero_where. destruct (dblsphere_mask e ir i i0); simpl; ring.
  Qed.
  Lemma ell_eq : forall ir ik, ell_integrate ius e ir ik
     = scipy_simpson n h (fun i => scipy_simpson n h (fun j =>
         ell_prob e ir i j * (raw_integrand e ir ik i * raw_integrand e ir ik j))).
  Proof. intros. unfold ell_integrate. rewrite spl_simpson. reflexivity. Qed.

  Lemma dbl_le : forall (P Q : nat -> nat -> R) f,
    (forall i, (i < n)%nat -> 0 <= f i) ->
    (forall i j, (i < n)%nat -> (j < n)%nat -> P i j <= Q i j) ->
    scipy_simpson n h (fun i => scipy_simpson n h (fun j => P i j * (f i * f j)))
    <= scipy_simpson n h (fun i => scipy_simpson n h (fun j => Q i j * (f i * f j))).
  Proof.
    intros P Q f Hf HPQ. apply simpson_le; auto. intros. apply simpson_le; auto. intros.
    apply Rmult_le_compat_r; auto. apply Rmult_le_pos; auto.
  Qed.
  Lemma dbl_ext : forall (P Q : nat -> nat -> R) f,
    (forall i j, (i < n)%nat -> (j < n)%nat -> P i j = Q i j) ->
    scipy_simpson n h (fun i => scipy_simpson n h (fun j => P i j * (f i * f j)))
    = scipy_simpson n h (fun i => scipy_simpson n h (fun j => Q i j * (f i * f j))).
  Proof. intros. apply simpson_ext; intros. apply simpson_ext; intros. now rewrite H. Qed.
  Lemma noexcl_dbl : forall ir ik, noexcl_integrate ius e ir ik
     = scipy_simpson n h (fun i => scipy_simpson n h (fun j => 1 * (raw_integrand e ir ik i * raw_integrand e ir ik j))).
  Proof.
    intros. rewrite noexcl_eq, <- simpson_dbl. apply simpson_ext; intros. apply simpson_ext; intros. ring.
  Qed.
  Lemma zero_dbl : forall f, scipy_simpson n h (fun i => scipy_simpson n h (fun j => 0 * (f i * f j))) = 0.
  Proof.
    intros. rewrite (simpson_ext n h _ (fun _ => 0)); [apply simpson_zero|]. intros.
    rewrite (simpson_ext n h _ (fun _ => 0)); [apply simpson_zero|]. intros; ring.
  Qed.
End NoMin.

(** * ellipsoidal probability *)
Definition smooth_step (t : R) : R := let y := Rmax 0 (Rmin 1 t) in 3 * y ^ 2 - 2 * y ^ 3.
Lemma clip01_eq : forall x, clip01 x = Rmax 0 (Rmin 1 x).
Proof.
  intros. unfold clip01, Rltb. destruct (Rlt_dec x 0); [rewrite Rmin_right, Rmax_left; lra|].
  destruct (Rlt_dec 1 x); [rewrite Rmin_left, Rmax_right; lra|]. rewrite Rmin_right, Rmax_right; lra.
Qed.
Lemma clip01_bounds : forall x, 0 <= clip01 x <= 1.
Proof. intros. unfold clip01, Rltb. destruct (Rlt_dec x 0), (Rlt_dec 1 x); lra. Qed.
Lemma clip01_mono : forall x y, x <= y -> clip01 x <= clip01 y.
Proof. intros. unfold clip01, Rltb. destruct (Rlt_dec x 0), (Rlt_dec 1 x), (Rlt_dec y 0), (Rlt_dec 1 y); lra. Qed.
Lemma clip01_low : forall x, x <= 0 -> clip01 x = 0.
Proof. intros. unfold clip01, Rltb. destruct (Rlt_dec x 0), (Rlt_dec 1 x); lra. Qed.
Lemma clip01_high : forall x, 1 <= x -> clip01 x = 1.
Proof. intros. unfold clip01, Rltb. destruct (Rlt_dec x 0), (Rlt_dec 1 x); lra. Qed.
Lemma poly_mono : forall a b, 0 <= a -> a <= b -> b <= 1 -> 3*a^2 - 2*a^3 <= 3*b^2-2*b^3.
Proof. intros. 
  assert (3*b^2-2*b^3 - (3*a^2 - 2*a^3) = (b-a)*(3*(a+b) - 2*(a^2+a*b+b^2))) by ring.
  assert (0 <= 3*(a+b) - 2*(a^2+a*b+b^2)).
  { assert (a*a <= a) by nra. assert (b*b<=b) by nra. assert (a*b <= a) by nra. assert (a*b <= b) by nra. nra. }
  assert (0 <= (b-a)*(3*(a+b) - 2*(a^2+a*b+b^2))) by (apply Rmult_le_pos; lra). lra.
Qed.

Lemma ell_prob_bounds : forall e ir i j, 0 <= ell_prob e ir i j <= 1.
Proof.
  intros. unfold ell_prob. cbv zeta. set (y := clip01 _). assert (H : 0 <= y <= 1) by apply clip01_bounds. clearbody y.
  assert (A := poly_mono 0 y). assert (B := poly_mono y 1). lra.
Qed.
Lemma ell_prob_sym : forall e ir i j, ell_prob e ir i j = ell_prob e ir j i.
Proof. intros. unfold ell_prob. now rewrite (Rplus_comm (r_halo e i)). Qed.
Lemma ell_prob_zero : forall e ir i j, e_r e ir <= 8/10 * (r_halo e i + r_halo e j) -> ell_prob e ir i j = 0.
Proof.
  intros. unfold ell_prob. cbv zeta. assert (P1 := r_halo_pos e i). assert (P2 := r_halo_pos e j).
  assert (e_r e ir * (1 / (r_halo e i + r_halo e j)) <= 8/10).
  { apply Rmult_le_reg_r with (r_halo e i + r_halo e j); [lra|]. replace (e_r e ir * (1 / (r_halo e i + r_halo e j)) * (r_halo e i + r_halo e j)) with (e_r e ir) by (field; lra). lra. }
  assert (E : clip01 ((e_r e ir * (1 / (r_halo e i + r_halo e j)) - 8/10) / (29/100)) = 0).
  { apply clip01_low. lra. }
  rewrite E. ring.
Qed.
Lemma ell_prob_one : forall e ir i j, 109/100 * (r_halo e i + r_halo e j) <= e_r e ir -> ell_prob e ir i j = 1.
Proof.
  intros. unfold ell_prob. cbv zeta. assert (P1 := r_halo_pos e i). assert (P2 := r_halo_pos e j).
  assert (109/100 <= e_r e ir * (1 / (r_halo e i + r_halo e j))).
  { apply Rmult_le_reg_r with (r_halo e i + r_halo e j); [lra|]. replace (e_r e ir * (1 / (r_halo e i + r_halo e j)) * (r_halo e i + r_halo e j)) with (e_r e ir) by (field; lra). lra. }
  assert (E : clip01 ((e_r e ir * (1 / (r_halo e i + r_halo e j)) - 8/10) / (29/100)) = 1).
  { apply clip01_high. lra. }
  rewrite E. ring.
Qed.
Lemma ell_prob_mono : forall e ir ir' i j, e_r e ir <= e_r e ir' -> ell_prob e ir i j <= ell_prob e ir' i j.
Proof.
  intros. unfold ell_prob. cbv zeta. assert (P1 := r_halo_pos e i). assert (P2 := r_halo_pos e j).
  assert (0 < 1 / (r_halo e i + r_halo e j)) by (apply Rdiv_lt_0_compat; lra).
  assert (e_r e ir * (1 / (r_halo e i + r_halo e j)) <= e_r e ir' * (1 / (r_halo e i + r_halo e j))) by (apply Rmult_le_compat_r; lra).
  apply poly_mono; try apply clip01_bounds. apply clip01_mono. lra.
Qed.
Lemma prob_numba_eq : forall e ir buf i j, (i <= j)%nat -> (j < e_nm e)%nat -> prob_numba e ir buf i j = ell_prob e ir i j.
Proof.
  intros. unfold prob_numba, fill_upper, ell_prob. cbv zeta.
  destruct (Nat.ltb_spec i (e_nm e)); [|lia]. destruct (Nat.ltb_spec j (e_nm e)); [|lia]. destruct (Nat.leb_spec i j); [|lia]. simpl.
  replace (e_r e ir * (1 / (r_halo e i + r_halo e j))) with (e_r e ir / (r_halo e i + r_halo e j)) by (unfold Rdiv; ring).
  set (x := (e_r e ir / (r_halo e i + r_halo e j) - 8/10) / (29/100)). unfold clip01, Rltb, Rleb.
  destruct (Rle_dec x 0), (Rlt_dec x 0), (Rle_dec 1 x), (Rlt_dec 1 x); try lra.
  - replace x with 0 by lra. ring.
  - replace x with 1 by lra. ring.
Qed.

(** continuity in r *)
Definition prob_at (s r : R) : R := let y := clip01 ((r * (1 / s) - 8/10) / (29/100)) in 3*y^2-2*y^3.
Lemma clip01_lip : forall x y, Rabs (clip01 x - clip01 y) <= Rabs (x - y).
Proof. intros. unfold clip01, Rltb. destruct (Rlt_dec x 0), (Rlt_dec 1 x), (Rlt_dec y 0), (Rlt_dec 1 y); unfold Rabs; repeat destruct Rcase_abs; lra. Qed.
Lemma clip01_cont : forall x, continuous clip01 x.
Proof.
  intros x P [d Hd]. exists d. intros y Hy. apply Hd. unfold ball in *; simpl in *. unfold AbsRing_ball, abs, minus, plus, opp in *; simpl in *.
  eapply Rle_lt_trans; [|apply Hy]. apply clip01_lip.
Qed.
Lemma prob_at_cont : forall s r, continuous (prob_at s) r.
Proof.
  intros. unfold prob_at.
  apply (continuous_comp (fun r => clip01 ((r * (1/s) - 8/10)/(29/100))) (fun y => 3*y^2-2*y^3)).
  - apply (continuous_comp (fun r => ((r * (1/s) - 8/10)/(29/100))) clip01); [|apply clip01_cont].
    apply (ex_derive_continuous (fun r => ((r * (1/s) - 8/10)/(29/100)))). auto_derive. auto.
  - apply (ex_derive_continuous (fun y => 3*y^2-2*y^3)). auto_derive. auto.
Qed.

(** * numba loops *)
Lemma fill_upper_ext : forall n g buf X, 
  (forall i j, (i <= j)%nat -> (j < n)%nat -> g i j = X i j) ->
  forall W, tri_accumulate n n W (fill_upper n g buf) = tri_accumulate n n W X.
Proof.
  intros. apply tri_accumulate_upper_only. intros i j Hi Hij Hj. unfold fill_upper.
  destruct (Nat.ltb_spec i n); [|lia]. destruct (Nat.ltb_spec j n); [|lia]. destruct (Nat.leb_spec i j); [|lia].
  simpl. apply H; lia.
Qed.
Lemma dblsphere_mask_sym : forall e ir i j, dblsphere_mask e ir i j = dblsphere_mask e ir j i.
Proof. intros. unfold dblsphere_mask. now rewrite Rplus_comm. Qed.

Lemma numba_loop_val : forall e todo buf, (exists k, (1 <= k)%nat /\ e_nm e = (2*k+1)%nat) ->
  dblsphere_numba_loop e todo buf
  = map (fun '(ir, ik) => ((ir, ik), scipy_simpson (e_nm e) (e_dlnx e) (fun im =>
    scipy_simpson (e_nm e) (e_dlnx e) (zero_where (dblsphere_mask e ir im)
      (fun jm => raw_integrand e ir ik im * raw_integrand e ir ik jm))))) todo.
Proof.
  intros e todo buf [k [Hk E]]. revert buf. induction todo as [|[ir ik] rest IH]; intros; [reflexivity|].
  simpl. rewrite IH. f_equal. f_equal. rewrite E.
  set (g := fun im jm => if dblsphere_mask e ir im jm then 0 else raw_integrand e ir ik im * raw_integrand e ir ik jm).
  transitivity (dblsimps_ (2*k+1) (2*k+1) g (e_dlnx e) (e_dlnx e)).
  - unfold dblsimps_. f_equal. f_equal. apply fill_upper_ext. reflexivity.
  - rewrite dblsimps_odd, simpson_odd_rule by (auto; intros; unfold g; rewrite dblsphere_mask_sym; destruct dblsphere_mask; ring).
    apply simpson_rule_ext. intros. rewrite simpson_odd_rule by auto. reflexivity.
Qed.

(** Numba ellipsoid *)
Lemma ell_density_mod_numba_eq : forall ius e ir buf, (2 <= e_nm e)%nat -> e_xmin e = None ->
  ell_density_mod_numba e ir buf = ell_density_mod ius e ir.
Proof.
  intros ius e ir buf Hn Hx. unfold ell_density_mod_numba, ell_density_mod. rewrite Hx. f_equal.
  rewrite dbltrapz_iter by auto. rewrite <- dbltrapz_numba; auto.
  - unfold dbltrapz_. f_equal. f_equal. apply tri_accumulate_upper_only. intros. rewrite prob_numba_eq by lia. ring.
  - intros. rewrite ell_prob_sym. ring.
Qed.
Lemma ell_numba_val : forall e prob todo buf, (2 <= e_nm e)%nat ->
  (forall ir i j, (i <= j)%nat -> (j < e_nm e)%nat -> prob ir i j = ell_prob e ir i j) ->
  ell_numba_loop e prob todo buf =
  map (fun '(ir, ik) => ((ir, ik), trapezoid_rule (e_dlnx e) (e_nm e - 1) (fun im =>
     trapezoid_rule (e_dlnx e) (e_nm e - 1) (fun jm =>
        ell_prob e ir im jm * (raw_integrand e ir ik im * raw_integrand e ir ik jm))))) todo.
Proof.
  intros e prob todo buf Hn Hp. revert buf. induction todo as [|[ir ik] rest IH]; intros; [reflexivity|].
  simpl. rewrite IH. f_equal. f_equal. rewrite <- dbltrapz_numba; auto.
  - unfold dbltrapz_. f_equal. f_equal. apply fill_upper_ext. intros. rewrite Hp by lia. ring.
  - intros. rewrite ell_prob_sym. ring.
Qed.

(** * NgMatched *)
Lemma cumtrap_mono : forall h f i j, 0 <= h -> (forall q, (q <= j)%nat -> 0 <= f q) -> (i <= j)%nat ->
  cumulative_trapezoid h f i <= cumulative_trapezoid h f j.
Proof.
  intros h f i j Hh Hf Hij. unfold cumulative_trapezoid. rewrite !sum_over_seq.
  induction j; [replace i with 0%nat by lia; lra|].
  destruct (Nat.eq_dec i (S j)) as [->|]; [lra|].
  eapply Rle_trans; [apply IHj; [intros; apply Hf; lia|lia]|]. simpl.
  assert (0 <= f j) by (apply Hf; lia). assert (0 <= f (S j)) by (apply Hf; lia).
  assert (0 <= h * (f j + f (S j)) / 2) by (apply Rmult_le_pos; [apply Rmult_le_pos; lra|lra]). lra.
Qed.
