(** C155: a sample weighted towards heavier haloes is more biased and has a larger effective mass. *)
From Coq Require Import String Reals Lra Lia Bool Psatz List Arith.
From Coquelicot Require Import Coquelicot.
From Verif Require Import Model.RBool Model.SpecialFn Model.Profiles Model.SplineInt Model.ExtSpline Model.Quad Model.Exclusion Model.HOD Model.HaloModel.
From Verif Require Import Spec.HMSpec Proofs.Calc Proofs.Erf Proofs.HODProofs Proofs.HMProofs Props.HODProps Props.HaloModelProps Props.HaloModelProps2 Props.FourierPairHMProps Props.HMTotalProps Props.CompositeProps.
Import ListNotations.
Local Open Scope R_scope.

(** ** Chebyshev's inequality for a positive combination *)
Lemma lin_pos : forall w f n, (forall i, (i < n)%nat -> 0 <= w i * f i) -> 0 <= lincomb w f n.
Proof. intros w f n. induction n as [|n IH]; simpl; intros H; [lra|]. assert (A := IH ltac:(intros; apply H; lia)). assert (B := H n ltac:(lia)). lra. Qed.
Lemma lin_plus : forall w f g n, lincomb w (fun i => f i + g i) n = lincomb w f n + lincomb w g n.
Proof. intros w f g n. induction n as [|n IH]; simpl; [ring|]. rewrite IH. ring. Qed.
Lemma lin_scal : forall w f c n, lincomb w (fun i => c * f i) n = c * lincomb w f n.
Proof. intros w f c n. induction n as [|n IH]; simpl; [ring|]. rewrite IH. ring. Qed.
Lemma lin_swap : forall w K n k, lincomb w (fun i => lincomb w (K i) n) k = lincomb w (fun j => lincomb w (fun i => K i j) k) n.
Proof.
  intros w K n k. induction k as [|k IH]; simpl.
  - induction n as [|n IHn]; simpl; [reflexivity|]. rewrite <- IHn. ring.
  - rewrite IH, <- lin_scal, <- lin_plus. apply lincomb_ext. intros j _. ring.
Qed.
Lemma chebyshev : forall w p q f n, (forall i, (i < n)%nat -> 0 <= w i) ->
  (forall i j, (i < j < n)%nat -> p j * q i <= p i * q j /\ f i <= f j) ->
  lincomb w (fun i => p i * f i) n * lincomb w q n <= lincomb w (fun i => q i * f i) n * lincomb w p n.
Proof.
  intros w p q f n W M. set (K i j := (q i * p j - p i * q j) * f i).
  assert (E : lincomb w (fun i => lincomb w (K i) n) n = lincomb w (fun i => q i * f i) n * lincomb w p n - lincomb w (fun i => p i * f i) n * lincomb w q n).
  { replace (lincomb w (fun i => lincomb w (K i) n) n) with (lincomb w (fun i => lincomb w p n * (q i * f i) + - lincomb w q n * (p i * f i)) n).
    - rewrite lin_plus, !lin_scal. ring.
    - apply lincomb_ext. intros i _. rewrite (lincomb_ext w (K i) (fun j => q i * f i * p j + - (p i * f i) * q j)) by (intros; unfold K; ring). rewrite lin_plus, !lin_scal. ring. }
  assert (S : 2 * lincomb w (fun i => lincomb w (K i) n) n = lincomb w (fun i => lincomb w (fun j => K i j + K j i) n) n).
  { rewrite (lincomb_ext w (fun i => lincomb w (fun j => K i j + K j i) n) (fun i => lincomb w (K i) n + lincomb w (fun j => K j i) n)) by (intros; apply lin_plus).
    rewrite lin_plus. rewrite <- (lin_swap w K n n). ring. }
  assert (P : 0 <= lincomb w (fun i => lincomb w (fun j => K i j + K j i) n) n).
  { apply lin_pos. intros i Hi. apply Rmult_le_pos; [now apply W|]. apply lin_pos. intros j Hj. apply Rmult_le_pos; [now apply W|]. unfold K.
    replace ((q i * p j - p i * q j) * f i + (q j * p i - p j * q i) * f j) with ((q i * p j - p i * q j) * (f i - f j)) by ring.
    destruct (Nat.lt_trichotomy i j) as [H|[->|H]]; [destruct (M i j ltac:(lia)); nra|nra|destruct (M j i ltac:(lia)); nra]. }
  lra.
Qed.
Lemma mint_chebyshev : forall I h x p q f, q_linear I -> q_positive I -> grid (d_nm h) (d_m h) -> xmin_ok h x ->
  (forall i j, (i < j < d_nm h)%nat -> p j * q i <= p i * q j /\ f i <= f j) ->
  mint I h (fun i => p i * f i) x * mint I h q x <= mint I h (fun i => q i * f i) x * mint I h p x.
Proof.
  intros I h x p q f L P G X M. destruct (mint_lincomb I h x L G) as [w W]. rewrite !W. apply chebyshev; auto.
  intros i Hi. set (d := fun j => if (j =? i)%nat then 1 else 0). assert (D : 0 <= mint I h d x) by (apply mint_pos; auto; intros j _; unfold d; destruct (j =? i)%nat; lra).
  rewrite W in D. assert (E : forall k, lincomb w d k = if (i <? k)%nat then w i else 0).
  { induction k as [|k IH]; [reflexivity|]. cbn [lincomb]. rewrite IH. unfold d. destruct (Nat.ltb_spec i k), (Nat.ltb_spec i (S k)), (Nat.eqb_spec k i); try lia; subst; ring. }
  rewrite E in D. destruct (Nat.ltb_spec i (d_nm h)); [auto|lia].
Qed.

(** ** the occupation that a halo model integrates *)
(** [t2] follows heavier haloes than [t1]: the ratio of the occupations does not decrease with mass *)
Definition heavier (h : dmhm) (occ1 occ2 : R -> R) : Prop := forall i j, (i < j < d_nm h)%nat -> occ1 (d_m h j) * occ2 (d_m h i) <= occ1 (d_m h i) * occ2 (d_m h j).
(** what stands for the occupation in a mass integral: all galaxies of an uncut tracer; with a cut, one central per halo and the satellites *)
Definition integrated (hd : hod) (m : R) : R := match tracer_mmin hd with None => total_occupation hd m | Some _ => 1 + satellite_occupation hd m end.
Lemma integrated_eq : forall hd m, integrated hd m = tot_int hd m.
Proof. intros hd m. unfold integrated, tot_int, cen_int, tracer_mmin. destruct (cut hd); reflexivity. Qed.

Section Order.
  Variables (I : quadrature) (h : dmhm) (t1 t2 : tracer).
  Hypothesis LI : q_linear I.
  Hypothesis PI_ : q_positive I.
  Hypothesis GM : grid (d_nm h) (d_m h).
  Hypothesis SAME : tracer_mmin (t_hod t1) = tracer_mmin (t_hod t2).
  Hypothesis X : match tracer_mmin (t_hod t1) with Some x => 0 < x <= d_m h (d_nm h - 1)%nat | None => True end.
  Hypothesis HV : heavier h (integrated (t_hod t1)) (integrated (t_hod t2)).
  Hypothesis DN : forall i, (i < d_nm h)%nat -> 0 <= d_dndm h i.
  Hypothesis D1 : 0 < mean_tracer_den I h t1.
  Hypothesis D2 : 0 < mean_tracer_den I h t2.
  Lemma averages : forall f, (forall i j, (i < j < d_nm h)%nat -> f i <= f j) ->
    tint I h t1 (fun i => d_dndm h i * tot_int (t_hod t1) (d_m h i) * f i) / mean_tracer_den I h t1 <= tint I h t2 (fun i => d_dndm h i * tot_int (t_hod t2) (d_m h i) * f i) / mean_tracer_den I h t2.
  Proof.
    intros f F. apply Rmult_le_reg_r with (mean_tracer_den I h t1 * mean_tracer_den I h t2); [nra|].
    replace (tint I h t1 (fun i => d_dndm h i * tot_int (t_hod t1) (d_m h i) * f i) / mean_tracer_den I h t1 * (mean_tracer_den I h t1 * mean_tracer_den I h t2)) with (tint I h t1 (fun i => d_dndm h i * tot_int (t_hod t1) (d_m h i) * f i) * mean_tracer_den I h t2) by (field; lra).
    replace (tint I h t2 (fun i => d_dndm h i * tot_int (t_hod t2) (d_m h i) * f i) / mean_tracer_den I h t2 * (mean_tracer_den I h t1 * mean_tracer_den I h t2)) with (tint I h t2 (fun i => d_dndm h i * tot_int (t_hod t2) (d_m h i) * f i) * mean_tracer_den I h t1) by (field; lra).
    unfold tint, mean_tracer_den, tint. rewrite <- SAME. apply mint_chebyshev; auto. intros i j Hij. split; [|now apply F].
    assert (V := HV i j Hij). rewrite !integrated_eq in V. assert (P := Rmult_le_pos _ _ (DN i ltac:(lia)) (DN j ltac:(lia))). apply Rmult_le_compat_l with (r := d_dndm h i * d_dndm h j) in V; auto. nra.
  Qed.
  Theorem c155_bias : (forall i j, (i < j < d_nm h)%nat -> d_bias h i <= d_bias h j) -> bias_effective_tracer I h t1 <= bias_effective_tracer I h t2.
  Proof. intros B. exact (averages (d_bias h) B). Qed.
  Theorem c155_mass : (forall i, (i < d_nm h)%nat -> 0 <= integrated (t_hod t1) (d_m h i)) -> mass_effective I h t1 <= mass_effective I h t2.
  Proof.
    intros O. assert (A := averages (d_m h) (fun i j H => Rlt_le _ _ (proj2 (proj2 GM) i j H))).
    assert (B := average_bounds I h t1 (d_m h) (d_m h 0%nat) (d_m h (d_nm h - 1)%nat) LI PI_ GM). unfold xmin_ok in B. specialize (B X D1).
    assert (C : forall i, (i < d_nm h)%nat -> 0 <= weight h t1 i /\ d_m h 0%nat <= d_m h i <= d_m h (d_nm h - 1)%nat).
    { intros i Hi. repeat split; [unfold weight; rewrite <- integrated_eq; apply Rmult_le_pos; auto|apply (grid_mono (d_nm h)); auto; lia|apply (grid_mono (d_nm h)); auto; lia]. }
    specialize (B C). destruct B as [B _]. assert (M0 : 0 < d_m h 0%nat) by (apply GM; apply GM).
    assert (E : forall x, tint I h x (fun i => d_m h i * d_dndm h i * tot_int (t_hod x) (d_m h i)) = tint I h x (fun i => d_dndm h i * tot_int (t_hod x) (d_m h i) * d_m h i)) by (intros; unfold tint; apply mint_ext; intros; ring).
    unfold mass_effective. rewrite !E. unfold weight in B. assert (L10 : 0 < ln 10) by (rewrite <- ln_1; apply ln_increasing; lra).
    unfold Rdiv at 1 3. apply Rmult_le_compat_r; [left; now apply Rinv_0_lt_compat|]. apply ln_le; lra.
  Qed.
End Order.
Print Assumptions c155_bias.
Print Assumptions c155_mass.

(** ** the error-function step is log-concave *)
Definition up (x : R) : R := 1 + erf x.
Lemma up_pos : forall x, 0 < up x. Proof. intros x. unfold up. assert (H := erf_range x). lra. Qed.
Definition dup (x : R) : R := 2 / sqrt PI * exp (- x ^ 2).
Lemma up_derive : forall x, is_derive up x (dup x).
Proof. intros x. unfold up. replace (dup x) with (0 + dup x) by ring. apply (is_derive_plus (V:=R_NormedModule) (fun _ => 1) erf); [apply (is_derive_const (V:=R_NormedModule))|apply erf_derive]. Qed.
Lemma dup_derive : forall x, is_derive dup x (- 2 * x * dup x).
Proof. intros x. unfold dup. evar_last; [auto_derive; auto|]. simpl. ring. Qed.
Lemma mills_mono : forall x y, x <= y -> dup x + 2 * x * up x <= dup y + 2 * y * up y.
Proof.
  intros x y H. apply (mono_of_derive (fun t => dup t + 2 * t * up t) (fun t => 2 * up t)); auto; [|intros; assert (P := up_pos x0); lra].
  intros t _. assert (A := up_derive t). assert (B := dup_derive t).
  replace (2 * up t) with (- 2 * t * dup t + (2 * 1 * up t + 2 * t * dup t)) by ring.
  apply (is_derive_plus (V:=R_NormedModule)); auto. apply (is_derive_mult (fun s => 2 * s) up); auto; [auto_derive; auto; ring|intros; apply Rmult_comm].
Qed.
Lemma mills : forall x, 0 <= dup x + 2 * x * up x.
Proof.
  intros x. destruct (Rle_dec 0 (dup x + 2 * x * up x)) as [H|H]; auto. exfalso. set (e := - (dup x + 2 * x * up x)) in *. assert (E : 0 < e) by (unfold e; lra).
  set (y := 1 + Rabs x + 2 / e). assert (Y1 : 2 / e < y) by (unfold y; assert (Q := Rabs_pos x); lra). assert (Y2 : 0 < y) by (assert (Q := Rdiv_lt_0_compat 2 e ltac:(lra) E); lra).
  assert (Y3 : - y <= x). { unfold y. assert (Q := Rabs_pos x). assert (Q2 := Rdiv_lt_0_compat 2 e ltac:(lra) E). assert (Q3 := Rcomplements.Rabs_maj2 x). lra. }
  assert (M := mills_mono (- y) x Y3). assert (T := erf_tail y ltac:(lra)). assert (B := exp_neg_bound (y ^ 2) ltac:(now apply pow_lt)).
  assert (U : up (- y) <= / y ^ 2) by (unfold up; rewrite erf_odd; lra).
  assert (P : 0 < dup (- y)) by (unfold dup; apply Rmult_lt_0_compat; [apply Rdiv_lt_0_compat; [lra|apply sqrtPI_pos]|apply exp_pos]).
  assert (V : 2 * y * up (- y) <= 2 / y). { apply Rle_trans with (2 * y * / y ^ 2); [apply Rmult_le_compat_l; lra|right; field; lra]. }
  assert (W : 2 / y < e). { apply Rmult_lt_reg_r with y; auto. unfold Rdiv. rewrite Rmult_assoc, Rinv_l by lra. apply Rmult_lt_compat_r with (r := e) in Y1; auto. unfold Rdiv in Y1. rewrite Rmult_assoc, Rinv_l in Y1 by lra. lra. }
  unfold e in W. lra.
Qed.
Lemma hazard : forall x y, x <= y -> dup y / up y <= dup x / up x.
Proof.
  intros x y H. enough (- (dup x / up x) <= - (dup y / up y)) by lra.
  apply (mono_of_derive (fun t => - (dup t / up t)) (fun t => dup t * (dup t + 2 * t * up t) / up t ^ 2)); auto.
  - intros t _. assert (P := up_pos t). replace (dup t * (dup t + 2 * t * up t) / up t ^ 2) with (- ((- 2 * t * dup t * up t - dup t * dup t) / up t ^ 2)) by (field; lra).
    apply (is_derive_opp (V:=R_NormedModule)). apply is_derive_div; [apply dup_derive|apply up_derive|lra].
  - intros t _. assert (P := up_pos t). apply Rmult_le_pos; [|left; apply Rinv_0_lt_compat; now apply pow_lt]. apply Rmult_le_pos; [|apply mills].
    left. unfold dup. apply Rmult_lt_0_compat; [apply Rdiv_lt_0_compat; [lra|apply sqrtPI_pos]|apply exp_pos].
Qed.
(** shifting the step up favours larger arguments *)
Lemma step_ratio : forall x y d, x <= y -> 0 <= d -> up y * up (x - d) <= up x * up (y - d).
Proof.
  intros x y d H D. set (F t := ln (up (t - d)) - ln (up t)).
  assert (M : F x <= F y).
  { apply (mono_of_derive F (fun t => dup (t - d) / up (t - d) - dup t / up t)); auto.
    - intros t _. unfold F. apply (is_derive_minus (V:=R_NormedModule) (fun s => ln (up (s - d))) (fun s => ln (up s))).
      + assert (Q := up_pos (t - d)). replace (dup (t - d) / up (t - d)) with (1 * (dup (t - d) * / up (t - d))) by (unfold Rdiv; ring).
        apply (is_derive_comp (fun s => ln (up s)) (fun s => s - d)); [|auto_derive; auto; ring].
        apply (is_derive_comp ln up); [now apply is_derive_ln|apply up_derive].
      + assert (Q := up_pos t). apply (is_derive_comp ln up); [now apply is_derive_ln|apply up_derive].
    - intros t _. assert (Q := hazard (t - d) t ltac:(lra)). lra. }
  unfold F in M. assert (A := up_pos x). assert (B := up_pos y). assert (C := up_pos (x - d)). assert (E := up_pos (y - d)).
  assert (L : ln (up y * up (x - d)) <= ln (up x * up (y - d))) by (rewrite !ln_mult by auto; lra).
  destruct L as [L|L]; [left; apply ln_lt_inv; auto; apply Rmult_lt_0_compat; auto|right; apply ln_inv; auto; apply Rmult_lt_0_compat; auto].
Qed.

(** ** the HODs of the library *)
(** raising M_min, whatever the other parameters: error-function step with satellites under the central condition, and sharp thresholds *)
Theorem c155_raise_Mmin : forall h Mmin Mmin' M1 alpha M0 sig a Mmax sigA, grid (d_nm h) (d_m h) -> Mmin <= Mmin' -> 0 < sig ->
  heavier h (integrated (Zheng05 true Mmin M1 alpha M0 sig)) (integrated (Zheng05 true Mmin' M1 alpha M0 sig)) /\
  heavier h (integrated (ContinuousPowerLaw true Mmin M1 a alpha Mmax sigA)) (integrated (ContinuousPowerLaw true Mmin' M1 a alpha Mmax sigA)) /\
  heavier h (integrated (ConstantHOD true a Mmin sigA)) (integrated (ConstantHOD true a Mmin' sigA)).
Proof.
  intros h Mmin Mmin' M1 alpha M0 sig a Mmax sigA G HM Hs. repeat split; intros i j Hij.
  - unfold integrated. simpl tracer_mmin. cbv iota. unfold total_occupation, satellite_occupation, central_occupation, nc, h_central; simpl. unfold central_occupation, one; simpl. rewrite !Rcomplements.Rdiv_1.
    assert (S : forall m, 0 <= zheng_so M1 alpha M0 m) by (intros m; unfold zheng_so; destruct (Rltb _ _); [left; apply exp_pos|lra]). assert (Si := S (d_m h i)). assert (Sj := S (d_m h j)).
    assert (P := G). destruct P as [_ [P1 P2]]. assert (L : log10 (d_m h i) <= log10 (d_m h j)).
    { unfold log10, Rdiv. apply Rmult_le_compat_r; [left; apply Rinv_0_lt_compat; rewrite <- ln_1; apply ln_increasing; lra|]. apply ln_le; [apply P1; lia|left; apply P2; lia]. }
    assert (Q := step_ratio ((log10 (d_m h i) - Mmin) / sig) ((log10 (d_m h j) - Mmin) / sig) ((Mmin' - Mmin) / sig)).
    assert (E : forall x, (x - Mmin) / sig - (Mmin' - Mmin) / sig = (x - Mmin') / sig) by (intros; field; lra). rewrite !E in Q. unfold up in Q. unfold zheng_co.
    assert (Q' : (1 + erf ((log10 (d_m h j) - Mmin) / sig)) * (1 + erf ((log10 (d_m h i) - Mmin') / sig)) <= (1 + erf ((log10 (d_m h i) - Mmin) / sig)) * (1 + erf ((log10 (d_m h j) - Mmin') / sig))).
    { apply Q; unfold Rdiv; [apply Rmult_le_compat_r; [left; now apply Rinv_0_lt_compat|lra]|apply Rmult_le_pos; [lra|left; now apply Rinv_0_lt_compat]]. }
    set (A := erf ((log10 (d_m h j) - Mmin) / sig)) in *. set (B := erf ((log10 (d_m h i) - Mmin') / sig)) in *. set (C := erf ((log10 (d_m h i) - Mmin) / sig)) in *. set (D := erf ((log10 (d_m h j) - Mmin') / sig)) in *.
    set (s := zheng_so M1 alpha M0 (d_m h i)) in *. set (s' := zheng_so M1 alpha M0 (d_m h j)) in *.
    assert (H5 : 0 < 0.5) by lra. set (hf := 0.5) in *. clearbody hf A B C D. assert (Sij := Rmult_le_pos (1 + s) (1 + s') ltac:(lra) ltac:(lra)). assert (Hh := Rmult_lt_0_compat hf hf H5 H5).
    apply Rle_trans with ((hf * hf) * ((1 + s) * (1 + s')) * ((1 + A) * (1 + B))); [right; ring|].
    apply Rle_trans with ((hf * hf) * ((1 + s) * (1 + s')) * ((1 + C) * (1 + D))); [|right; ring].
    apply Rmult_le_compat_l; auto. apply Rmult_le_pos; lra.
  - unfold integrated. simpl tracer_mmin. cbv iota. unfold total_occupation, satellite_occupation, central_occupation, h_central; simpl. rewrite !Rplus_0_l.
    assert (P := G). destruct P as [_ [_ P2]]. assert (Mij := P2 i j Hij). assert (T : pow10 Mmin <= pow10 Mmin') by (apply pow10_mono; lra).
    unfold cpl_so. set (f := fun m => pow10 a * (Rpower (m / pow10 M1) alpha + 1)). fold (f (d_m h i)). fold (f (d_m h j)).
    assert (F : forall m, 0 <= f m) by (intros m; unfold f; apply Rmult_le_pos; [left; apply exp_pos|assert (Q := exp_pos (alpha * ln (m / pow10 M1))); unfold Rpower; lra]). assert (Fi := F (d_m h i)). assert (Fj := F (d_m h j)). clearbody f.
    destruct (Rleb (pow10 Mmin') (d_m h i)) eqn:E1.
    + apply Rleb_spec in E1. replace (Rleb (pow10 Mmin) (d_m h i)) with true by (symmetry; apply Rleb_spec; lra). replace (Rleb (pow10 Mmin) (d_m h j)) with true by (symmetry; apply Rleb_spec; lra). replace (Rleb (pow10 Mmin') (d_m h j)) with true by (symmetry; apply Rleb_spec; lra). simpl andb.
      destruct (Rleb (d_m h j) (pow10 Mmax)), (Rleb (d_m h i) (pow10 Mmax)); nra.
    + simpl andb. cbv iota. rewrite Rmult_0_r. destruct (_ && _)%bool; destruct (_ && _)%bool; nra.
  - unfold integrated. simpl tracer_mmin. cbv iota. unfold total_occupation, satellite_occupation, central_occupation, h_central; simpl. rewrite !Rplus_0_l.
    assert (P := G). destruct P as [_ [_ P2]]. assert (Mij := P2 i j Hij). assert (T : pow10 Mmin <= pow10 Mmin') by (apply pow10_mono; lra).
    unfold constant_so. assert (A := exp_pos (a * ln 10)). fold (Rpower 10 a) in A. fold (pow10 a) in A.
    destruct (Rltb (pow10 Mmin') (d_m h i)) eqn:E1.
    + apply Rltb_spec in E1. replace (Rltb (pow10 Mmin) (d_m h i)) with true by (symmetry; apply Rltb_spec; lra). replace (Rltb (pow10 Mmin') (d_m h j)) with true by (symmetry; apply Rltb_spec; lra). destruct (Rltb (pow10 Mmin) (d_m h j)); nra.
    + rewrite Rmult_0_r. destruct (Rltb (pow10 Mmin) (d_m h i)), (Rltb (pow10 Mmin') (d_m h j)); nra.
Qed.
Print Assumptions c155_raise_Mmin.

(** lowering M1 (more satellites), centrals and threshold unchanged *)
Theorem c155_lower_M1 : forall h Mmin M1 M1' alpha M0 sig, grid (d_nm h) (d_m h) -> M1' <= M1 -> 0 <= alpha ->
  heavier h (integrated (Zehavi05 true Mmin M1 alpha)) (integrated (Zehavi05 true Mmin M1' alpha)) /\
  heavier h (integrated (Zheng05 true Mmin M1 alpha M0 sig)) (integrated (Zheng05 true Mmin M1' alpha M0 sig)).
Proof.
  intros h Mmin M1 M1' alpha M0 sig G HM Ha.
  assert (K : forall x, 0 < x -> Rpower (x / pow10 M1') alpha = pow10 (alpha * (M1 - M1')) * Rpower (x / pow10 M1) alpha).
  { intros x Hx. assert (P1 : 0 < pow10 M1) by apply exp_pos. assert (P2 : 0 < pow10 M1') by apply exp_pos.
    replace (x / pow10 M1') with (pow10 (M1 - M1') * (x / pow10 M1)).
    - rewrite <- Rpower_mult_distr; [|apply exp_pos|now apply Rdiv_lt_0_compat]. f_equal. unfold pow10. rewrite Rpower_mult. f_equal. ring.
    - unfold pow10, Rminus. rewrite Rpower_plus, Rpower_Ropp. fold (pow10 M1). fold (pow10 M1'). field. lra. }
  set (k := pow10 (alpha * (M1 - M1'))) in *. assert (K1 : 1 <= k). { unfold k. rewrite <- pow10_0. apply pow10_mono. apply Rmult_le_pos; lra. }
  assert (MONO : forall u v, 0 < u <= v -> Rpower u alpha <= Rpower v alpha).
  { intros u v [U V]. destruct (Req_dec alpha 0) as [->|N]; [unfold Rpower; rewrite !Rmult_0_l; lra|]. destruct V as [V|V]; [left; apply Rlt_Rpower_l; lra|subst; lra]. }
  assert (Q1 : 0 < pow10 M1) by apply exp_pos.
  split; intros i j Hij; assert (P := G); destruct P as [_ [P1 P2]]; assert (Mij := P2 i j Hij); assert (Mi := P1 i ltac:(lia)); unfold integrated.
  - replace (tracer_mmin (Zehavi05 true Mmin M1 alpha)) with (Some (Rpower 10 Mmin)) by reflexivity. replace (tracer_mmin (Zehavi05 true Mmin M1' alpha)) with (Some (Rpower 10 Mmin)) by reflexivity. cbv iota.
    unfold satellite_occupation, nc, h_central; simpl. unfold central_occupation, one; simpl. rewrite !Rcomplements.Rdiv_1. unfold zehavi_so, zehavi_co. rewrite !K by lra.
    assert (S := MONO (d_m h i / pow10 M1) (d_m h j / pow10 M1) ltac:(split; [now apply Rdiv_lt_0_compat|unfold Rdiv; apply Rmult_le_compat_r; [left; now apply Rinv_0_lt_compat|lra]])).
    assert (Sp : 0 < Rpower (d_m h i / pow10 M1) alpha) by apply exp_pos. set (s := Rpower (d_m h i / pow10 M1) alpha) in *. set (s' := Rpower (d_m h j / pow10 M1) alpha) in *.
    destruct (Rltb (d_m h i) (pow10 Mmin)) eqn:E; destruct (Rltb (d_m h j) (pow10 Mmin)) eqn:E'; try (apply Rltb_false in E); try (apply Rltb_spec in E'); [lra|nra|lra|].
    assert (0 <= (k - 1) * (s' - s)) by (apply Rmult_le_pos; lra). nra.
  - simpl tracer_mmin. cbv iota. unfold total_occupation, satellite_occupation, central_occupation, nc, h_central; simpl. unfold central_occupation, one; simpl. rewrite !Rcomplements.Rdiv_1.
    set (c := zheng_co Mmin sig (d_m h i)). set (c' := zheng_co Mmin sig (d_m h j)).
    assert (C : 0 <= c) by (unfold c; destruct (zheng_range Mmin sig (d_m h i)); lra). assert (C' : 0 <= c') by (unfold c'; destruct (zheng_range Mmin sig (d_m h j)); lra).
    assert (Z : forall m, 0 < m -> zheng_so M1' alpha M0 m = k * zheng_so M1 alpha M0 m).
    { intros m Hm. unfold zheng_so. destruct (Rltb (pow10 M0) m) eqn:E; [|ring]. apply Rltb_spec in E. apply K. lra. }
    rewrite !Z by lra.
    assert (S : 0 <= zheng_so M1 alpha M0 (d_m h i) <= zheng_so M1 alpha M0 (d_m h j)).
    { unfold zheng_so. destruct (Rltb (pow10 M0) (d_m h i)) eqn:E; [apply Rltb_spec in E; replace (Rltb (pow10 M0) (d_m h j)) with true by (symmetry; apply Rltb_spec; lra)|].
      - split; [left; apply exp_pos|]. apply MONO. split; [apply Rdiv_lt_0_compat; lra|]. unfold Rdiv; apply Rmult_le_compat_r; [left; now apply Rinv_0_lt_compat|lra].
      - split; [lra|]. destruct (Rltb (pow10 M0) (d_m h j)); [left; apply exp_pos|lra]. }
    set (s := zheng_so M1 alpha M0 (d_m h i)) in *. set (s' := zheng_so M1 alpha M0 (d_m h j)) in *. clearbody k s s' c c'.
    replace ((c' + c' * s') * (c + c * (k * s))) with (c * c' * ((1 + s') * (1 + k * s))) by ring. replace ((c + c * s) * (c' + c' * (k * s'))) with (c * c' * ((1 + s) * (1 + k * s'))) by ring.
    apply Rmult_le_compat_l; [now apply Rmult_le_pos|]. assert (0 <= (k - 1) * (s' - s)) by (apply Rmult_le_pos; lra). nra.
Qed.
Print Assumptions c155_lower_M1.

(** the hypotheses are met: two thresholds of the error-function step on the three masses of the example *)
Example c155_met : let t1 := mkTr (Zheng05 true 12 13 1 11 0.5) (fun _ _ => 1) (fun _ _ => 1) None in let t2 := mkTr (Zheng05 true 12.5 13 1 11 0.5) (fun _ _ => 1) (fun _ _ => 1) None in
  heavier h1_ex (integrated (t_hod t1)) (integrated (t_hod t2)) /\ (forall i j, (i < j < d_nm h1_ex)%nat -> d_bias h1_ex i <= d_bias h1_ex j) /\
  0 < mean_tracer_den step_quad h1_ex t1 /\ 0 < mean_tracer_den step_quad h1_ex t2.
Proof.
  intros t1 t2. split; [|split].
  - exact (proj1 (c155_raise_Mmin h1_ex 12 12.5 13 1 11 0.5 0 0 0 h0_grid ltac:(lra) ltac:(lra))).
  - intros i j Hij. simpl. apply Rplus_le_compat_l. apply le_INR. lia.
  - assert (K : forall M, 0 < mean_tracer_den step_quad h1_ex (mkTr (Zheng05 true M 13 1 11 0.5) (fun _ _ => 1) (fun _ _ => 1) None)).
    { intros M. apply mint3_pos. intros i Hi. change (d_dndm h1_ex i) with 1. rewrite Rmult_1_l, <- integrated_eq. unfold integrated. simpl tracer_mmin. cbv iota.
      generalize (d_m h1_ex i). intros m. unfold total_occupation, satellite_occupation, central_occupation, nc, h_central; simpl. unfold central_occupation, one; simpl. rewrite !Rcomplements.Rdiv_1.
      assert (S : 0 <= zheng_so 13 1 11 m) by (unfold zheng_so; destruct (Rltb _ _); [left; apply exp_pos|lra]).
      assert (C : 0 < zheng_co M 0.5 m) by (unfold zheng_co; assert (Q := erf_range ((log10 m - M) / 0.5)); lra). assert (0 <= zheng_co M 0.5 m * zheng_so 13 1 11 m) by (apply Rmult_le_pos; lra). lra. }
    split; apply K.
Qed.
