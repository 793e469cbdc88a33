(** Where the occupation functions vanish (C108) and where they are normalised (C109).
    Code under study: /repo/src/halomod/hod.py:270-930. *)
From Coq Require Import Reals Lra Lia Bool Psatz List.
From Coquelicot Require Import Coquelicot.
From Verif Require Import Model.RBool Model.SpecialFn Model.HOD Model.HODLeauthaud
  Proofs.Calc Proofs.Erf Proofs.HODProofs Proofs.HODProofs2.
Import ListNotations.
Local Open Scope R_scope.

Lemma rpw_pos : forall a b, 0 < Rpower a b.
Proof. intros. apply exp_pos. Qed.
Lemma rpw_incr : forall a b p, 0 < p -> 0 < a < b -> Rpower a p < Rpower b p.
Proof. intros a b p Hp H. unfold Rpower. apply exp_increasing. apply Rmult_lt_compat_l; auto. apply ln_increasing; lra. Qed.
Lemma rpw_1 : forall p, Rpower 1 p = 1.
Proof. intros. unfold Rpower. rewrite ln_1, Rmult_0_r. apply exp_0. Qed.
Lemma sat_off : forall h m, h_kind h = Poisson -> h_flag h = false -> satellite_occupation h m = h_so h m.
Proof. intros h m K F. unfold satellite_occupation, h_central. now rewrite K, F. Qed.
Lemma sat_inh : forall h m, h_inherent h = true -> satellite_occupation h m = h_so h m.
Proof. intros h m K. unfold satellite_occupation. rewrite K, andb_false_r. reflexivity. Qed.
Lemma sat_bulk : forall h m, h_kind h = Bulk -> satellite_occupation h m = h_so h m.
Proof. intros h m K. unfold satellite_occupation, h_central. now rewrite K. Qed.
Lemma rltb_cases : forall a b, (Rltb a b = true /\ a < b) \/ (Rltb a b = false /\ b <= a).
Proof. intros. destruct (Rltb a b) eqn:E; [left; split; auto; now apply Rltb_spec|right; split; auto; now apply Rltb_false]. Qed.
Lemma rleb_cases : forall a b, (Rleb a b = true /\ a <= b) \/ (Rleb a b = false /\ b < a).
Proof. intros. destruct (Rleb a b) eqn:E; [left; split; auto; now apply Rleb_spec|right; split; auto; now apply Rleb_false]. Qed.
Lemma between_dec : forall lo hi m, (Rleb lo m && Rleb m hi = true /\ lo <= m <= hi) \/ (Rleb lo m && Rleb m hi = false /\ ~ (lo <= m <= hi)).
Proof.
  intros lo hi m. destruct (rleb_cases lo m) as [[-> A]|[-> A]]; [|right; split; auto; lra]. destruct (rleb_cases m hi) as [[-> B]|[-> B]]; [left; split; auto; lra|right; split; auto; lra].
Qed.

(** * C108: thresholds *)
(** Zehavi05 and Tinker05: exactly one central at and above 10^M_min, none below *)
Theorem c108_zehavi_central : forall central Mmin M1 alpha m,
  let n := central_occupation (Zehavi05 central Mmin M1 alpha) m in (pow10 Mmin <= m -> n = 1) /\ (m < pow10 Mmin -> n = 0).
Proof.
  intros. unfold n, central_occupation. simpl. unfold zehavi_co. destruct (rltb_cases m (pow10 Mmin)) as [[-> H]|[-> H]]; split; intros; lra.
Qed.
Theorem c108_tinker : forall central Mmin M1 Mcut m, 0 < m ->
  let h := Tinker05 central Mmin M1 Mcut in
  (pow10 Mmin <= m -> central_occupation h m = 1) /\ (m < pow10 Mmin -> central_occupation h m = 0) /\
  (satellite_occupation h m = 0 <-> m <= pow10 Mmin) /\ (pow10 Mmin < m -> 0 < satellite_occupation h m < m / pow10 M1).
Proof.
  intros central Mmin M1 Mcut m Hm h. assert (C : central_occupation h m = zehavi_co Mmin m) by reflexivity. assert (S : satellite_occupation h m = tinker_so Mmin M1 Mcut m) by (apply sat_inh; reflexivity).
  rewrite C, S. unfold tinker_so, zehavi_co. assert (P1 := pow10_pos M1). assert (Q : 0 < m / pow10 M1) by now apply Rdiv_lt_0_compat.
  destruct (rltb_cases m (pow10 Mmin)) as [[-> H]|[-> H]].
  - split; [lra|]. split; [reflexivity|]. split; [|lra]. split; [lra|]. intros _. ring.
  - split; [reflexivity|]. split; [lra|]. destruct (Reqb m (pow10 Mmin)) eqn:E.
    + apply Reqb_spec in E. split; [|lra]. split; [lra|]. intros _. ring.
    + assert (N : m <> pow10 Mmin). { intros ->. assert (T : Reqb (pow10 Mmin) (pow10 Mmin) = true) by now apply Reqb_spec. congruence. }
      assert (X := exp_pos (- pow10 Mcut / (m - pow10 Mmin))). assert (X1 : exp (- pow10 Mcut / (m - pow10 Mmin)) < 1).
      { rewrite <- exp_0. apply exp_increasing. apply Rmult_lt_reg_r with (m - pow10 Mmin); [lra|]. replace (- pow10 Mcut / (m - pow10 Mmin) * (m - pow10 Mmin)) with (- pow10 Mcut) by (field; lra). assert (Y := pow10_pos Mcut). lra. }
      rewrite Rmult_1_l. split.
      * split; [|lra]. intros Z. exfalso. assert (0 < exp (- pow10 Mcut / (m - pow10 Mmin)) * (m / pow10 M1)) by now apply Rmult_lt_0_compat. lra.
      * intros _. split; [now apply Rmult_lt_0_compat|]. rewrite <- (Rmult_1_l (m / pow10 M1)) at 2. now apply Rmult_lt_compat_r.
Qed.
(** Zheng05: no satellites at or below 10^M_0, some above *)
Theorem c108_zheng_satellites : forall Mmin M1 alpha M0 sig m,
  let n := satellite_occupation (Zheng05 false Mmin M1 alpha M0 sig) m in (n = 0 <-> m <= pow10 M0) /\ (pow10 M0 < m -> 0 < n).
Proof.
  intros Mmin M1 alpha M0 sig m n. unfold n. rewrite sat_off by reflexivity. simpl. unfold zheng_so. destruct (rltb_cases (pow10 M0) m) as [[-> H]|[-> H]].
  - assert (P := rpw_pos ((m - pow10 M0) / pow10 M1) alpha). repeat split; intros; lra.
  - repeat split; intros; lra.
Qed.
(** Zheng05: at every mass left out of the mass range (below 10^mmin) the central occupation is at most exp(-25)/2, and the bound is
    about a genuine cut: above 10^M_min it is at least 1/2 *)
Theorem c108_zheng_mmin_negligible : forall central Mmin M1 alpha M0 sig m, 0 < sig -> 0 < m ->
  let h := Zheng05 central Mmin M1 alpha M0 sig in
  (m <= pow10 (h_mmin h) -> 0 < central_occupation h m <= exp (- 25) / 2) /\ (pow10 Mmin <= m -> 1 / 2 <= central_occupation h m) /\ h_mmin h < Mmin.
Proof.
  intros central Mmin M1 alpha M0 sig m Hs Hm h. assert (C : central_occupation h m = zheng_co Mmin sig m) by reflexivity. rewrite C. unfold zheng_co. change (h_mmin h) with (Mmin - 5 * sig). split; [|split; [|lra]].
  - intros H. assert (L := log10_mono _ _ Hm H). rewrite log10_pow10 in L. set (y := (log10 m - Mmin) / sig). assert (Y : y <= - (5)). { unfold y. apply Rmult_le_reg_r with sig; auto. replace ((log10 m - Mmin) / sig * sig) with (log10 m - Mmin) by (field; lra). lra. }
    assert (R := erf_range y). assert (T := erf_tail 5 ltac:(lra)). replace (- 5 ^ 2) with (- 25) in T by (simpl; ring). assert (M := erf_mono y (- (5)) Y). rewrite erf_odd in M. split; lra.
  - intros H. assert (L := log10_mono _ _ (pow10_pos Mmin) H). rewrite log10_pow10 in L. assert (Y : 0 <= (log10 m - Mmin) / sig) by (apply Rmult_le_pos; [lra|left; now apply Rinv_0_lt_compat]). assert (M := erf_mono _ _ Y). rewrite erf_0 in M. lra.
Qed.
(** Zehavi05WithMax, Zehavi05Marked: centrals live exactly in the closed interval [10^M_min, 10^M_max] *)
Theorem c108_withmax : forall central Mmin M1 alpha Mmax logA m,
  let n := central_occupation (Zehavi05WithMax central Mmin M1 alpha Mmax) m in let k := central_occupation (Zehavi05Marked central Mmin M1 logA alpha Mmax) m in
  (pow10 Mmin <= m <= pow10 Mmax -> n = 1 /\ k = pow10 logA) /\ (~ (pow10 Mmin <= m <= pow10 Mmax) -> n = 0 /\ k = 0).
Proof.
  intros. unfold n, k, central_occupation. simpl. unfold withmax_co, marked_tpc. destruct (between_dec (pow10 Mmin) (pow10 Mmax) m) as [[-> H]|[-> H]]; split; intros; try contradiction; split; ring.
Qed.
(** ContinuousPowerLaw: nothing outside the closed interval, something inside; Constant: nothing at or below 10^M_min, 10^logA above *)
Theorem c108_bulk : forall flag Mmin M1 logA alpha Mmax sigmaA m,
  let n := total_occupation (ContinuousPowerLaw flag Mmin M1 logA alpha Mmax sigmaA) m in let k := total_occupation (ConstantHOD flag logA Mmin sigmaA) m in
  (n = 0 <-> ~ (pow10 Mmin <= m <= pow10 Mmax)) /\ (pow10 Mmin <= m <= pow10 Mmax -> pow10 logA < n) /\ (m <= pow10 Mmin -> k = 0) /\ (pow10 Mmin < m -> k = pow10 logA).
Proof.
  intros flag Mmin M1 logA alpha Mmax sigmaA m n k. unfold n, k, total_occupation. rewrite !sat_bulk by reflexivity. unfold central_occupation. simpl. unfold cpl_so, constant_so. assert (A := pow10_pos logA).
  split; [|split; [|split]].
  - destruct (between_dec (pow10 Mmin) (pow10 Mmax) m) as [[-> H]|[-> H]]; split; intros; try lra; try contradiction. exfalso. assert (P := rpw_pos (m / pow10 M1) alpha). nra.
  - intros H. destruct (between_dec (pow10 Mmin) (pow10 Mmax) m) as [[-> H']|[-> H']]; [|contradiction]. assert (P := rpw_pos (m / pow10 M1) alpha). nra.
  - intros H. destruct (rltb_cases (pow10 Mmin) m) as [[-> H']|[-> H']]; lra.
  - intros H. destruct (rltb_cases (pow10 Mmin) m) as [[-> H']|[-> H']]; lra.
Qed.
(** Spinelli19: no satellite HI below 1e11 whatever the parameters, some at and above; tracer-per-galaxy weights vanish exactly outside
    the counts window, and are 1 (central) and positive (satellite) inside *)
Theorem c108_spinelli : forall central p m, 0 < m ->
  let h := Spinelli19 central p in let window := pow10 (sp_Mmin_counts p) <= m <= pow10 (sp_Mmax_counts p) in
  (satellite_occupation (Spinelli19 false p) m = 0 <-> m < 10 ^ 11) /\ (window -> h_tpc h m = 1 /\ 0 < h_tps h m) /\ (~ window -> h_tpc h m = 0 /\ h_tps h m = 0).
Proof.
  intros central p m Hm h window. rewrite sat_off by reflexivity. simpl h_so. simpl h_tpc. simpl h_tps. unfold spinelli_tpc, spinelli_tps, spinelli_in, spinelli_so. split; [|split].
  - assert (X : 0 < pow10 (sp_M0 p) * Rpower (m / pow10 (sp_Mbreak_sat p)) (sp_beta_sat p) * exp (- Rpower (pow10 (sp_Mbreak_sat p) / m) (sp_alpha_sat p))) by (repeat apply Rmult_lt_0_compat; try apply pow10_pos; try apply rpw_pos; apply exp_pos).
    destruct (rleb_cases (10 ^ 11) m) as [[-> H]|[-> H]]; unfold b2R; split; intros; lra.
  - intros W. destruct (between_dec (pow10 (sp_Mmin_counts p)) (pow10 (sp_Mmax_counts p)) m) as [[-> H]|[-> H]]; [|contradiction]. split; auto. apply rpw_pos.
  - intros W. destruct (between_dec (pow10 (sp_Mmin_counts p)) (pow10 (sp_Mmax_counts p)) m) as [[-> H]|[-> H]]; [contradiction|]. split; auto.
Qed.
Print Assumptions c108_zheng_mmin_negligible.
Print Assumptions c108_bulk.
Print Assumptions c108_spinelli.

(** * C109: normalisation points and slopes *)
(** Zehavi05: one satellite at 10^M1, slope alpha per decade exactly *)
Theorem c109_zehavi_satellites : forall Mmin M1 alpha m d, 0 < m ->
  let n := satellite_occupation (Zehavi05 false Mmin M1 alpha) in n (pow10 M1) = 1 /\ n (pow10 d * m) = pow10 (alpha * d) * n m.
Proof.
  intros Mmin M1 alpha m d Hm n. unfold n. rewrite !sat_off by reflexivity. simpl. unfold zehavi_so. assert (P := pow10_pos M1). split.
  - replace (pow10 M1 / pow10 M1) with 1 by (field; lra). apply rpw_1.
  - assert (Q := pow10_pos d). replace (pow10 d * m / pow10 M1) with (pow10 d * (m / pow10 M1)) by (field; lra). rewrite <- Rpower_mult_distr by (auto; now apply Rdiv_lt_0_compat). f_equal. unfold pow10. rewrite Rpower_mult. f_equal. ring.
Qed.
(** Zheng05: one satellite at 10^M0 + 10^M1, slope alpha in the mass above 10^M0, increasing for alpha > 0 *)
Theorem c109_zheng_satellites : forall Mmin M1 alpha M0 sig m d, 0 < m ->
  let n := satellite_occupation (Zheng05 false Mmin M1 alpha M0 sig) in
  n (pow10 M0 + pow10 M1) = 1 /\ n (pow10 M0 + pow10 d * m) = pow10 (alpha * d) * n (pow10 M0 + m) /\
  (0 < alpha -> forall m', pow10 M0 <= m < m' -> n m < n m').
Proof.
  intros Mmin M1 alpha M0 sig m d Hm n. unfold n. rewrite !sat_off by reflexivity. simpl. unfold zheng_so. assert (P := pow10_pos M1). assert (Q := pow10_pos d).
  assert (T : forall y, 0 < y -> Rltb (pow10 M0) (pow10 M0 + y) = true) by (intros y Hy; apply Rltb_spec; lra).
  split; [|split].
  - rewrite T by auto. replace ((pow10 M0 + pow10 M1 - pow10 M0) / pow10 M1) with 1 by (field; lra). apply rpw_1.
  - rewrite !T by (auto; now apply Rmult_lt_0_compat). replace ((pow10 M0 + pow10 d * m - pow10 M0) / pow10 M1) with (pow10 d * ((pow10 M0 + m - pow10 M0) / pow10 M1)) by (field; lra).
    rewrite <- Rpower_mult_distr. 2: auto. 2: replace (pow10 M0 + m - pow10 M0) with m by ring; now apply Rdiv_lt_0_compat. f_equal. unfold pow10. rewrite Rpower_mult. f_equal. ring.
  - intros Ha m' [H1 H2]. rewrite !sat_off by reflexivity. simpl. unfold zheng_so. replace (Rltb (pow10 M0) m') with true by (symmetry; apply Rltb_spec; lra). destruct (rltb_cases (pow10 M0) m) as [[-> H]|[-> H]]; [|apply rpw_pos].
    apply rpw_incr; auto. split; [apply Rdiv_lt_0_compat; lra|]. apply Rmult_lt_compat_r; [now apply Rinv_0_lt_compat|lra].
Qed.
(** Zheng05 centrals: one half at 10^M_min, and symmetric about it in log mass *)
Theorem c109_zheng_central : forall central Mmin M1 alpha M0 sig d,
  let n := central_occupation (Zheng05 central Mmin M1 alpha M0 sig) in n (pow10 Mmin) = 1 / 2 /\ n (pow10 (Mmin + d)) + n (pow10 (Mmin - d)) = 1 /\ (0 < sig -> n (pow10 (Mmin + sig)) = (1 + erf 1) / 2).
Proof.
  intros central Mmin M1 alpha M0 sig d n. unfold n, central_occupation. simpl. unfold zheng_co. rewrite !log10_pow10. split; [|split].
  - replace ((Mmin - Mmin) / sig) with 0 by (unfold Rdiv; ring). rewrite erf_0. lra.
  - replace ((Mmin - d - Mmin) / sig) with (- ((Mmin + d - Mmin) / sig)) by (unfold Rdiv; ring). rewrite erf_odd. lra.
  - intros Hs. replace ((Mmin + sig - Mmin) / sig) with 1 by (field; lra). lra.
Qed.
(** Contreras13: the symmetric part about 10^M_min is a Gaussian bump of height fcb (1 - fca) and width x sigma on a pedestal fca; the
    antisymmetric part is the error function of the same width *)
Theorem c109_contreras_central : forall central Mmin M1 alpha M0 sig fca fcb fs delta x d, x * sig <> 0 ->
  let n := central_occupation (Contreras13 central Mmin M1 alpha M0 sig fca fcb fs delta x) in
  (n (pow10 (Mmin + d)) + n (pow10 (Mmin - d))) / 2 = fca + fcb * (1 - fca) * exp (- (d / (x * sig)) ^ 2 / 2) /\
  (n (pow10 (Mmin + d)) - n (pow10 (Mmin - d))) / 2 = fca * erf (d / (x * sig)).
Proof.
  intros central Mmin M1 alpha M0 sig fca fcb fs delta x d N n. assert (x <> 0) by (intros ->; lra). assert (sig <> 0) by (intros ->; lra).
  assert (C : forall m, n m = contreras_co Mmin sig fca fcb x m) by reflexivity. rewrite (C (pow10 (Mmin + d))), (C (pow10 (Mmin - d))). unfold contreras_co. rewrite !log10_div by apply pow10_pos. rewrite !log10_pow10.
  replace (Mmin + d - Mmin) with d by ring. replace (Mmin - d - Mmin) with (- d) by ring. replace (- d / x / sig) with (- (d / x / sig)) by (unfold Rdiv; ring). rewrite erf_odd. replace (d / (x * sig)) with (d / x / sig) by (field; auto).
  replace (- (d / x / sig) ^ 2 / 2) with (- (d ^ 2) / (2 * (x * sig) ^ 2)) by (field; auto). replace ((- d) ^ 2) with (d ^ 2) by ring. split; lra.
Qed.
(** Contreras13 satellites: fs at 10^M1; removing the power law leaves a step of height 2 fs antisymmetric about its middle *)
Theorem c109_contreras_satellites : forall Mmin M1 alpha M0 sig fca fcb fs delta x d, delta <> 0 ->
  let n := satellite_occupation (Contreras13 false Mmin M1 alpha M0 sig fca fcb fs delta x) in
  n (pow10 M1) = fs /\ n (pow10 (M1 + d)) / pow10 (alpha * d) + n (pow10 (M1 - d)) * pow10 (alpha * d) = 2 * fs /\
  n (pow10 (M1 + d)) / pow10 (alpha * d) - fs = fs * erf (d / delta) /\
  (0 <= alpha -> 0 < fs -> 0 < delta -> forall m m', 0 < m < m' -> n m < n m').
Proof.
  intros Mmin M1 alpha M0 sig fca fcb fs delta x d N n. unfold n. rewrite !sat_off by reflexivity. simpl. unfold contreras_so.
  assert (PD : forall a, Rpower (pow10 a) alpha = pow10 (alpha * a)) by (intros; unfold pow10; rewrite Rpower_mult; f_equal; ring).
  rewrite !log10_div by apply pow10_pos. rewrite !log10_pow10, !pow10_div.
  replace (M1 - M1) with 0 by ring. replace (M1 + d - M1) with d by ring. replace (M1 - d - M1) with (- d) by ring. replace (- d / delta) with (- (d / delta)) by (unfold Rdiv; ring). rewrite erf_odd.
  replace (0 / delta) with 0 by (unfold Rdiv; ring). rewrite erf_0, !PD. rewrite Rmult_0_r, pow10_0. replace (alpha * - d) with (- (alpha * d)) by ring.
  assert (I : pow10 (- (alpha * d)) = / pow10 (alpha * d)) by (unfold pow10; apply Rpower_Ropp). rewrite I. assert (Q := pow10_pos (alpha * d)).
  split; [lra|]. split; [field; lra|]. split; [field; lra|].
  intros Ha Hf Hd m m' Hm. rewrite !sat_off by reflexivity. simpl. unfold contreras_so. assert (P1 := pow10_pos M1).
  assert (L := log10_incr m m' ltac:(lra) ltac:(lra)). rewrite !log10_div by lra.
  assert (E : erf ((log10 m - M1) / delta) < erf ((log10 m' - M1) / delta)) by (apply erf_incr; apply Rmult_lt_compat_r; [now apply Rinv_0_lt_compat|lra]).
  assert (E1 := erf_range ((log10 m - M1) / delta)). assert (W : Rpower (m / pow10 M1) alpha <= Rpower (m' / pow10 M1) alpha).
  { unfold Rpower. assert (LL : alpha * ln (m / pow10 M1) <= alpha * ln (m' / pow10 M1)). { apply Rmult_le_compat_l; auto. left. apply ln_increasing; [apply Rdiv_lt_0_compat; lra|]. apply Rmult_lt_compat_r; [now apply Rinv_0_lt_compat|lra]. } destruct LL as [LL|LL]; [left; now apply exp_increasing|rewrite LL; lra]. }
  assert (Z := rpw_pos (m / pow10 M1) alpha). set (A := Rpower (m / pow10 M1) alpha) in *. set (B := Rpower (m' / pow10 M1) alpha) in *. set (e := erf ((log10 m - M1) / delta)) in *. set (e' := erf ((log10 m' - M1) / delta)) in *.
  assert (fs * (1 + e) * A < fs * (1 + e') * A). { apply Rmult_lt_compat_r; auto. nra. } assert (fs * (1 + e') * A <= fs * (1 + e') * B). { apply Rmult_le_compat_l; auto. nra. } lra.
Qed.
(** Tinker05: the satellite number tends to m / 10^M1: it is within any factor 1 - eps of it from 10^Mmin + 10^Mcut/eps on *)
Theorem c109_tinker_large_mass : forall central Mmin M1 Mcut eps m, 0 < eps < 1 -> pow10 Mmin + pow10 Mcut / eps <= m ->
  (1 - eps) * (m / pow10 M1) < satellite_occupation (Tinker05 central Mmin M1 Mcut) m < m / pow10 M1.
Proof.
  intros central Mmin M1 Mcut eps m He Hm. assert (P := pow10_pos Mcut). assert (P0 := pow10_pos Mmin). assert (D : 0 < pow10 Mcut / eps) by (apply Rdiv_lt_0_compat; lra).
  destruct (c108_tinker central Mmin M1 Mcut m ltac:(lra)) as [_ [_ [_ T]]]. specialize (T ltac:(lra)). split; [|tauto].
  rewrite sat_inh by reflexivity. simpl. unfold tinker_so, zehavi_co. replace (Rltb m (pow10 Mmin)) with false. 2: { destruct (rltb_cases m (pow10 Mmin)) as [[? X]|[-> X]]; [lra|reflexivity]. }
  replace (Reqb m (pow10 Mmin)) with false. 2: { symmetry. destruct (Reqb m (pow10 Mmin)) eqn:E; auto. apply Reqb_spec in E. lra. }
  rewrite Rmult_1_l. apply Rmult_lt_compat_r; [apply Rdiv_lt_0_compat; [lra|apply pow10_pos]|].
  assert (Y : - eps <= - pow10 Mcut / (m - pow10 Mmin)). { apply Rmult_le_reg_r with (m - pow10 Mmin); [lra|]. replace (- pow10 Mcut / (m - pow10 Mmin) * (m - pow10 Mmin)) with (- pow10 Mcut) by (field; lra). apply (Rmult_le_compat_l eps) in Hm; [|lra]. replace (eps * (pow10 Mmin + pow10 Mcut / eps)) with (eps * pow10 Mmin + pow10 Mcut) in Hm by (field; lra). lra. }
  assert (Z := exp_ineq1 (- pow10 Mcut / (m - pow10 Mmin))). assert (NZ : - pow10 Mcut / (m - pow10 Mmin) <> 0). { intros Q. assert (Q2 : - pow10 Mcut / (m - pow10 Mmin) < 0); [|lra]. apply Rmult_lt_reg_r with (m - pow10 Mmin); [lra|]. replace (- pow10 Mcut / (m - pow10 Mmin) * (m - pow10 Mmin)) with (- pow10 Mcut) by (field; lra). lra. }
  specialize (Z NZ). lra.
Qed.
(** ContinuousPowerLaw: twice the amplitude at 10^M1 when M1 is in range *)
Theorem c109_cpl_at_M1 : forall flag Mmin M1 logA alpha Mmax sigmaA, Mmin <= M1 <= Mmax ->
  total_occupation (ContinuousPowerLaw flag Mmin M1 logA alpha Mmax sigmaA) (pow10 M1) = 2 * pow10 logA.
Proof.
  intros flag Mmin M1 logA alpha Mmax sigmaA H. unfold total_occupation, central_occupation. rewrite sat_bulk by reflexivity. simpl. unfold cpl_so. assert (A := pow10_mono Mmin M1 ltac:(lra)). assert (B := pow10_mono M1 Mmax ltac:(lra)).
  destruct (between_dec (pow10 Mmin) (pow10 Mmax) (pow10 M1)) as [[-> X]|[-> X]]; [|lra]. assert (P := pow10_pos M1). replace (pow10 M1 / pow10 M1) with 1 by (field; lra). rewrite rpw_1. ring.
Qed.
(** Spinelli19: satellite HI is 10^M0 / e at its break mass; central HI never exceeds the un-suppressed mass relation and vanishes towards low mass *)
Theorem c109_spinelli : forall central p m, 0 < m -> 0 <= sp_a1 p -> 0 <= sp_a2 p ->
  (11 <= sp_Mbreak_sat p -> satellite_occupation (Spinelli19 false p) (pow10 (sp_Mbreak_sat p)) = pow10 (sp_M0 p) * exp (- (1))) /\
  0 <= central_occupation (Spinelli19 central p) m <= m * (sp_a1 p * Rpower (m / 10 ^ 10) (sp_beta p) + sp_a2 p).
Proof.
  intros central p m Hm H1 H2. split.
  - intros H. rewrite sat_off by reflexivity. simpl h_so. unfold spinelli_so. assert (P := pow10_pos (sp_Mbreak_sat p)). replace (pow10 (sp_Mbreak_sat p) / pow10 (sp_Mbreak_sat p)) with 1 by (field; lra). rewrite !rpw_1.
    assert (X := pow10_mono 11 _ H). assert (E : pow10 11 = 10 ^ 11). { unfold pow10. replace 11 with (INR 11) at 1 by (simpl; ring). apply Rpower_pow. lra. } rewrite E in X. destruct (rleb_cases (10 ^ 11) (pow10 (sp_Mbreak_sat p))) as [[-> Y]|[-> Y]]; [|lra]. unfold b2R. ring.
  - unfold central_occupation. simpl h_kind. cbv iota. simpl h_co. unfold spinelli_co. set (A := sp_a1 p * Rpower (m / 10 ^ 10) (sp_beta p)). assert (A0 : 0 <= A) by (apply Rmult_le_pos; auto; left; apply rpw_pos).
    set (e1 := exp (- Rpower (m / pow10 (sp_Mbreak p)) (sp_alpha p))). set (e2 := exp (- Rpower (pow10 (sp_M1 p) / m) 0.5)).
    assert (B1 : 0 < e1 < 1). { split; [apply exp_pos|]. unfold e1. rewrite <- exp_0. apply exp_increasing. assert (Z := rpw_pos (m / pow10 (sp_Mbreak p)) (sp_alpha p)). lra. }
    assert (B2 : 0 < e2 < 1). { split; [apply exp_pos|]. unfold e2. rewrite <- exp_0. apply exp_increasing. assert (Z := rpw_pos (pow10 (sp_M1 p) / m) 0.5). lra. }
    assert (C1 : 0 <= m * (A * e1 + sp_a2 p)) by (apply Rmult_le_pos; [lra|]; nra). assert (C2 : m * (A * e1 + sp_a2 p) <= m * (A + sp_a2 p)) by (apply Rmult_le_compat_l; [lra|]; nra). split; [apply Rmult_le_pos; lra|]. nra.
Qed.
(** Leauthaud11 (central=False): with M the threshold halo mass that the object reports after the query and T = 7.2e11, the satellites per
    central are exp(-Mcut/Msat) at Msat = bsat T (M/T)^betasat and (Mcut/Msat)^alpha / e at Mcut = bcut T (M/T)^betacut *)
Theorem c109_leauthaud_satellites : forall interp1d o m0, lo_central o = false -> 0 < l_bsat (lo_params o) -> 0 < l_bcut (lo_params o) ->
  let M := pow10 (snd (leau_run interp1d (fst (leau_run interp1d o (QSat m0))) QMmin)) in let T := 720000000000 in let p := lo_params o in
  let Msat := l_bsat p * T * Rpower (M / T) (l_betasat p) in let Mcut := l_bcut p * T * Rpower (M / T) (l_betacut p) in
  snd (leau_run interp1d o (QSat Msat)) = snd (leau_run interp1d o (QCentral Msat)) * exp (- Mcut / Msat) /\
  snd (leau_run interp1d o (QSat Mcut)) = snd (leau_run interp1d o (QCentral Mcut)) * (Rpower (Mcut / Msat) (l_alphasat p) * exp (- (1))).
Proof.
  intros interp1d o m0 Hc Hb Hb2 M T p Msat Mcut. assert (EM : M = pow10 (mean_log_halo_mass p (l_sm_thresh p))). { unfold M, leau_run, leau_sat. rewrite Hc. reflexivity. }
  assert (TT : T = knee_mass) by (unfold T, knee_mass; lra). assert (TP : 0 < T) by (unfold T; lra). clearbody T.
  assert (SP : 0 < Msat) by (unfold Msat; repeat apply Rmult_lt_0_compat; auto; apply rpw_pos). assert (CP : 0 < Mcut) by (unfold Mcut; repeat apply Rmult_lt_0_compat; auto; apply rpw_pos).
  assert (ES : leau_msat p = Msat) by (unfold leau_msat, Msat; rewrite EM, <- TT; ring). assert (EC : leau_mcut p = Mcut) by (unfold leau_mcut, Mcut; rewrite EM, <- TT; ring).
  assert (RUN : forall x, snd (leau_run interp1d o (QSat x)) = snd (leau_run interp1d o (QCentral x)) * (exp (- Mcut / x) * Rpower (x / Msat) (l_alphasat p))).
  { intros x. rewrite <- ES, <- EC. simpl. unfold leau_sat. rewrite Hc. unfold leau_so, leau_co. simpl. rewrite Rmult_comm. reflexivity. }
  split; rewrite RUN.
  - replace (Msat / Msat) with 1 by (field; lra). rewrite rpw_1, Rmult_1_r. reflexivity.
  - replace (- Mcut / Mcut) with (- (1)) by (field; lra). ring.
Qed.
Print Assumptions c109_contreras_satellites.
Print Assumptions c109_leauthaud_satellites.

(** the hypotheses are met *)
Example c109_ex : 12 <> 0 /\ 0.71 * 0.98 <> 0 /\ pow10 11 + pow10 11 / (1 / 2) <= pow10 13 /\ (11 <= 11.5).
Proof.
  assert (P := pow10_pos 11). assert (E : pow10 13 = 100 * pow10 11). { unfold pow10. replace 13 with (INR 2 + 11) by (simpl; ring). rewrite Rpower_plus, Rpower_pow by lra. simpl. ring. }
  rewrite E. repeat split; lra.
Qed.
