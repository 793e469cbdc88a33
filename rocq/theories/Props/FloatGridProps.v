(** The grids of wavenumbers and radii in double precision (C131). *)
From Coq Require Import Reals ZArith List Lra Lia.
From Flocq Require Import Core.
From Verif Require Import Model.Float64 Model.FloatGrid Spec.FloatGridSpec Proofs.Float64Proofs.
Import ListNotations.
Local Open Scope R_scope.

Lemma small_le_q : forall q, bpow radix2 (-1000) <= q -> bpow radix2 (-1022) <= q / 2.
Proof. intros q H. assert (bpow radix2 (-1022) <= bpow radix2 (-1000 + -1)) by (apply bpow_le; lia). rewrite bpow_plus in H0. change (bpow radix2 (-1)) with (/ 2) in H0. lra. Qed.

(** the quotient numpy computes *)
Lemma quotient_err : forall a b s, double a -> double b -> a < b -> 0 < s -> bpow radix2 (-1000) <= (b - a) / s ->
  exists e, Rabs e <= 9 / 4 * hu /\ rnd (rnd (b - a) / s) = (b - a) / s * (1 + e).
Proof.
  intros a b s Da Db L S Q. destruct (rnd_minus_rel b a Db Da) as (e1 & A1 & E1). rewrite E1. pose proof hu_pos as H. apply abs_le in A1.
  assert (U : hu <= / 1000) by (unfold hu; lra). set (q := (b - a) / s) in *. pose proof (bpow_gt_0 radix2 (-1000)).
  replace ((b - a) * (1 + e1) / s) with (q * (1 + e1)) by (unfold q; field; lra).
  destruct (rnd_rel (q * (1 + e1))) as (e2 & A2 & E2).
  { pose proof (small_le_q q Q). rewrite Rabs_right by nra. nra. }
  apply abs_le in A2. exists (e1 + e2 + e1 * e2). split; [|rewrite E2; ring]. apply Rabs_le. nra.
Qed.
Lemma len_of_ceil : forall x n, INR n - 1 < x <= INR n -> Z.to_nat (Zceil x) = n.
Proof.
  intros x n H. rewrite (Zceil_imp (Z.of_nat n)); [apply Nat2Z.id|]. rewrite minus_IZR, <- INR_IZR_INZ. exact H.
Qed.
Lemma count_ceil : forall a b s n, 0 < s -> a < b -> points_below a b s n -> (1 <= n)%nat /\ INR n - 1 < (b - a) / s <= INR n.
Proof.
  intros a b s n S L [P Q].
  assert (N : (1 <= n)%nat). { destruct n; [|lia]. specialize (Q 0%nat (le_n 0)). simpl in Q. lra. }
  split; auto. specialize (P (n - 1)%nat ltac:(lia)). specialize (Q n (le_n n)). rewrite minus_INR in P by lia. simpl in P. split.
  - apply (Rmult_lt_reg_r s); auto. unfold Rdiv. rewrite Rmult_assoc, Rinv_l by lra. lra.
  - apply (Rmult_le_reg_r s); auto. unfold Rdiv. rewrite Rmult_assoc, Rinv_l by lra. lra.
Qed.
Lemma len_range : forall x n, (1 <= n)%nat -> INR n - 2 < x <= INR n + 1 -> (n - 1 <= Z.to_nat (Zceil x) <= n + 1)%nat.
Proof.
  intros x n N [A B]. assert (Zceil x <= Z.of_nat n + 1)%Z by (apply Zceil_glb; rewrite plus_IZR, <- INR_IZR_INZ; lra).
  assert (Z.of_nat n - 1 <= Zceil x)%Z.
  { assert (Z.of_nat n - 2 < Zceil x)%Z; [|lia]. apply lt_IZR. rewrite minus_IZR, <- INR_IZR_INZ. pose proof (Zceil_ub x). lra. }
  lia.
Qed.

(** C131: for limits and a step that are doubles, the number of points computed is the number of points of the half-open grid, give or take one *)
Theorem c131_off_by_at_most_one : forall start stop step n, double start -> double stop -> start < stop -> 0 < step ->
  bpow radix2 (-1000) <= (stop - start) / step <= bpow radix2 50 -> points_below start stop step n ->
  (n - 1 <= length (float_arange start stop step) <= n + 1)%nat.
Proof.
  intros a b s n Da Db L S [Q1 Q2] P. destruct (count_ceil _ _ _ _ S L P) as [N C]. unfold float_arange. rewrite map_length, seq_length. unfold float_arange_len.
  destruct (quotient_err a b s Da Db L S Q1) as (e & A & ->). apply abs_le in A. apply len_range; auto.
  assert (B : bpow radix2 50 = 1125899906842624) by (simpl; lra). rewrite B in Q2. unfold hu in A. pose proof (bpow_gt_0 radix2 (-1000)). nra.
Qed.
Print Assumptions c131_off_by_at_most_one.

(** and exactly that number unless the quotient lies within a relative 2^-51 of a whole number *)
Theorem c131_exact_number : forall start stop step n, double start -> double stop -> start < stop -> 0 < step ->
  bpow radix2 (-1000) <= (stop - start) / step -> let q := (stop - start) / step in
  INR n - 1 < q * (1 - / 2 ^ 51) -> q * (1 + / 2 ^ 51) <= INR n ->
  length (float_arange start stop step) = n /\ points_below start stop step n.
Proof.
  intros a b s n Da Db L S Q1 q A B. unfold float_arange. rewrite map_length, seq_length. pose proof (bpow_gt_0 radix2 (-1000)). replace (/ 2 ^ 51) with (4 * hu) in A, B by (unfold hu; simpl; lra).
  assert (qp : 0 < q) by (unfold q; lra). pose proof hu_pos. split.
  - unfold float_arange_len. destruct (quotient_err a b s Da Db L S Q1) as (e & E & ->). fold q. apply abs_le in E. apply len_of_ceil. nra.
  - assert (K : b - a = q * s) by (unfold q; field; lra). split; intros i I.
    + assert (INR i + 1 <= INR n) by (rewrite <- S_INR; apply le_INR; lia). nra.
    + assert (INR n <= INR i) by (apply le_INR; lia). nra.
Qed.
Print Assumptions c131_exact_number.

(** when stop - start is a double (whole numbers, or limits with few binary digits) and step is one, no point at or above stop is counted *)
Theorem c131_never_too_many : forall start stop step n, double (stop - start) -> double step -> start < stop -> 0 < step ->
  points_below start stop step n -> (Z.of_nat n <= 2 ^ 53)%Z -> (length (float_arange start stop step) <= n)%nat.
Proof.
  intros a b s n D Ds L S P N53. destruct (count_ceil _ _ _ _ S L P) as [N C]. unfold float_arange. rewrite map_length, seq_length. unfold float_arange_len. rewrite (rnd_id _ D).
  assert (Zceil (rnd ((b - a) / s)) <= Z.of_nat n)%Z; [|lia]. apply Zceil_glb. apply rnd_le; [apply double_Z; lia|]. rewrite <- INR_IZR_INZ. lra.
Qed.
Print Assumptions c131_never_too_many.

(** a user writes decimal numbers whose difference is N steps.  They are rounded to doubles, and the grid has N points, or N + 1 - the
    upper end included *)
Theorem c131_whole_number_of_steps : forall a b s N, (1 <= N)%nat -> b - a = INR N * s -> 0 < s -> bpow radix2 (-900) <= s -> (Rabs a + Rabs b) * / 2 ^ 48 <= s ->
  length (float_arange (rnd a) (rnd b) (rnd s)) = N \/ length (float_arange (rnd a) (rnd b) (rnd s)) = S N.
Proof.
  intros a b s N N1 E S0 S9 M. pose proof hu_pos as H. assert (U : hu = / 9007199254740992) by reflexivity.
  assert (T : tiny <= hu * s).
  { unfold tiny. assert (X : hu = bpow radix2 (-53)) by (unfold hu; simpl; lra). assert (bpow radix2 (-1074) <= bpow radix2 (-53) * bpow radix2 (-900)) by (rewrite <- bpow_plus; apply bpow_le; lia).
    rewrite X. pose proof (bpow_gt_0 radix2 (-53)). pose proof (bpow_gt_0 radix2 (-1074)). nra. }
  pose proof tiny_pos. assert (R48 : / 2 ^ 48 = 32 * hu) by (unfold hu; simpl; lra). rewrite R48 in M. clear R48.
  pose proof (Rabs_pos a). pose proof (Rabs_pos b).
  assert (Ea := rnd_err a). assert (Eb := rnd_err b). assert (Es := rnd_err s). apply abs_le in Ea, Eb, Es. rewrite (Rabs_right s) in Es by lra.
  assert (NN : 1 <= INR N) by (apply (le_INR 1); auto).
  assert (NM : INR N * (32 * hu) <= 1).
  { assert (b - a <= Rabs a + Rabs b). { pose proof (Rle_abs b). pose proof (Rle_abs (- a)). rewrite Rabs_Ropp in *. lra. }
    assert (INR N * s * (32 * hu) <= s) by nra. apply (Rmult_le_reg_r s); lra. }
  set (d := rnd b - rnd a). assert (Ed : - (s / 16) <= d - INR N * s <= s / 16) by (unfold d; nra).
  destruct (rnd_minus_rel (rnd b) (rnd a) (rnd_double _) (rnd_double _)) as (e1 & A1 & E1). fold d in E1. apply abs_le in A1.
  assert (SP : s * (1 - 2 * hu) <= rnd s <= s * (1 + 2 * hu)) by nra.
  unfold float_arange. rewrite map_length, seq_length. unfold float_arange_len. fold d. rewrite E1.
  assert (rs : 0 < rnd s) by nra. set (q := d * (1 + e1) / rnd s).
  assert (Q : q * rnd s = d * (1 + e1)) by (unfold q; field; lra).
  assert (D1 : INR N * s - s / 8 <= d * (1 + e1) <= INR N * s + s / 8).
  { assert (- (s / 16) <= d * e1 <= s / 16); [|lra]. assert (d <= INR N * s + s / 16) by lra. assert (0 <= d) by nra. assert (hu * d <= s / 16) by nra. nra. }
  assert (Q1 : INR N - / 4 <= q <= INR N + / 4).
  { split.
    - apply (Rmult_le_reg_r (rnd s)); auto. rewrite Q. nra.
    - apply (Rmult_le_reg_r (rnd s)); auto. rewrite Q. nra. }
  assert (big : bpow radix2 (-1022) <= / 2). { change (/ 2) with (bpow radix2 (-1)). apply bpow_le. lia. }
  destruct (rnd_rel q) as (e2 & A2 & E2); [rewrite Rabs_right; lra|]. apply abs_le in A2.
  assert (F : INR N - 1 < rnd q <= INR N + 1). { rewrite E2. assert (hu * q <= / 4) by nra. nra. }
  destruct (Rle_dec (rnd q) (INR N)) as [K|K]; [left|right]; apply len_of_ceil; [lra|rewrite S_INR; lra].
Qed.
Print Assumptions c131_whole_number_of_steps.

(** the exponents are those intended, up to a rounding error that grows with their number *)
Lemma delta_err : forall a s, double a -> double s -> 0 < s -> Rabs (float_arange_delta a s - s) <= 3 * hu * (Rabs a + s).
Proof.
  intros a s Da Ds S. unfold float_arange_delta. pose proof hu_pos. assert (U : hu <= / 1000) by (unfold hu; lra). pose proof (Rabs_pos a).
  destruct (rnd_plus_rel a s Da Ds) as (e1 & A1 & E1). apply abs_le in A1.
  destruct (rnd_minus_rel (rnd (a + s)) a (rnd_double _) Da) as (e2 & A2 & E2). apply abs_le in A2. rewrite E2, E1.
  assert (K : - (Rabs a + s) <= a + s <= Rabs a + s) by (pose proof (abs_le a (Rabs a) (Rle_refl _)); lra).
  assert (P : - (hu * (Rabs a + s)) <= (a + s) * e1 <= hu * (Rabs a + s)) by nra.
  replace ((a + s) * (1 + e1) - a) with (s + (a + s) * e1) by ring. set (p := (a + s) * e1) in *. apply Rabs_le.
  assert (Q : - (hu * (s + hu * (Rabs a + s))) <= (s + p) * e2 <= hu * (s + hu * (Rabs a + s))) by nra.
  assert (hu * (s + hu * (Rabs a + s)) <= 2 * hu * (Rabs a + s)) by nra. nra.
Qed.
Theorem c131_exponents_accurate : forall start step i, double start -> double step -> bpow radix2 (-900) <= step -> INR i <= 2 ^ 40 ->
  Rabs (float_arange_at start step i - (start + INR i * step)) <= (INR i + 1) * / 2 ^ 51 * (Rabs start + INR i * step).
Proof.
  intros a s i Da Ds S9 I. pose proof (bpow_gt_0 radix2 (-900)). assert (Sp : 0 < s) by lra. pose proof hu_pos as Hu. pose proof (Rabs_pos a) as Pa.
  assert (R51 : / 2 ^ 51 = 4 * hu) by (unfold hu; simpl; lra). rewrite R51. assert (R40 : 2 ^ 40 = 1099511627776) by (simpl; lra). rewrite R40 in I.
  pose proof (pos_INR i) as Pi. assert (Ka := abs_le a (Rabs a) (Rle_refl _)).
  destruct i as [|[|j]].
  - simpl. replace (a - (a + 0 * s)) with 0 by ring. rewrite Rabs_R0. nra.
  - unfold float_arange_at. change (INR 1) with 1. rewrite Rmult_1_l. destruct (rnd_plus_rel a s Da Ds) as (e & A & ->). apply abs_le in A. apply Rabs_le. nra.
  - set (i := S (S j)) in *. change (float_arange_at a s i) with (rnd (a + rnd (INR i * float_arange_delta a s))).
    assert (I1 : 1 <= INR i) by (apply (le_INR 1); lia). pose proof (delta_err a s Da Ds Sp) as D. set (d := float_arange_delta a s) in *. apply abs_le in D.
    set (A := Rabs a + INR i * s). assert (As : Rabs a + s <= A) by (unfold A; nra). assert (A0 : 0 < A) by lra.
    assert (T : tiny <= / 8 * hu * A).
    { assert (tiny <= / 8 * hu * s); [|nra]. unfold tiny. assert (X : / 8 * hu = bpow radix2 (-56)) by (unfold hu; simpl; lra). assert (bpow radix2 (-1074) <= bpow radix2 (-56) * bpow radix2 (-900)) by (rewrite <- bpow_plus; apply bpow_le; lia).
      rewrite X. pose proof (bpow_gt_0 radix2 (-56)). pose proof (bpow_gt_0 radix2 (-1074)). nra. }
    assert (ih : INR i * hu <= / 1000) by (unfold hu; lra). assert (H1 : hu <= / 1000) by (unfold hu; lra).
    assert (W : - (3 * INR i * (hu * A)) <= INR i * d - INR i * s <= 3 * INR i * (hu * A)).
    { assert (D3 : 3 * hu * (Rabs a + s) <= 3 * (hu * A)) by nra. assert (D4 : - (3 * (hu * A)) <= d - s <= 3 * (hu * A)) by lra. nra. }
    set (w := INR i * d) in *. assert (hA : 0 < hu * A) by nra. assert (B3 : INR i * (hu * A) <= A / 1000) by nra.
    assert (Wa : Rabs w <= A + 3 * INR i * (hu * A)). { apply Rabs_le. unfold A in *. nra. }
    pose proof (rnd_err w) as Ew. apply abs_le in Ew. assert (Ew1 : hu * Rabs w <= hu * A * (1 + / 100)) by nra.
    assert (Ew' : - (hu * A * (1 + / 100 + / 8)) <= rnd w - w <= hu * A * (1 + / 100 + / 8)) by lra. clear Ew Ew1.
    destruct (rnd_plus_rel a (rnd w) Da (rnd_double _)) as (e & E & ->). apply abs_le in E.
    assert (Z : - (A * (1 + / 10)) <= a + rnd w <= A * (1 + / 10)). { assert (hu * A <= A / 1000) by nra. unfold A in *. split; lra. }
    assert (Z2 : - (hu * A * (1 + / 10)) <= (a + rnd w) * e <= hu * A * (1 + / 10)) by nra.
    replace ((a + rnd w) * (1 + e) - (a + INR i * s)) with ((w - INR i * s) + (rnd w - w) + (a + rnd w) * e) by ring.
    apply Rabs_le. replace ((INR i + 1) * (4 * hu) * A) with (4 * INR i * (hu * A) + 4 * (hu * A)) by ring. assert (hu * A <= INR i * (hu * A)) by nra. lra.
Qed.
Print Assumptions c131_exponents_accurate.

(** and increase strictly, unless the step is of the size of that error *)
Theorem c131_exponents_increase : forall start stop step, double start -> double step -> bpow radix2 (-900) <= step -> let n := length (float_arange start stop step) in
  INR n <= 2 ^ 40 -> INR n * (Rabs start + INR n * step) < 2 ^ 50 * step ->
  forall i j, (i < j < n)%nat -> nth i (float_arange start stop step) 0 < nth j (float_arange start stop step) 0.
Proof.
  intros a b s Da Ds S9 n N40 NA i j [IJ JN]. pose proof (bpow_gt_0 radix2 (-900)). assert (S : 0 < s) by lra.
  assert (At : forall k, (k < n)%nat -> nth k (float_arange a b s) 0 = float_arange_at a s k).
  { intros k K. unfold n, float_arange in *. rewrite map_length, seq_length in K. rewrite (nth_indep _ 0 (float_arange_at a s 0)) by (rewrite map_length, seq_length; auto). rewrite map_nth, seq_nth; auto. }
  rewrite !At by lia. pose proof (le_INR _ _ (Nat.lt_le_incl _ _ JN)) as Jn. assert (Ij : INR i + 1 <= INR j) by (rewrite <- S_INR; apply le_INR; lia).
  assert (Jn' : INR j + 1 <= INR n) by (rewrite <- S_INR; apply le_INR; lia). pose proof (pos_INR i). pose proof (Rabs_pos a).
  pose proof (c131_exponents_accurate a s i Da Ds S9 ltac:(lra)) as Ei. pose proof (c131_exponents_accurate a s j Da Ds S9 ltac:(lra)) as Ej.
  apply abs_le in Ei, Ej. set (A := Rabs a + INR n * s) in *. assert (R51 : / 2 ^ 51 = 4 * hu) by (unfold hu; simpl; lra). rewrite R51 in *.
  assert (R50 : 2 ^ 50 = / (8 * hu)) by (unfold hu; simpl; lra). rewrite R50 in NA. pose proof hu_pos as H9.
  assert (NB : INR n * A * (8 * hu) < s). { apply (Rmult_lt_compat_r (8 * hu)) in NA; [|lra]. replace (/ (8 * hu) * s * (8 * hu)) with s in NA by (field; lra). lra. }
  assert (Bi : (INR i + 1) * (4 * hu) * (Rabs a + INR i * s) <= INR n * A * (4 * hu)).
  { assert (Rabs a + INR i * s <= A) by (unfold A; nra). assert (0 <= Rabs a + INR i * s) by nra. assert ((INR i + 1) * (Rabs a + INR i * s) <= INR n * A) by nra. nra. }
  assert (Bj : (INR j + 1) * (4 * hu) * (Rabs a + INR j * s) <= INR n * A * (4 * hu)).
  { assert (Rabs a + INR j * s <= A) by (unfold A; nra). assert (0 <= Rabs a + INR j * s) by nra. assert ((INR j + 1) * (Rabs a + INR j * s) <= INR n * A) by nra. nra. }
  nra.
Qed.
Print Assumptions c131_exponents_increase.

(** *** concrete grids *)
Lemma rnd_pos_val : forall x m e, (-1074 <= e)%Z -> IZR (2 ^ 52) * bpow radix2 e <= x < IZR (2 ^ 53) * bpow radix2 e -> - / 2 < x * bpow radix2 (- e) - IZR m < / 2 -> rnd x = IZR m * bpow radix2 e.
Proof. intros x m e E [A B] C. pose proof (bpow_gt_0 radix2 e). assert (0 < x) by (apply Rlt_le_trans with (2 := A); apply Rmult_lt_0_compat; auto; apply IZR_lt; reflexivity). apply rnd_val; auto; [rewrite Rabs_right; lra|]. apply Rabs_def1; lra. Qed.
Ltac rv m e := rewrite (rnd_pos_val _ m e); [ |lia|simpl; lra|simpl; lra].

Lemma rnd_005 : rnd (5 / 100) = 7205759403792794 / 144115188075855872. Proof. rv 7205759403792794%Z (-57)%Z. simpl. lra. Qed.
Lemma rnd_001 : rnd (1 / 100) = 5764607523034235 / 576460752303423488. Proof. rv 5764607523034235%Z (-59)%Z. simpl. lra. Qed.

(** the default wavenumbers (hm_logk_min=-2, hm_logk_max=2, hm_dlog10k=0.05) and the internal radii (-3, 2.5, dr_table=0.01): 80 and 550 points *)
Theorem c131_default_grids : length (float_arange (-2) 2 (rnd (5 / 100))) = 80%nat /\ length (float_arange (-3) (5 / 2) (rnd (1 / 100))) = 550%nat.
Proof.
  assert (D : forall n, (Z.abs n <= 2 ^ 53)%Z -> rnd (IZR n) = IZR n) by (intros; apply rnd_id, double_Z; auto).
  assert (D25 : rnd (5 / 2) = 5 / 2) by (rv 5629499534213120%Z (-51)%Z; simpl; lra).
  assert (B9 : bpow radix2 (-900) <= bpow radix2 (-10)) by (apply bpow_le; lia). change (bpow radix2 (-10)) with (/ 1024) in B9.
  split.
  - assert (A := c131_whole_number_of_steps (-2) 2 (5 / 100) 80 ltac:(lia) ltac:(simpl; lra) ltac:(lra) ltac:(lra)).
    rewrite (Rabs_left (-2)), (Rabs_right 2) in A by lra. rewrite (D (-2)%Z), (D 2%Z) in A by lia. destruct A as [A|A]; [simpl; lra|exact A|].
    exfalso. assert (L := c131_never_too_many (-2) 2 (rnd (5 / 100)) 80). rewrite A in L. enough (81 <= 80)%nat by lia. apply L; try lia; try lra; try (rewrite rnd_005; lra).
    + replace (2 - -2) with (IZR 4) by lra. apply double_Z. lia.
    + apply rnd_double.
    + rewrite rnd_005. split; intros i I; apply le_INR in I; [rewrite S_INR in I|]; replace (INR 80) with 80 in I by (simpl; lra); lra.
  - assert (A := c131_whole_number_of_steps (-3) (5 / 2) (1 / 100) 550 ltac:(lia) ltac:(rewrite INR_IZR_INZ; simpl; lra) ltac:(lra) ltac:(lra)).
    rewrite (Rabs_left (-3)), (Rabs_right (5 / 2)) in A by lra. rewrite (D (-3)%Z), D25 in A by lia. destruct A as [A|A]; [simpl; lra|exact A|].
    exfalso. assert (L := c131_never_too_many (-3) (5 / 2) (rnd (1 / 100)) 550). rewrite A in L. enough (551 <= 550)%nat by lia. apply L; try lia; try lra; try (rewrite rnd_001; lra).
    + replace (5 / 2 - -3) with (rnd (11 / 2)); [apply rnd_double|]. rv 6192449487634432%Z (-50)%Z. simpl. lra.
    + apply rnd_double.
    + rewrite rnd_001. split; intros i I; apply le_INR in I; [rewrite S_INR in I|]; rewrite (INR_IZR_INZ 550) in I; simpl in I; lra.
Qed.
Print Assumptions c131_default_grids.

(** refuted: 'the upper end is never included'.  hm_logk_min=-1.6, hm_logk_max=2.7, hm_dlog10k=0.05 are 86 steps apart; the grid has 87 points and
    the last exponent exceeds hm_logk_max *)
Theorem c131_upper_end_excluded_refuted : 27 / 10 - (- (16 / 10)) = 86 * (5 / 100) /\
  length (float_arange (rnd (- (16 / 10))) (rnd (27 / 10)) (rnd (5 / 100))) = 87%nat /\
  27 / 10 < nth 86 (float_arange (rnd (- (16 / 10))) (rnd (27 / 10)) (rnd (5 / 100))) 0 /\ rnd (27 / 10) < nth 86 (float_arange (rnd (- (16 / 10))) (rnd (27 / 10)) (rnd (5 / 100))) 0.
Proof.
  split; [lra|]. rewrite rnd_opp, rnd_005.
  assert (R1 : rnd (16 / 10) = 7205759403792794 / 4503599627370496) by (rv 7205759403792794%Z (-52)%Z; simpl; lra).
  assert (R2 : rnd (27 / 10) = 6079859496950170 / 2251799813685248) by (rv 6079859496950170%Z (-51)%Z; simpl; lra). rewrite R1, R2. 
  assert (L : float_arange_len (- (7205759403792794 / 4503599627370496)) (6079859496950170 / 2251799813685248) (7205759403792794 / 144115188075855872) = 87%nat).
  { unfold float_arange_len. assert (Y : rnd (6079859496950170 / 2251799813685248 - - (7205759403792794 / 4503599627370496)) = 4841369599423284 / 1125899906842624) by (rewrite (rnd_tie_up _ 4841369599423284%Z (-50)%Z); [simpl; lra|lia|rewrite Rabs_right by lra; simpl; lra|reflexivity|simpl; lra]). rewrite Y. rv 6051711999279105%Z (-46)%Z. apply len_of_ceil. rewrite INR_IZR_INZ. simpl. lra. }
  split; [unfold float_arange; rewrite map_length, seq_length; exact L|].
  assert (V : nth 86 (float_arange (- (7205759403792794 / 4503599627370496)) (6079859496950170 / 2251799813685248) (7205759403792794 / 144115188075855872)) 0 = 6079859496950179 / 2251799813685248).
  { unfold float_arange. rewrite L. rewrite (nth_indep _ 0 (float_arange_at (- (7205759403792794 / 4503599627370496)) (7205759403792794 / 144115188075855872) 0)) by (rewrite map_length, seq_length; lia). rewrite map_nth, seq_nth by lia.
    change (0 + 86)%nat with 86%nat.
    assert (X1 : rnd (- (7205759403792794 / 4503599627370496) + 7205759403792794 / 144115188075855872) = - (6980579422424269 / 4503599627370496)).
    { replace (- (7205759403792794 / 4503599627370496) + 7205759403792794 / 144115188075855872) with (- (7205759403792794 / 4503599627370496 - 7205759403792794 / 144115188075855872)) by ring. rewrite rnd_opp. f_equal. rv 6980579422424269%Z (-52)%Z. simpl. lra. }
    assert (X2 : float_arange_delta (- (7205759403792794 / 4503599627370496)) (7205759403792794 / 144115188075855872) = 7205759403792800 / 144115188075855872).
    { unfold float_arange_delta. rewrite X1. rv 7205759403792800%Z (-57)%Z. simpl. lra. }
    change (float_arange_at (- (7205759403792794 / 4503599627370496)) (7205759403792794 / 144115188075855872) 86) with (rnd (- (7205759403792794 / 4503599627370496) + rnd (INR 86 * float_arange_delta (- (7205759403792794 / 4503599627370496)) (7205759403792794 / 144115188075855872)))).
    rewrite X2. replace (INR 86) with 86 by (rewrite INR_IZR_INZ; simpl; lra). assert (Y : rnd (86 * (7205759403792800 / 144115188075855872)) = 4841369599423288 / 1125899906842624) by (rewrite (rnd_tie_up _ 4841369599423288%Z (-50)%Z); [simpl; lra|lia|rewrite Rabs_right by lra; simpl; lra|reflexivity|simpl; lra]). rewrite Y. rv 6079859496950179%Z (-51)%Z. simpl. lra. }
  rewrite V. lra.
Qed.
Print Assumptions c131_upper_end_excluded_refuted.
