(** C118: the numerical enclosed mass.  Code under study: /repo/src/halomod/profiles.py:211-239, 910-913. *)
From Coq Require Import Reals List Bool Arith Lia Lra.
From Coquelicot Require Import Coquelicot.
From Verif Require Import Model.RBool Model.Quad Model.Profiles Model.NumericH Spec.QuadSpec Spec.ProfileSpec Proofs.Calc Proofs.QuadProofs Proofs.QuadProofs2 Proofs.ExtSplineProofs Proofs.ExclusionProofs Proofs.SimpsonExact Proofs.SimpsonError2 Proofs.ProfileProofs.
Import ListNotations.
Local Open Scope R_scope.

(** ** the table *)
Lemma cs_even : forall n h f k, (2 * k <= n - 1)%nat -> cumulative_simpson n h f (2 * k) = simpson_rule h k f.
Proof.
  intros n h f k. unfold cumulative_simpson, simpson_rule. rewrite sum_over_seq. induction k as [|k IH]; intros N; [reflexivity|].
  rewrite bigsum_S, <- IH by lia. replace (2 * S k)%nat with (S (S (2 * k))) by lia. rewrite !bigsum_S, Rplus_assoc. f_equal. set (p := (2 * k)%nat).
  assert (E : Nat.even p = true) by (unfold p; rewrite Nat.even_mul; reflexivity). unfold cs_interval. rewrite E. replace (Nat.even (S p)) with false by (rewrite Nat.even_succ, <- Nat.negb_even, E; reflexivity).
  replace (p <? n - 2)%nat with true by (symmetry; apply Nat.ltb_lt; unfold p; lia). cbn [andb]. replace (S p + 1)%nat with (p + 2)%nat by lia. replace (S p - 1)%nat with p by lia. replace (S p) with (p + 1)%nat by lia. field.
Qed.
(** the last entry of the table is Simpson's rule *)
Lemma cs_last : forall n h f, (3 <= n)%nat -> cumulative_simpson n h f (n - 1) = scipy_simpson n h f.
Proof.
  intros n h f N. destruct (Nat.even n) eqn:E.
  - apply Nat.even_spec in E. destruct E as [j J]. assert (K : exists k, (n = 2 * k + 2)%nat /\ (1 <= k)%nat) by (exists (j - 1)%nat; lia). destruct K as [k [NK K]].
    replace (scipy_simpson n h f) with (scipy_simpson (2 * k + 2) h f) by (now rewrite NK). rewrite even_split, simpson_odd_rule, <- (cs_even n) by lia. replace (n - 1)%nat with (S (2 * k)) by lia. unfold cumulative_simpson. rewrite !sum_over_seq, bigsum_S. f_equal.
    unfold cs_interval. replace (2 * k <? n - 2)%nat with false by (symmetry; apply Nat.ltb_ge; lia). rewrite andb_false_r. field.
  - assert (O : Nat.odd n = true) by (unfold Nat.odd; now rewrite E). apply Nat.odd_spec in O. destruct O as [k NK].
    replace (scipy_simpson n h f) with (scipy_simpson (2 * k + 1) h f) by (now rewrite NK). rewrite simpson_odd_rule by lia. replace (n - 1)%nat with (2 * k)%nat by lia. apply cs_even. lia.
Qed.
Lemma x_last : forall n c, (2 <= n)%nat -> h_x n c (n - 1) = c.
Proof. intros n c N. unfold h_x, h_step. field. apply not_0_INR. lia. Qed.
Lemma table_last : forall n f c, (3 <= n)%nat -> h_table n f c (n - 1) = scipy_simpson n (h_step n c) (fun j => f (h_x n c j) * h_x n c j ^ 2).
Proof. intros. unfold h_table. now apply cs_last. Qed.
Lemma points_3 : (3 <= h_points)%nat. Proof. apply Nat.leb_le. reflexivity. Qed.
Lemma points_inr : INR (h_points - 1) = 1999. Proof. rewrite INR_IZR_INZ. reflexivity. Qed.
Definition numeric_mass (f : R -> R) (c : R) : R := h_table h_points f c (h_points - 1).

(** ** what the call returns *)
(** one concentration gives one number, an array as many as it has entries; the mass, if given, sets the concentration whatever c is;
    neither raises ValueError *)
Theorem c118_arguments : forall spl f cm c x l, numeric_h spl f cm None None = Raise ValueError /\
  numeric_h spl f cm c (Some (Scal x)) = Ok (Scal (numeric_mass f (cm x))) /\ numeric_h spl f cm (Some (Scal x)) None = Ok (Scal (numeric_mass f x)) /\
  numeric_h spl f cm c (Some (Vec l)) = numeric_h spl f cm (Some (Vec (map cm l))) None /\
  (l <> [] -> exists v, numeric_h spl f cm (Some (Vec l)) None = Ok (Vec v) /\ length v = length l).
Proof.
  intros spl f cm c x l. repeat split; auto. intros N. destruct l as [|a l]; [congruence|]. eexists. split; [reflexivity|]. apply map_length.
Qed.
Lemma vec_inj : forall a b, Ok (Vec a) = Ok (Vec b) -> a = b. Proof. congruence. Qed.
(** the largest concentration of an array gets the value it would get alone *)
Theorem c118_largest_as_scalar : forall spl f cm l v i, (forall xs ys j, (j < length xs)%nat -> length ys = length xs -> spl xs ys (nth j xs 0) = nth j ys 0) ->
  l <> [] -> numeric_h spl f cm (Some (Vec l)) None = Ok (Vec v) -> (i < length l)%nat -> (forall j, (j < length l)%nat -> nth j l 0 <= nth i l 0) ->
  numeric_h spl f cm (Some (Scal (nth i l 0))) None = Ok (Scal (nth i v 0)).
Proof.
  intros spl f cm l v i SP N H Hi M. assert (MX : lmax l = nth i l 0). { apply Rle_antisym. - assert (Q := lmax_in l N). destruct (In_nth _ _ 0 Q) as [j [J E]]. rewrite <- E. now apply M. - apply lmax_ub. now apply nth_In. }
  destruct l as [|a l]; [congruence|]. set (q := a :: l) in *. unfold numeric_h in H. unfold q in H at 1. cbv iota zeta in H. fold q in H. apply vec_inj in H. subst v. change (numeric_h spl f cm (Some (Scal (nth i q 0))) None) with (Ok (Scal (numeric_mass f (nth i q 0)))). do 2 f_equal. unfold numeric_mass.
  match goal with |- _ = nth i (map ?g q) 0 => rewrite (nth_indep (map g q) 0 (g 0)) by (rewrite map_length; auto); rewrite (map_nth g q 0 i) end.
  rewrite MX. set (c := nth i q 0). assert (P := points_3). set (n := h_points) in *. clearbody n.
  assert (X : nth (n - 1) (map (h_x n c) (seq 0 n)) 0 = c). { rewrite (nth_indep _ 0 (h_x n c 0)) by (rewrite map_length, seq_length; lia). rewrite (map_nth (h_x n c) (seq 0 n) 0%nat (n - 1)), seq_nth by lia. apply x_last. lia. }
  rewrite <- X at 4. rewrite SP by (rewrite ?map_length, ?seq_length; auto; lia). rewrite (nth_indep _ 0 (h_table n f c 0)) by (rewrite map_length, seq_length; lia). rewrite (map_nth (h_table n f c) (seq 0 n) 0%nat (n - 1)), seq_nth by lia. reflexivity.
Qed.

(** ** accuracy *)
(** for every shape whose mass integrand has second-order remainder K on the range, the number is the mass between 1e-6 and c scale radii
    up to 3.8e-7 K c^3 *)
Theorem c118_error : forall f g1 K c, / 1000000 < c -> 0 <= K -> let g := fun x => f x * x ^ 2 in ex_RInt g (/ 1000000) c ->
  (forall x y, / 1000000 <= x <= c -> / 1000000 <= y <= c -> Rabs (g x - g y - g1 y * (x - y)) <= K * (x - y) ^ 2) ->
  Rabs (numeric_mass f c - RInt g (/ 1000000) c) <= 38 / 100000000 * K * c ^ 3.
Proof.
  intros f g1 K c C K0 g EX RM. unfold numeric_mass. rewrite table_last by apply points_3. assert (P3 := points_3). assert (PN := points_inr). set (n := h_points) in *. clearbody n.
  assert (HS : h_step n c = (c - / 1000000) / 1999) by (unfold h_step, h_min; now rewrite PN). assert (H0 : 0 <= h_step n c) by (rewrite HS; apply Rmult_le_pos; lra).
  assert (XL := x_last n c ltac:(lia)). assert (E := simpson_err2 g g1 K (/ 1000000) c K0 EX RM (h_step n c) n H0). cbv zeta beta in E. change (/ 1000000 + INR (n - 1) * h_step n c) with (h_x n c (n - 1)) in E. rewrite XL in E. specialize (E ltac:(lra) P3).
  eapply Rle_trans; [exact E|]. rewrite PN, HS. set (d := c - / 1000000). assert (D : 0 < d < c) by (unfold d; lra).
  replace (3 / 2 * K * (d / 1999) ^ 2 * (1999 * (d / 1999))) with (K * d ^ 3 * (3 / 2 / 1999 ^ 2)) by field. assert (D3 : d ^ 3 <= c ^ 3) by (apply pow_incr; lra). assert (Z : 0 <= d ^ 3) by (apply pow_le; lra).
  apply Rle_trans with (K * c ^ 3 * (3 / 2 / 1999 ^ 2)); [apply Rmult_le_compat_r; [lra|]; now apply Rmult_le_compat_l|]. replace (38 / 100000000 * K * c ^ 3) with (K * c ^ 3 * (38 / 100000000)) by ring. apply Rmult_le_compat_l; [|lra]. apply Rmult_le_pos; auto. apply pow_le. lra.
Qed.
Print Assumptions c118_error.
Lemma gnfw_1 : forall x, 0 < x -> gnfw_f 1 x = nfw_f x.
Proof.
  intros x X. unfold gnfw_f, nfw_f, npow. replace (Reqb x 0) with false. 2: { symmetry. destruct (Reqb x 0) eqn:E; auto. apply Reqb_spec in E. lra. }
  rewrite Rpower_1 by auto. replace (3 - 1) with (INR 2) by (simpl; ring). rewrite Rpower_pow by lra. reflexivity.
Qed.
(** with the default alpha = 1 GeneralizedNFW has the NFW mass: from it the NFW closed form is missed by the core and at most 7.6e-7 c^3 *)
Theorem c118_default_is_nfw : forall c, / 1000000 < c -> Rabs (numeric_mass (gnfw_f 1) c - nfw_h c) <= / 2000000000000 + 76 / 100000000 * c ^ 3.
Proof.
  intros c C. set (lo := / 1000000) in *. assert (L0 : 0 < lo) by (unfold lo; lra). set (g := fun x => gnfw_f 1 x * x ^ 2).
  assert (M1 := nfw_mass c ltac:(lra)). assert (M0 := nfw_mass lo ltac:(lra)). unfold mass_integral in M0, M1.
  assert (EXT : forall x, 0 < x -> nfw_f x * x ^ 2 = g x) by (intros; unfold g; now rewrite gnfw_1).
  assert (I : is_RInt (fun x => nfw_f x * x ^ 2) lo c (nfw_h c - nfw_h lo)).
  { assert (Q := is_RInt_Chasles (V:=R_NormedModule) _ _ _ _ _ _ (is_RInt_swap (V:=R_NormedModule) _ _ _ _ M0) M1). replace (nfw_h c - nfw_h lo) with (plus (opp (nfw_h lo)) (nfw_h c)) by (change (- nfw_h lo + nfw_h c = nfw_h c - nfw_h lo); ring). exact Q. }
  assert (IG : is_RInt g lo c (nfw_h c - nfw_h lo)). { apply (is_RInt_ext (fun x => nfw_f x * x ^ 2)); auto. intros x Hx. rewrite Rmin_left, Rmax_right in Hx by lra. apply EXT. lra. }
  assert (E := c118_error (gnfw_f 1) (fun y => (1 - y) / (1 + y) ^ 3) 2 c C ltac:(lra)). cbv zeta in E. fold g lo in E. specialize (E ltac:(eexists; exact IG)). rewrite (is_RInt_unique (V:=R_CompleteNormedModule) _ _ _ _ IG) in E.
  assert (RM : forall x y, lo <= x <= c -> lo <= y <= c -> Rabs (g x - g y - (1 - y) / (1 + y) ^ 3 * (x - y)) <= 2 * (x - y) ^ 2).
  { intros x y Hx Hy. rewrite <- !EXT by lra. unfold nfw_f. set (A := / (1 + x)). set (B := / (1 + y)).
    assert (A0 : 0 < A < 1) by (unfold A; split; [apply Rinv_0_lt_compat; lra|rewrite <- Rinv_1; apply Rinv_lt_contravar; lra]). assert (B0 : 0 < B < 1) by (unfold B; split; [apply Rinv_0_lt_compat; lra|rewrite <- Rinv_1; apply Rinv_lt_contravar; lra]).
    replace (1 / (x * (1 + x) ^ 2) * x ^ 2 - 1 / (y * (1 + y) ^ 2) * y ^ 2 - (1 - y) / (1 + y) ^ 3 * (x - y)) with ((x - y) ^ 2 * (A * B * B * (1 - A - 2 * B))) by (unfold A, B; field; lra).
    rewrite Rabs_mult, (Rabs_right ((x - y) ^ 2)) by (apply Rle_ge, pow2_ge_0). replace (2 * (x - y) ^ 2) with ((x - y) ^ 2 * 2) by ring. apply Rmult_le_compat_l; [apply pow2_ge_0|]. 
    rewrite Rabs_mult, (Rabs_right (A * B * B)) by (apply Rle_ge, Rmult_le_pos; [apply Rmult_le_pos|]; lra). assert (W : Rabs (1 - A - 2 * B) <= 2) by (apply Rabs_le; lra). assert (AB : A * B * B <= 1) by (assert (A * B <= 1) by nra; assert (0 < A * B) by nra; nra). assert (W0 := Rabs_pos (1 - A - 2 * B)). assert (0 < A * B * B) by (apply Rmult_lt_0_compat; [apply Rmult_lt_0_compat|]; lra). nra. }
  specialize (E RM). assert (CORE : 0 <= nfw_h lo <= / 2000000000000).
  { rewrite <- (is_RInt_unique (V:=R_CompleteNormedModule) _ _ _ _ M0). assert (EQ : forall x, 0 < x < lo -> 0 <= nfw_f x * x ^ 2 <= x). { intros x Hx. unfold nfw_f. replace (1 / (x * (1 + x) ^ 2) * x ^ 2) with (x * / (1 + x) ^ 2) by (field; lra). assert (Z : 0 < / (1 + x) ^ 2) by (apply Rinv_0_lt_compat; nra). assert (Z1 : / (1 + x) ^ 2 <= 1) by (rewrite <- Rinv_1; apply Rinv_le_contravar; nra). nra. }
    assert (IX : is_RInt (fun x : R => x) 0 lo (lo ^ 2 / 2)). { replace (lo ^ 2 / 2) with ((fun x : R => x ^ 2 / 2) lo - (fun x : R => x ^ 2 / 2) 0) by (cbv beta; field). apply (ftc (fun x : R => x ^ 2 / 2) (fun x => x)); [lra| |]. - intros x _. auto_derive; auto. field. - intros x _. apply continuous_id. }
    split; [apply RInt_ge_0; [lra|eexists; exact M0|intros x Hx; now apply EQ]|].
    apply Rle_trans with (lo ^ 2 / 2); [|unfold lo; lra]. rewrite <- (is_RInt_unique (V:=R_CompleteNormedModule) _ _ _ _ IX). apply RInt_le; [lra|eexists; exact M0|eexists; exact IX|intros x Hx; now apply EQ]. }
  apply Rabs_le_between in E. apply Rabs_le. lra.
Qed.
Print Assumptions c118_default_is_nfw.

(** ** steep profiles *)
(** every positive integrand: the number is at least the first point's share *)
Lemma mass_lower : forall f c, / 1000000 <= c -> (forall x, / 1000000 <= x <= c -> 0 <= f x) -> (c - / 1000000) / 1999 * (/ 3 * (f (/ 1000000) * (/ 1000000) ^ 2)) <= numeric_mass f c.
Proof.
  intros f c C F. unfold numeric_mass. rewrite table_last by apply points_3. assert (P3 := points_3). assert (PN := points_inr). assert (EV : Nat.even h_points = true) by reflexivity. set (n := h_points) in *. clearbody n.
  assert (HS : h_step n c = (c - / 1000000) / 1999) by (unfold h_step, h_min; now rewrite PN). assert (H0 : 0 <= h_step n c) by (rewrite HS; apply Rmult_le_pos; lra). rewrite <- HS. rewrite simpson_big. apply Rmult_le_compat_l; auto.
  assert (XI : forall i, (i < n)%nat -> / 1000000 <= h_x n c i <= c). { intros i Hi. split; [unfold h_x, h_min; assert (0 <= INR i) by apply pos_INR; nra|]. apply Rle_trans with (h_x n c (n - 1)); [|rewrite x_last by lia; lra]. unfold h_x. apply Rplus_le_compat_l, Rmult_le_compat_r; auto. apply le_INR. lia. }
  assert (X0 : h_x n c 0 = / 1000000) by (unfold h_x, h_min; simpl; ring).
  apply Nat.even_spec in EV. destruct EV as [j J]. assert (N4 : (4 <= n)%nat) by lia.
  assert (W0 : scipy_simpson_weight n 0 = / 3).
  { unfold scipy_simpson_weight. replace (n <=? 1)%nat with false by (symmetry; apply Nat.leb_gt; lia). replace (n =? 2)%nat with false by (symmetry; apply Nat.eqb_neq; lia). replace (Nat.odd n) with false by (rewrite J, Nat.odd_mul; reflexivity).
    replace (0 <? n - 1)%nat with true by (symmetry; apply Nat.ltb_lt; lia). replace (0 =? n - 1)%nat with false by (symmetry; apply Nat.eqb_neq; lia). replace (0 =? n - 2)%nat with false by (symmetry; apply Nat.eqb_neq; lia). replace (0 =? n - 3)%nat with false by (symmetry; apply Nat.eqb_neq; lia). unfold simpson_weight_odd. simpl Nat.eqb. cbn [orb]. lra. }
  rewrite <- W0, <- X0 at 1. destruct n as [|n']; [lia|]. rewrite bigsum_S_l. rewrite <- (Rplus_0_r (scipy_simpson_weight _ 0 * _)). rewrite X0. apply Rplus_le_compat_l. apply bigsum_nonneg. intros i Hi. apply Rmult_le_pos; [left; apply scipy_weight_pos; lia|]. apply Rmult_le_pos; [apply F, XI; lia|apply pow2_ge_0].
Qed.
(** finding: for alpha = 2.9 the number is more than three times every mass the profile encloses *)
Theorem c118_steep_refuted : forall c a, 1 <= c -> 0 < a < c -> ex_RInt (fun x => gnfw_f (29 / 10) x * x ^ 2) a c /\ 3 * RInt (fun x => gnfw_f (29 / 10) x * x ^ 2) a c < numeric_mass (gnfw_f (29 / 10)) c.
Proof.
  intros c a C A. set (f := gnfw_f (29 / 10)). 
  assert (FV : forall x, 0 < x -> f x * x ^ 2 = Rpower x (- (9 / 10)) * Rpower (1 + x) (- (1 / 10))).
  { intros x X. unfold f, gnfw_f, npow. replace (Reqb x 0) with false. 2: { symmetry. destruct (Reqb x 0) eqn:E; auto. apply Reqb_spec in E. lra. }
    replace (x ^ 2) with (Rpower x 2) by (replace 2 with (INR 2) by (simpl; ring); rewrite Rpower_pow by auto; simpl; ring). unfold Rdiv at 1. rewrite Rmult_1_l, Rinv_mult, <- !Rpower_Ropp. rewrite (Rmult_comm (Rpower x _)), Rmult_assoc, <- Rpower_plus, Rmult_comm. f_equal; f_equal; lra. }
  assert (FP : forall x, 0 < x -> 0 <= f x). { intros x X. unfold f, gnfw_f, npow. replace (Reqb x 0) with false. 2: { symmetry. destruct (Reqb x 0) eqn:E; auto. apply Reqb_spec in E. lra. } left. apply Rdiv_lt_0_compat; [lra|]. apply Rmult_lt_0_compat; apply exp_pos. }
  assert (EX : ex_RInt (fun x => f x * x ^ 2) a c). { apply (@ex_RInt_ext R_NormedModule (fun x => Rpower x (- (9 / 10)) * Rpower (1 + x) (- (1 / 10)))). - intros x Hx. rewrite Rmin_left in Hx by lra. symmetry. apply FV. lra. - apply (@ex_RInt_continuous R_CompleteNormedModule). intros x Hx. rewrite Rmin_left in Hx by lra. apply (@ex_derive_continuous R_AbsRing R_NormedModule). unfold Rpower. auto_derive. repeat split; lra. }
  split; auto.
  (* the true mass *)
  assert (UP : RInt (fun x => f x * x ^ 2) a c <= 10 * c).
  { assert (IP : is_RInt (fun x => Rpower x (- (9 / 10))) a c (10 * Rpower c (1 / 10) - 10 * Rpower a (1 / 10))).
    { apply (ftc (fun x => 10 * Rpower x (1 / 10)) (fun x => Rpower x (- (9 / 10)))); [lra| |].
      - intros x Hx. unfold Rpower. auto_derive; [lra|]. replace (- (9 / 10) * ln x) with (1 / 10 * ln x + - ln x) by lra. rewrite exp_plus, exp_Ropp, exp_ln by lra. field. lra.
      - intros x Hx. apply (@ex_derive_continuous R_AbsRing R_NormedModule). unfold Rpower. auto_derive. lra. }
    apply Rle_trans with (10 * Rpower c (1 / 10) - 10 * Rpower a (1 / 10)).
    - rewrite <- (is_RInt_unique (V:=R_CompleteNormedModule) _ _ _ _ IP). apply RInt_le; [lra|exact EX|eexists; exact IP|]. intros x Hx. rewrite FV by lra. rewrite <- (Rmult_1_r (Rpower x _)) at 2. apply Rmult_le_compat_l; [left; apply exp_pos|]. unfold Rpower. apply Rle_trans with (exp 0); [|rewrite exp_0; lra]. assert (0 <= ln (1 + x)) by (rewrite <- ln_1; apply Rcomplements.ln_le; lra). destruct (Req_dec (- (1 / 10) * ln (1 + x)) 0) as [Z|Z]; [rewrite Z; lra|left; apply exp_increasing; lra].
    - assert (0 < Rpower a (1 / 10)) by apply exp_pos. assert (Rpower c (1 / 10) <= c). { rewrite <- (Rpower_1 c) at 2 by lra. apply Rle_Rpower; lra. } lra. }
  (* the number *)
  assert (LOW := mass_lower f c ltac:(lra) ltac:(intros; apply FP; lra)). rewrite FV in LOW by lra.
  assert (B1 : 240000 <= Rpower (/ 1000000) (- (9 / 10))).
  { replace (/ 1000000) with (Rpower 10 (-6)). 2: { replace (-6) with (- INR 6) by (simpl; lra). rewrite Rpower_Ropp, Rpower_pow by lra. f_equal. simpl. lra. } rewrite Rpower_mult. replace (-6 * - (9 / 10)) with (INR 5 + 2 / 5) by (simpl; lra). rewrite Rpower_plus, Rpower_pow by lra.
    assert (Q : 24 / 10 <= Rpower 10 (2 / 5)). { apply Rnot_lt_le. intros Q. assert (P0 : 0 < Rpower 10 (2 / 5)) by apply exp_pos. assert (S : Rpower 10 (2 / 5) ^ 5 = 100). { rewrite <- Rpower_pow by auto. rewrite Rpower_mult. replace (2 / 5 * INR 5) with (INR 2) by (simpl; lra). rewrite Rpower_pow by lra. simpl. lra. } assert (T : Rpower 10 (2 / 5) ^ 5 <= (24 / 10) ^ 5) by (apply pow_incr; lra). lra. } simpl (10 ^ 5). lra. }
  assert (B2 : 99 / 100 <= Rpower (1 + / 1000000) (- (1 / 10))). { unfold Rpower. assert (L : ln (1 + / 1000000) <= / 1000000). { rewrite <- (ln_exp (/ 1000000)) at 2. apply Rcomplements.ln_le; [lra|]. assert (X := exp_ineq1 (/ 1000000) ltac:(lra)). lra. } assert (L0 : 0 < ln (1 + / 1000000)) by (rewrite <- ln_1; apply ln_increasing; lra). assert (X := exp_ineq1 (- (1 / 10) * ln (1 + / 1000000)) ltac:(lra)). lra. }
  set (u := Rpower (/ 1000000) (- (9 / 10))) in *. set (v := Rpower (1 + / 1000000) (- (1 / 10))) in *. assert (UV : 237600 <= u * v) by nra. clearbody u v.
  assert ((c - / 1000000) / 1999 * (/ 3 * 237600) <= (c - / 1000000) / 1999 * (/ 3 * (u * v))). { apply Rmult_le_compat_l; [apply Rmult_le_pos; lra|lra]. } lra.
Qed.
Print Assumptions c118_steep_refuted.
(** the shapes it is meant for: zero x^0 divisor aside, GeneralizedNFW interpolates between a core and an isothermal cusp *)
Example c118_nonvacuous : / 1000000 < 5 /\ Rabs (numeric_mass (gnfw_f 1) 5 - nfw_h 5) <= / 10000.
Proof. split; [lra|]. eapply Rle_trans; [apply c118_default_is_nfw; lra|]. lra. Qed.
