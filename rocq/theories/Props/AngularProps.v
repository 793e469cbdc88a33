(** C141: how far the angular correlation function is from Limber's double integral. *)
From Coq Require Import Reals List Arith Lia Lra Psatz.
From Coquelicot Require Import Coquelicot.
From Verif Require Import Model.RBool Model.SimpsonX Model.IntegrateCorr Spec.IntegrateSpec Spec.AngularSpec Proofs.Calc Proofs.SimpsonXProofs Proofs.SimpsonXError Proofs.IntegrateProofs Proofs.AngularError
  Props.IntegrateProps Props.IntegrateProps2 Props.SimpsonErrorProps.
Import ListNotations.
Local Open Scope R_scope.

Lemma limber_inner : forall n xi xi1 xi2 xi3 B x0 x1 u0 u1 th, falling xi xi1 xi2 xi3 B u0 -> 0 < u0 < u1 -> x0 <= x1 -> 
  2 * RInt (fun x => RInt (fun u => n x * xi (sqrt (th ^ 2 * x ^ 2 + u ^ 2))) u0 u1) x0 x1 = limber_integral n xi x0 x1 u0 u1 th.
Proof.
  intros n xi xi1 xi2 xi3 B x0 x1 u0 u1 th HX U H. unfold limber_integral. f_equal. apply RInt_ext. intros x _. apply RInt_mult_l. apply (ex_RInt_continuous (V := R_CompleteNormedModule)).
  intros u Hu. rewrite Rmin_left, Rmax_right in Hu by lra. apply (ex_derive_continuous (K := R_AbsRing) (V := R_NormedModule)). apply (ex_derive_ext (line xi 1 ((th * x) ^ 2))).
  - intros t. unfold line. f_equal. f_equal. ring.
  - eexists. eapply line_d; eauto; try lra; [apply pow2_ge_0|]. assert (0 <= (th * x) ^ 2) by apply pow2_ge_0. replace u with (sqrt (u ^ 2)) in Hu by (apply sqrt_pow2; lra). eapply Rle_trans; [apply Hu|]. apply sqrt_le_1_alt. lra.
Qed.
(** the double sum, on any quasi-uniform grid of at least three distances with gaps of at most h *)
Theorem c141_double_sum : forall c pz p1 p2 g un q h xi xi1 xi2 xi3 n n1 n2 n3 B N ell x0 x1 u0 u1 th,
  falling xi xi1 xi2 xi3 B u0 -> varies n n1 n2 n3 N ell x0 x1 -> 0 < u0 < u1 -> 0 < x0 < x1 -> 0 < ell <= x0 -> 0 <= th ->
  let xs := map (distance c pz) g in
  (3 <= length xs)%nat -> incr xs -> quasi_uniform xs -> hd 0 xs = x0 -> last xs 0 = x1 -> 0 <= h -> (forall i, (S i < length xs)%nat -> nth (S i) xs 0 - nth i xs 0 <= h) ->
  (forall t, In t g -> p_integ c pz p1 p2 t = n (distance c pz t)) ->
  (3 <= un)%nat -> 1 < q <= 5 / 4 -> q ^ (un - 1) * u0 = u1 ->
  Rabs (limber c pz p1 p2 xi g (logspace u0 u1 un) th - limber_integral n xi x0 x1 u0 u1 th) <= N * B * sqrt u1 * (x1 - x0) * (23 * (h / ell) ^ 3 + 11 * (q - 1) ^ 3).
Proof.
  intros c pz p1 p2 g un q h xi xi1 xi2 xi3 n n1 n2 n3 B N ell x0 x1 u0 u1 th HX HN U X L T xs Len I Q H0 H1 Hh G P Hun Hq E.
  rewrite <- (limber_inner n xi xi1 xi2 xi3 B x0 x1 u0 u1 th HX U ltac:(lra)).
  assert (K := double_err xi xi1 xi2 xi3 n n1 n2 n3 B N ell x0 x1 u0 u1 th HX HN U X L T xs h un q Len I Q H0 H1 Hh G Hun Hq E). cbv zeta in K.
  replace (limber c pz p1 p2 xi g (logspace u0 u1 un) th) with (2 * simpx_pts (pts (fun x => simpx_pts (pts (fun u => n x * xi (sqrt (th ^ 2 * x ^ 2 + u ^ 2))) (logspace u0 u1 un))) xs)); [exact K|].
  unfold limber. f_equal. rewrite <- simpx_pts_eq. unfold xs. rewrite map_map. f_equal. apply map_ext_in. intros t Ht. rewrite <- simpx_pts_eq. f_equal. apply map_ext. intros v. rewrite (P t Ht). ring.
Qed.
Print Assumptions c141_double_sum.

Lemma lin_gap : forall a b m i, (2 <= m)%nat -> (S i < m)%nat -> nth (S i) (linspace a b m) 0 - nth i (linspace a b m) 0 = (b - a) / INR (m - 1).
Proof.
  intros a b m i H Hi. unfold linspace. set (f := fun i => a + INR i * ((b - a) / INR (m - 1))). rewrite !(nth_indep _ 0 (f 0%nat)) by (rewrite map_length, seq_length; lia). rewrite !map_nth, !seq_nth by lia.
  unfold f. simpl (0 + _)%nat. rewrite S_INR. ring.
Qed.
Definition second (p1 : selection) (p2 : option selection) : R -> R := match p2 with None => s_f p1 | Some p => s_f p end.
(** normalisation is not checked, or is found in order *)
Definition accepted (ck : bool) (p1 : selection) (p2 : option selection) (g : list R) : Prop :=
  ck = true -> check_p p1 g = Some (s_f p1) /\ forall p, p2 = Some p -> check_p p g = Some (s_f p).
Lemma angular_limber : forall c xi p1 p2 z0 z1 l0 l1 zn un ck pz th, accepted ck p1 p2 (angular_grid c z0 z1 zn pz) ->
  angular_corr_gal c xi p1 p2 z0 z1 l0 l1 zn un ck pz th = Some (limber c pz (s_f p1) (second p1 p2) xi (angular_grid c z0 z1 zn pz) (logspace (Rpower 10 l0) (Rpower 10 l1) un) th).
Proof.
  intros c xi p1 p2 z0 z1 l0 l1 zn un ck pz th A. unfold angular_corr_gal, selected, second. cbv zeta. destruct ck.
  - destruct (A eq_refl) as [A1 A2]. rewrite A1. destruct p2 as [p|]; [rewrite (A2 p eq_refl)|]; reflexivity.
  - destruct p2; reflexivity.
Qed.

(** selections given as functions of distance *)
Theorem c141_distances : forall c xi p1 p2 z0 z1 l0 l1 zn un ck th w xi1 xi2 xi3 n1 n2 n3 B N ell,
  let x0 := c_dist c z0 * c_h c in let x1 := c_dist c z1 * c_h c in let u0 := Rpower 10 l0 in let u1 := Rpower 10 l1 in
  let n x := s_f p1 x * second p1 p2 x in let h := (x1 - x0) / INR (zn - 1) in let q := Rpower 10 ((l1 - l0) / INR (un - 1)) in
  angular_corr_gal c xi p1 p2 z0 z1 l0 l1 zn un ck false th = Some w -> accepted ck p1 p2 (linspace x0 x1 zn) ->
  falling xi xi1 xi2 xi3 B u0 -> varies n n1 n2 n3 N ell x0 x1 -> 0 < x0 < x1 -> 0 < ell <= x0 -> 0 <= th -> l0 < l1 -> (3 <= zn)%nat -> (3 <= un)%nat -> q <= 5 / 4 ->
  Rabs (w - limber_integral n xi x0 x1 u0 u1 th) <= N * B * sqrt u1 * (x1 - x0) * (23 * (h / ell) ^ 3 + 11 * (q - 1) ^ 3).
Proof.
  intros c xi p1 p2 z0 z1 l0 l1 zn un ck th w xi1 xi2 xi3 n1 n2 n3 B N ell x0 x1 u0 u1 n h q W A HX HN X L T Hl Hz Hu Hq.
  rewrite angular_limber in W by exact A. injection W as <-.
  assert (L10 : 0 < ln 10) by (rewrite <- ln_1; apply ln_increasing; lra).
  assert (IU : 0 < INR (un - 1)) by (apply lt_0_INR; lia). assert (IZ : 0 < INR (zn - 1)) by (apply lt_0_INR; lia).
  assert (Q1 : 1 < q). { unfold q, Rpower. rewrite <- exp_0 at 1. apply exp_increasing. apply Rmult_lt_0_compat; auto. apply Rdiv_lt_0_compat; lra. }
  assert (QE : q ^ (un - 1) * u0 = u1). { rewrite <- Rpower_pow by (unfold q; apply exp_pos). unfold q, u0, u1. rewrite Rpower_mult, <- Rpower_plus. f_equal. field. lra. }
  assert (UU : 0 < u0 < u1). { unfold u0, u1, Rpower. split; [apply exp_pos|]. apply exp_increasing. apply Rmult_lt_compat_r; auto. }
  assert (EX : map (distance c false) (angular_grid c z0 z1 zn false) = linspace x0 x1 zn) by (unfold distance, angular_grid; apply map_id).
  apply (c141_double_sum c false (s_f p1) (second p1 p2) (angular_grid c z0 z1 zn false) un q h xi xi1 xi2 xi3 n n1 n2 n3 B N ell x0 x1 u0 u1 th); auto; rewrite ?EX.
  - rewrite linspace_len. auto.
  - apply linspace_incr. lra.
  - apply linspace_qu. lra.
  - apply linspace_hd. lia.
  - apply linspace_last. lia.
  - unfold h. apply div_pos; lra.
  - intros i Hi. rewrite linspace_len in Hi. rewrite lin_gap by lia. apply Rle_refl.
Qed.
Print Assumptions c141_distances.

(** selections given as functions of redshift: the same integral, with the distributions of distance n1 and n2 they stand for; the expansion
    rate grows, at most doubling over two steps of the grid *)
Theorem c141_redshifts : forall c xi p1 p2 z0 z1 l0 l1 zn un ck th w xi1 xi2 xi3 na nb n1 n2 n3 B N ell,
  let D z := c_dist c z * c_h c in let x0 := D z0 in let x1 := D z1 in let u0 := Rpower 10 l0 in let u1 := Rpower 10 l1 in
  let n x := na x * nb x in let dz := (z1 - z0) / INR (zn - 1) in let h := dz * (c_dh c * c_h c / c_E c z0) in let q := Rpower 10 ((l1 - l0) / INR (un - 1)) in
  angular_corr_gal c xi p1 p2 z0 z1 l0 l1 zn un ck true th = Some w -> accepted ck p1 p2 (linspace z0 z1 zn) ->
  z0 < z1 -> 0 < c_h c -> 0 < c_dh c -> 0 < c_E c z0 -> (forall z, z0 <= z <= z1 -> is_derive (c_dist c) z (c_dh c / c_E c z)) ->
  (forall y z, z0 <= y -> y <= z -> z <= z1 -> c_E c y <= c_E c z) -> (forall z, z0 <= z -> z + 2 * dz <= z1 -> c_E c (z + 2 * dz) <= 2 * c_E c z) ->
  (forall z, z0 <= z <= z1 -> same_distribution D (s_f p1) na z) -> (forall z, z0 <= z <= z1 -> same_distribution D (second p1 p2) nb z) ->
  falling xi xi1 xi2 xi3 B u0 -> varies n n1 n2 n3 N ell x0 x1 -> 0 < x0 -> 0 < ell <= x0 -> 0 <= th -> l0 < l1 -> (3 <= zn)%nat -> (3 <= un)%nat -> q <= 5 / 4 ->
  Rabs (w - limber_integral n xi x0 x1 u0 u1 th) <= N * B * sqrt u1 * (x1 - x0) * (23 * (h / ell) ^ 3 + 11 * (q - 1) ^ 3).
Proof.
  intros c xi p1 p2 z0 z1 l0 l1 zn un ck th w xi1 xi2 xi3 na nb n1 n2 n3 B N ell D x0 x1 u0 u1 n dz h q W A Z Ch Cdh E0 DD Em E2 S1 S2 HX HN X L T Hl Hz Hu Hq.
  rewrite angular_limber in W by exact A. injection W as <-.
  assert (L10 : 0 < ln 10) by (rewrite <- ln_1; apply ln_increasing; lra).
  assert (IU : 0 < INR (un - 1)) by (apply lt_0_INR; lia). assert (IZ : 0 < INR (zn - 1)) by (apply lt_0_INR; lia). assert (DZ : 0 < dz) by (apply Rdiv_lt_0_compat; lra).
  assert (Q1 : 1 < q). { unfold q, Rpower. rewrite <- exp_0 at 1. apply exp_increasing. apply Rmult_lt_0_compat; auto. apply Rdiv_lt_0_compat; lra. }
  assert (QE : q ^ (un - 1) * u0 = u1). { rewrite <- Rpower_pow by (unfold q; apply exp_pos). unfold q, u0, u1. rewrite Rpower_mult, <- Rpower_plus. f_equal. field. lra. }
  assert (UU : 0 < u0 < u1). { unfold u0, u1, Rpower. split; [apply exp_pos|]. apply exp_increasing. apply Rmult_lt_compat_r; auto. }
  set (k := c_dh c * c_h c). assert (K : 0 < k) by (apply Rmult_lt_0_compat; auto).
  assert (EP : forall z, z0 <= z <= z1 -> c_E c z0 <= c_E c z) by (intros z Hz'; apply Em; lra).
  assert (JD : forall z, z0 <= z <= z1 -> is_derive D z (k / c_E c z)) by (intros z Hz'; apply (c71_jacobian c z (DD z Hz'))).
  assert (GAP : forall y z, z0 <= y -> y < z -> z <= z1 -> (z - y) * (k / c_E c z) <= D z - D y <= (z - y) * (k / c_E c y)).
  { intros y z Y1 Y2 Y3. destruct (mvt D (fun z => k / c_E c z) y z Y2) as (s & Hs & EQ); [intros t Ht; apply JD; lra|]. rewrite EQ. assert (A0 := EP y ltac:(lra)). assert (A1 := Em y s ltac:(lra) ltac:(lra) ltac:(lra)). assert (A2 := Em s z ltac:(lra) ltac:(lra) ltac:(lra)).
    rewrite (Rmult_comm (k / c_E c s)). split; (apply Rmult_le_compat_l; [lra|]; unfold Rdiv; apply Rmult_le_compat_l; [lra|]; apply Rinv_le_contravar; lra). }
  assert (DINC : forall y z, z0 <= y -> y < z -> z <= z1 -> D y < D z).
  { intros y z Y1 Y2 Y3. destruct (GAP y z Y1 Y2 Y3) as [G _]. assert (A0 := EP z ltac:(lra)). assert (0 < (z - y) * (k / c_E c z)) by (apply Rmult_lt_0_compat; [lra|apply Rdiv_lt_0_compat; lra]). lra. }
  set (f := fun i => z0 + INR i * dz). assert (FS : forall i, f (S i) = f i + dz) by (intros i; unfold f; rewrite S_INR; ring).
  assert (LF : linspace z0 z1 zn = map f (seq 0 zn)) by reflexivity.
  assert (FR : forall i, (i < zn)%nat -> z0 <= f i <= z1).
  { intros i Hi. apply (linspace_in z0 z1 zn); [lra|]. rewrite LF. apply in_map. apply in_seq. lia. }
  apply (c141_double_sum c true (s_f p1) (second p1 p2) (linspace z0 z1 zn) un q h xi xi1 xi2 xi3 n n1 n2 n3 B N ell x0 x1 u0 u1 th); auto.
  - split; auto. apply DINC; lra.
  - rewrite map_length, linspace_len. auto.
  - apply incr_map_in; [|apply linspace_incr; auto]. intros a b Ha Hb Hab. apply linspace_in in Ha; [|lra]. apply linspace_in in Hb; [|lra]. apply DINC; lra.
  - rewrite LF, map_map. apply qu_seq. intros i _ Hi. change (distance c true) with D. assert (R0 := FR i ltac:(lia)). assert (R1 := FR (S i) ltac:(lia)). assert (R2 := FR (S (S i)) ltac:(lia)). rewrite !FS in *.
    destruct (GAP (f i) (f i + dz) ltac:(lra) ltac:(lra) ltac:(lra)) as [G1 G2]. destruct (GAP (f i + dz) (f i + dz + dz) ltac:(lra) ltac:(lra) ltac:(lra)) as [G3 G4].
    assert (D2 := E2 (f i) ltac:(lra) ltac:(lra)). replace (f i + 2 * dz) with (f i + dz + dz) in D2 by ring. assert (A0 := EP (f i) ltac:(lra)). assert (A1 := EP (f i + dz + dz) ltac:(lra)). assert (A2 := EP (f i + dz) ltac:(lra)).
    replace (f i + dz - f i) with dz in * by ring. replace (f i + dz + dz - (f i + dz)) with dz in * by ring. set (a := c_E c (f i)) in *. set (b := c_E c (f i + dz)) in *. set (e := c_E c (f i + dz + dz)) in *.
    assert (I1 : k / a <= 2 * (k / e)). { apply (Rmult_le_reg_r (a * e)); [apply Rmult_lt_0_compat; lra|]. replace (k / a * (a * e)) with (k * e) by (field; lra). replace (2 * (k / e) * (a * e)) with (k * (2 * a)) by (field; lra). apply Rmult_le_compat_l; lra. }
    split.
    + apply Rle_trans with (dz * (k / a)); auto. apply Rle_trans with (2 * (dz * (k / e))); [|lra]. replace (2 * (dz * (k / e))) with (dz * (2 * (k / e))) by ring. apply Rmult_le_compat_l; lra.
    + assert (0 <= dz * (k / b)) by (apply Rmult_le_pos; [lra|apply div_pos; lra]). lra.
  - assert (HL : hd 0 (map (distance c true) (linspace z0 z1 zn)) = distance c true (hd 0 (linspace z0 z1 zn))). { destruct (linspace z0 z1 zn) eqn:EL; [|reflexivity]. assert (Q := linspace_len z0 z1 zn). rewrite EL in Q. simpl in Q. lia. }
    rewrite HL, linspace_hd by lia. reflexivity.
  - rewrite LF, map_map, last_seq by lia. unfold x1. change (distance c true) with D. f_equal. replace (0 + zn - 1)%nat with (zn - 1)%nat by lia. unfold f, dz. field. lra.
  - unfold h. apply Rmult_le_pos; [lra|]. apply div_pos; [fold k|]; lra.
  - intros i Hi. rewrite map_length, linspace_len in Hi. rewrite LF, map_map. change (distance c true) with D. set (F := fun x => D (f x)). rewrite !(nth_indep _ 0 (F 0%nat)) by (rewrite map_length, seq_length; lia). rewrite !map_nth, !seq_nth by lia. simpl (0 + _)%nat.
    assert (R0 := FR i ltac:(lia)). assert (R1 := FR (S i) ltac:(lia)). unfold F. rewrite FS in *. destruct (GAP (f i) (f i + dz) ltac:(lra) ltac:(lra) ltac:(lra)) as [_ G2]. replace (f i + dz - f i) with dz in G2 by ring.
    eapply Rle_trans; [exact G2|]. unfold h. fold k. apply Rmult_le_compat_l; [lra|]. unfold Rdiv. apply Rmult_le_compat_l; [lra|]. apply Rinv_le_contravar; auto.
  - intros t Ht. apply linspace_in in Ht; [|lra]. assert (A0 := EP t Ht). rewrite (c71_redshift_or_distance c (s_f p1) na (second p1 p2) nb t (DD t Ht)); auto. unfold dxdz. apply Rgt_not_eq. apply Rdiv_lt_0_compat; [exact K|lra].
Qed.
Print Assumptions c141_redshifts.

(** the hypotheses are met: xi = 1/sqrt r, one constant selection, redshifts 1 to 2 in a universe that expands at a constant rate *)
Lemma falling_sqrt : falling (fun r => 1 / sqrt r) (fun r => - (1 / 2) / (r * sqrt r)) (fun r => 3 / 4 / (r ^ 2 * sqrt r)) (fun r => - (15 / 8) / (r ^ 3 * sqrt r)) (15 / 8) (1 / 10).
Proof.
  intros r Hr. assert (P : 0 < sqrt r) by (apply sqrt_lt_R0; lra). assert (Q := sqrt_sqrt r ltac:(lra)).
  assert (AB : forall a b, 0 < b -> Rabs a <= 15 / 8 -> Rabs (a / b) <= 15 / 8 / b).
  { intros a b Hb Ha. unfold Rdiv. rewrite Rabs_mult, (Rabs_pos_eq (/ b)) by (left; apply Rinv_0_lt_compat; auto). apply Rmult_le_compat_r; auto. left. apply Rinv_0_lt_compat; auto. }
  split; [|split; [|split; [|split; [|split; [|split]]]]].
  1-3: auto_derive; [repeat split; try apply Rgt_not_eq; try (apply Rmult_lt_0_compat); try lra; nra|]; set (s := sqrt r) in *; rewrite <- Q; field; lra.
  all: apply AB; try (apply Rmult_lt_0_compat; auto; try apply pow_lt; lra); auto; unfold Rabs; destruct (Rcase_abs _); lra.
Qed.
Example c141_nonvacuous : exists c w, let xi := fun r => 1 / sqrt r in let one := fun _ : R => 1 in let p := mkSel one None in let D z := c_dist c z * c_h c in
  angular_corr_gal c xi p None 1 2 (-1) 0 11 12 false true 1 = Some w /\ 0 < c_h c /\ 0 < c_dh c /\ 0 < c_E c 1 /\ (forall z, 1 <= z <= 2 -> is_derive (c_dist c) z (c_dh c / c_E c z)) /\
  (forall y z, 1 <= y -> y <= z -> z <= 2 -> c_E c y <= c_E c z) /\ (forall z, c_E c (z + 2 * ((2 - 1) / INR (11 - 1))) <= 2 * c_E c z) /\
  (forall z, 1 <= z <= 2 -> same_distribution D one one z) /\ falling xi (fun r => - (1 / 2) / (r * sqrt r)) (fun r => 3 / 4 / (r ^ 2 * sqrt r)) (fun r => - (15 / 8) / (r ^ 3 * sqrt r)) (15 / 8) (Rpower 10 (-1)) /\
  varies (fun _ => 1 * 1) (fun _ => 0) (fun _ => 0) (fun _ => 0) 1 1 (D 1) (D 2) /\ 0 < 1 <= D 1 /\ Rpower 10 ((0 - -1) / INR (12 - 1)) <= 5 / 4.
Proof.
  assert (L10 : 0 < ln 10) by (rewrite <- ln_1; apply ln_increasing; lra).
  exists (mkCosmo (fun z => z) 1 1 (fun _ => 1)). eexists. cbv zeta. unfold distance. simpl c_dist. simpl c_h. simpl c_dh. simpl c_E. repeat apply conj; try lra.
  - reflexivity.
  - intros z _. auto_derive; auto. lra.
  - intros; lra.
  - intros; lra.
  - intros z _ l Hl. apply is_derive_unique in Hl. rewrite <- Hl. replace (Derive (fun g : R => g * 1) z) with 1; [lra|]. symmetry. apply is_derive_unique. auto_derive; auto. lra.
  - replace (Rpower 10 (-1)) with (1 / 10); [apply falling_sqrt|]. replace (-1) with (- (1)) by lra. rewrite Rpower_Ropp, Rpower_1 by lra. lra.
  - intros x _. split; [|split; [|split; [|split; [|split; [|split]]]]]; try (auto_derive; auto; lra); rewrite ?Rabs_R0, ?Rabs_pos_eq by lra; lra.
  - replace ((0 - -1) / INR (12 - 1)) with (/ 11) by (simpl INR; lra). unfold Rpower. apply Rle_trans with (exp (ln (5 / 4))); [|rewrite exp_ln; lra].
    assert (ln 10 <= 11 * ln (5 / 4)). { replace 11 with (INR 11) by (simpl; lra). rewrite <- ln_pow by lra. left. apply ln_increasing; lra. }
    apply Rnot_lt_le. intros C. apply exp_lt_inv in C. lra.
Qed.
