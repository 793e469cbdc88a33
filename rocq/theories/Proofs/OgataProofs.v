From Coq Require Import Reals String List Bool Arith Lra Lia.
From Coquelicot Require Import Coquelicot.
From Verif Require Import Model.RBool Model.Hankel Model.Profiles Model.Ogata2 Spec.HankelSpec Spec.OgataSpec
  Proofs.ExtSplineProofs Proofs.HankelProofs Proofs.HankelProofs2.
Import ListNotations.
Local Open Scope R_scope.

Lemma tanh_incr : forall a b, a <= b -> tanh a <= tanh b.
Proof.
  intros a b H. assert (T : forall x, tanh x = 1 - 2 / (exp (2 * x) + 1)).
  { intros x. unfold tanh, sinh, cosh. rewrite exp_Ropp. replace (2 * x) with (x + x) by ring. rewrite exp_plus. pose proof (exp_pos x). field. nra. }
  rewrite !T. pose proof (exp_pos (2 * a)). pose proof (exp_pos (2 * b)).
  assert (exp (2 * a) <= exp (2 * b)). { destruct H as [H| ->]; [left; apply exp_increasing; lra|lra]. }
  assert (/ (exp (2 * b) + 1) <= / (exp (2 * a) + 1)) by (apply Rinv_le_contravar; lra). unfold Rdiv. lra.
Qed.
Lemma sinh_incr : forall a b, a <= b -> sinh a <= sinh b.
Proof.
  intros a b H. unfold sinh. assert (E : forall x y, x <= y -> exp x <= exp y) by (intros x y [L| ->]; [left; apply exp_increasing; lra|lra]).
  pose proof (E a b H). pose proof (E (-b) (-a) ltac:(lra)). lra.
Qed.
Lemma og_x_abscissa : forall h n r, og_x h n / r = abscissa h n r.
Proof. intros. unfold og_x, abscissa, og_s, og_t. replace (PI * sinh (h * INR n) / 2) with (PI / 2 * sinh (h * INR n)) by field. reflexivity. Qed.
Lemma abscissa_incr : forall h i j r, 0 < h -> 0 < r -> (i <= j)%nat -> abscissa h i r <= abscissa h j r.
Proof.
  intros h i j r Hh Hr L. unfold abscissa. unfold Rdiv at 1 3. apply Rmult_le_compat_r; [left; apply Rinv_0_lt_compat; auto|].
  pose proof PI_RGT_0. assert (I : INR i <= INR j) by (apply le_INR; auto). pose proof (pos_INR i).
  assert (S : sinh (h * INR i) <= sinh (h * INR j)) by (apply sinh_incr; apply Rmult_le_compat_l; lra).
  assert (Z : 0 <= sinh (h * INR i)). { pose proof (sinh_ge (h * INR i)). assert (0 <= h * INR i) by (apply Rmult_le_pos; lra). lra. }
  assert (T : tanh (PI / 2 * sinh (h * INR i)) <= tanh (PI / 2 * sinh (h * INR j))) by (apply tanh_incr; apply Rmult_le_compat_l; lra).
  assert (T0 : 0 <= tanh (PI / 2 * sinh (h * INR i))).
  { replace 0 with (tanh 0). apply tanh_incr. apply Rmult_le_pos; lra. unfold tanh, sinh. rewrite Ropp_0. unfold Rdiv. rewrite Rminus_diag_eq by auto. ring. }
  apply Rmult_le_compat; auto. apply Rmult_le_pos; lra. apply Rmult_le_compat_l; lra.
Qed.

Lemma kk_nth : forall h r i, (i < og_nmax h)%nat -> nth i (map (fun n => og_x h n / r) (seq 1 (og_nmax h))) 0 = abscissa h (S i) r.
Proof.
  intros h r i H. rewrite (nth_indep _ 0 (og_x h 0 / r)) by (rewrite map_length, seq_length; auto).
  rewrite map_nth with (f := fun n => og_x h n / r). rewrite seq_nth by auto. apply og_x_abscissa.
Qed.
Lemma kk_in : forall h r x, In x (map (fun n => og_x h n / r) (seq 1 (og_nmax h))) -> exists n, (1 <= n <= og_nmax h)%nat /\ x = abscissa h n r.
Proof. intros h r x H. apply in_map_iff in H. destruct H as (n & <- & Hn). apply in_seq in Hn. exists n. split; [lia|apply og_x_abscissa]. Qed.
Lemma kk_in2 : forall h r n, (1 <= n <= og_nmax h)%nat -> In (abscissa h n r) (map (fun n => og_x h n / r) (seq 1 (og_nmax h))).
Proof. intros h r n H. apply in_map_iff. exists n. split; [apply og_x_abscissa|apply in_seq; lia]. Qed.
Lemma kk_min : forall h r, 0 < h -> 0 < r -> (1 <= og_nmax h)%nat -> lmin (map (fun n => og_x h n / r) (seq 1 (og_nmax h))) = abscissa h 1 r.
Proof.
  intros h r Hh Hr N. set (kk := map _ _). apply Rle_antisym; [apply lmin_lb; apply kk_in2; lia|].
  assert (I : In (lmin kk) kk). { apply lmin_in. unfold kk. destruct (og_nmax h); [lia|discriminate]. }
  apply kk_in in I. destruct I as (n & Hn & ->). apply abscissa_incr; auto; lia.
Qed.
Lemma kk_max : forall h r, 0 < h -> 0 < r -> (1 <= og_nmax h)%nat -> lmax (map (fun n => og_x h n / r) (seq 1 (og_nmax h))) = abscissa h (og_nmax h) r.
Proof.
  intros h r Hh Hr N. set (kk := map _ _). apply Rle_antisym; [|apply lmax_ub; apply kk_in2; lia].
  assert (I : In (lmax kk) kk). { apply lmax_in. unfold kk. destruct (og_nmax h); [lia|discriminate]. }
  apply kk_in in I. destruct I as (n & Hn & ->). apply abscissa_incr; auto; lia.
Qed.

(** the weights are those of the specification *)
Lemma psi_derive : forall t, is_derive psi t ((PI * t * cosh t + sinh (PI * sinh t)) / (1 + cosh (PI * sinh t))).
Proof.
  intros t. set (a := PI / 2 * sinh t). assert (Ea : PI * sinh t = 2 * a) by (unfold a; field).
  assert (C : 0 < cosh a) by (unfold cosh; pose proof (exp_pos a); pose proof (exp_pos (- a)); lra).
  assert (Q : cosh a * cosh a - sinh a * sinh a = 1).
  { unfold cosh, sinh. assert (E : exp a * exp (- a) = 1) by (rewrite <- exp_plus, Rplus_opp_r; apply exp_0). nra. }
  assert (S2 : sinh (2 * a) = 2 * sinh a * cosh a).
  { unfold cosh, sinh. replace (2 * a) with (a + a) by ring. rewrite Ropp_plus_distr, !exp_plus. field. }
  assert (C2 : cosh (2 * a) = 2 * (cosh a * cosh a) - 1).
  { replace (cosh (2 * a)) with (cosh a * cosh a + sinh a * sinh a); [lra|]. unfold cosh, sinh. replace (2 * a) with (a + a) by ring. rewrite Ropp_plus_distr, !exp_plus. field. }
  assert (Ds : is_derive sinh a (cosh a)) by (apply is_derive_Reals, derivable_pt_lim_sinh).
  assert (Dc : is_derive cosh a (sinh a)) by (apply is_derive_Reals, derivable_pt_lim_cosh).
  assert (Dt : is_derive tanh a (1 / (cosh a * cosh a))).
  { apply is_derive_ext with (f := fun x => sinh x / cosh x); [reflexivity|].
    evar_last; [apply is_derive_div; [exact Ds|exact Dc|lra]|]. transitivity ((cosh a * cosh a - sinh a * sinh a) / (cosh a * cosh a)); [field; lra|rewrite Q; reflexivity]. }
  assert (Dg : is_derive (fun x => PI / 2 * sinh x) t (PI / 2 * cosh t)).
  { evar_last; [apply is_derive_scal, is_derive_Reals, derivable_pt_lim_sinh|reflexivity]. }
  evar_last.
  - apply is_derive_ext with (f := fun x : R => mult x (tanh (PI / 2 * sinh x))); [reflexivity|].
    apply (is_derive_mult (fun x : R => x) (fun x : R => tanh (PI / 2 * sinh x)) t 1); [exact (is_derive_id (K := R_AbsRing) t)|exact (is_derive_comp tanh (fun x : R => PI / 2 * sinh x) t _ _ Dt Dg)|intros; apply Rmult_comm].
  - rewrite Ea, S2, C2. fold a. change plus with Rplus. change mult with Rmult. change one with 1. change scal with Rmult.
    unfold tanh. field. assert (0 < cosh a * cosh a) by (apply Rmult_lt_0_compat; auto). repeat split; lra.
Qed.
Lemma weight_sumpart : forall h n, og_sumpart h n = weight h n.
Proof.
  intros h n. unfold og_sumpart, weight. rewrite (is_derive_unique _ _ _ (psi_derive (h * INR n))).
  assert (X : og_x h n = abscissa h n 1) by (rewrite <- og_x_abscissa; field). rewrite <- X.
  unfold og_dpsi. destruct (Reqb _ 0) eqn:E.
  - apply Reqb_spec in E. destruct (og_dpsi_guard_never_false h n E).
  - unfold og_s, og_t. ring.
Qed.
Lemma nmax_terms : forall h, 0 < h -> forall N, terms h N <-> N = og_nmax h.
Proof.
  intros h Hh N. unfold terms, og_nmax. destruct (base_Int_part (32 / 10 / h)) as [A B]. set (z := Int_part (32 / 10 / h)) in *.
  assert (P : 0 < 32 / 10 / h) by (apply Rdiv_lt_0_compat; lra).
  assert (Z0 : (0 <= z)%Z). { assert (K : (-1 < z)%Z) by (apply lt_IZR; lra). lia. }
  assert (E : 32 / 10 = 32 / 10 / h * h) by (field; lra). set (q := 32 / 10 / h) in *.
  split.
  - intros [L U]. assert (INR N <= q) by (apply Rmult_le_reg_r with h; lra). assert (q < INR N + 1) by (apply Rmult_lt_reg_r with h; lra).
    rewrite INR_IZR_INZ in *. assert (Z.of_nat N = z); [|lia].
    assert (K1 : (Z.of_nat N < z + 1)%Z) by (apply lt_IZR; rewrite plus_IZR; lra).
    assert (K2 : (z < Z.of_nat N + 1)%Z) by (apply lt_IZR; rewrite plus_IZR; lra). lia.
  - intros ->. rewrite INR_IZR_INZ, Z2Nat.id by auto. rewrite E. split; [apply Rmult_le_compat_r; lra|apply Rmult_lt_compat_r; lra].
Qed.
Lemma pfunc_sample : forall spline3 pp k p u, pf_ok (pfunc pp (map ln k) p (spline3 (map ln k) p) (ln u)) = true ->
  pf_val (pfunc pp (map ln k) p (spline3 (map ln k) p) (ln u)) = sample spline3 pp k p u.
Proof.
  intros spline3 pp k p u. unfold pfunc, sample, two_point. destruct (snd pp && _); [discriminate|]. intros _. unfold Rltb.
  destruct (Rlt_dec (ln u) _).
  - destruct (fst pp); cbn [pf_val]; [f_equal|]; unfold Rdiv; ring.
  - destruct (Rlt_dec _ (ln u)); [|reflexivity].
    assert (I : forall a b c d x y z : R, (a - b) * z / (c - d) + x = x + (b - a) / (d - c) * z).
    { intros. replace (b - a) with (- (a - b)) by ring. replace (d - c) with (- (c - d)) by ring. unfold Rdiv. rewrite Rinv_opp. ring. }
    destruct (snd pp); cbn [pf_val]; [f_equal|]; apply I; exact 0.
Qed.

(** the summands are those of [ogata_sum] *)
Lemma summand_map : forall spline3 pp k p h r,
  forallb pf_ok (map (fun v => pfunc pp (map ln k) p (spline3 (map ln k) p) (ln v)) (map (fun n => og_x h n / r) (seq 1 (og_nmax h)))) = true ->
  map (fun q => og_sumpart h (fst q) * pf_val (snd q))
    (combine (seq 1 (og_nmax h)) (map (fun v => pfunc pp (map ln k) p (spline3 (map ln k) p) (ln v)) (map (fun n => og_x h n / r) (seq 1 (og_nmax h)))))
  = map (fun j => weight h j * sample spline3 pp k p (abscissa h j r)) (seq 1 (og_nmax h)).
Proof.
  intros spline3 pp k p h r. rewrite map_map. induction (seq 1 (og_nmax h)) as [|n l IH]; simpl; auto. intros H. apply andb_prop in H. destruct H as [H1 H2].
  rewrite IH by auto. f_equal. rewrite weight_sumpart, pfunc_sample by auto. rewrite og_x_abscissa. reflexivity.
Qed.
Lemma firstn_seq : forall n a i, (i <= n)%nat -> firstn i (seq a n) = seq a i.
Proof. induction n; intros a i H; destruct i; simpl; auto; try lia. rewrite IHn by lia. auto. Qed.
Lemma cs_nth : forall spline3 pp k p h r i, (i < og_nmax h)%nat ->
  nth i (rcumsum (map (fun j => weight h j * sample spline3 pp k p (abscissa h j r)) (seq 1 (og_nmax h)))) 0 = ogata_sum spline3 pp k p h r (S i).
Proof.
  intros. unfold rcumsum. rewrite rcumsum_nth by (rewrite map_length, seq_length; auto). rewrite Rplus_0_l. unfold ogata_sum, partial_sum, lsum.
  rewrite firstn_map, firstn_seq by lia. reflexivity.
Qed.
Lemma cs_last : forall spline3 pp k p h r, (1 <= og_nmax h)%nat ->
  last (rcumsum (map (fun j => weight h j * sample spline3 pp k p (abscissa h j r)) (seq 1 (og_nmax h)))) 0 = ogata_sum spline3 pp k p h r (og_nmax h).
Proof. intros. rewrite rcumsum_last. reflexivity. Qed.
Lemma cs_prev : forall spline3 pp k p h r i, (i < og_nmax h)%nat ->
  py_prev (rcumsum (map (fun j => weight h j * sample spline3 pp k p (abscissa h j r)) (seq 1 (og_nmax h)))) i
  = if Nat.eqb (S i) 1 then ogata_sum spline3 pp k p h r (og_nmax h) else ogata_sum spline3 pp k p h r i.
Proof. intros. destruct i; unfold py_prev. simpl Nat.eqb. rewrite cs_last by lia. reflexivity. rewrite cs_nth by lia. reflexivity. Qed.

Lemma isclose_close : forall a b x y, isclose a b x y = true <-> close a b x y.
Proof. intros. unfold isclose, close. apply Rleb_spec. Qed.
Lemma first_where_none : forall f l i, first_where f l i = None -> forall x, In x l -> f x = false.
Proof. intros f l; induction l; intros i H x I; simpl in *; [tauto|]. destruct (f a) eqn:E; [discriminate|]. destruct I as [<-|I]; eauto. Qed.

(** what one output point does *)
Lemma og_step_spec : forall spline3 h atol rtol pp k p r, 0 < h <= 32/10 -> 0 < r -> 0 <= atol -> 0 <= rtol ->
  forallb pf_ok (map (fun v => pfunc pp (map ln k) p (spline3 (map ln k) p) (ln v)) (map (fun n => og_x h n / r) (seq 1 (og_nmax h)))) = true ->
  let S := ogata_sum spline3 pp k p h r in let N := og_nmax h in
  exists o, og_step spline3 h atol rtol pp k p r = Ok o /\
    (og_low o = true <-> abscissa h 1 r < lmin k) /\
    (og_up o = true <-> exists j, first_beyond (og_nmax h) h k r j /\ ~ settled atol rtol N S j) /\
    (og_conv o = true <-> (exists j, first_beyond (og_nmax h) h k r j /\ ~ settled atol rtol N S j) /\ ~ close atol rtol (S N) (S (N - 1)%nat)) /\
    ((forall j, first_beyond (og_nmax h) h k r j -> ~ settled atol rtol N S j) -> og_v o = S N) /\
    (forall j, first_beyond (og_nmax h) h k r j -> settled atol rtol N S j -> og_v o = S j).
Proof.
  intros spline3 h atol rtol pp k p r [Hh Hh'] Hr Ha Hb OK S N. subst N.
  assert (N1 : (1 <= (og_nmax h))%nat) by (apply og_nmax_pos; auto).
  unfold og_step. rewrite OK. cbn [negb]. replace (Nat.eqb (og_nmax h) 0) with false by (symmetry; apply Nat.eqb_neq; lia).
  rewrite summand_map, kk_min, kk_max, cs_last by auto. fold S.
  assert (LOW : Rltb (abscissa h 1 r) (lmin k) = true <-> abscissa h 1 r < lmin k) by apply Rltb_spec.
  destruct (Rleb (abscissa h (og_nmax h) r) (lmax k)) eqn:E.
  - apply Rleb_spec in E. assert (NB : forall j, ~ first_beyond (og_nmax h) h k r j).
    { intros j (A & B & _). pose proof (abscissa_incr h j (og_nmax h) r Hh Hr ltac:(lia)). lra. }
    eexists. split; [reflexivity|]. cbn [og_low og_up og_conv og_v]. split; [exact LOW|]. repeat split; try discriminate; auto.
    + intros (j & F & _). destruct (NB j F).
    + intros [(j & F & _) _]. destruct (NB j F).
    + intros j F. destruct (NB j F).
  - apply Rleb_false in E.
    destruct (first_where _ _ 0) as [i|] eqn:F.
    2:{ pose proof (first_where_none _ _ _ F (abscissa h (og_nmax h) r) (kk_in2 h r (og_nmax h) ltac:(lia))) as G. apply Rltb_false in G. lra. }
    destruct (first_where_spec _ _ _ _ F) as (A & B & C). rewrite map_length, seq_length in A. simpl in A. rewrite Nat.sub_0_r in B.
    rewrite kk_nth in B by lia. apply Rltb_spec in B. rewrite cs_nth, cs_prev by lia. fold S.
    assert (FB : first_beyond (og_nmax h) h k r (Datatypes.S i)).
    { split; [lia|]. split; auto. intros q Hq. specialize (C (q - 1)%nat ltac:(lia)). rewrite Nat.sub_0_r, kk_nth in C by lia. apply Rltb_false in C.
      replace (Datatypes.S (q - 1)) with q in C by lia. lra. }
    assert (U : forall j, first_beyond (og_nmax h) h k r j -> j = Datatypes.S i).
    { intros j (J1 & J2 & J3). destruct FB as (K1 & K2 & K3). destruct (lt_eq_lt_dec j (Datatypes.S i)) as [[G|G]|G]; auto.
      - specialize (K3 j ltac:(lia)). lra. - specialize (J3 (Datatypes.S i) ltac:(lia)). lra. }
    assert (ST : isclose atol rtol (S (Datatypes.S i)) (if Nat.eqb (Datatypes.S i) 1 then S (og_nmax h) else S i) = true <-> settled atol rtol (og_nmax h) S (Datatypes.S i)).
    { rewrite isclose_close. unfold settled. replace (Datatypes.S i - 1)%nat with i by lia. tauto. }
    destruct (isclose atol rtol (S (Datatypes.S i)) _) eqn:I.
    + assert (SS : settled atol rtol (og_nmax h) S (Datatypes.S i)) by (apply ST; reflexivity).
      eexists. split; [reflexivity|]. cbn [og_low og_up og_conv og_v]. split; [exact LOW|]. repeat split; try discriminate; auto.
      * intros (j & Fj & G). rewrite (U j Fj) in G. contradiction.
      * intros [(j & Fj & G) _]. rewrite (U j Fj) in G. contradiction.
      * intros G. destruct (G _ FB SS).
      * intros j Fj _. rewrite (U j Fj). reflexivity.
    + assert (NS : ~ settled atol rtol (og_nmax h) S (Datatypes.S i)) by (intros Z; apply ST in Z; discriminate).
      destruct (Nat.eqb (og_nmax h) 1) eqn:N2.
      { exfalso. apply NS. apply Nat.eqb_eq in N2. assert (i = 0)%nat by lia. subst i. unfold settled, close. simpl Nat.eqb. cbn [Nat.eqb]. cbv iota. rewrite N2.
        rewrite Rminus_diag_eq, Rabs_R0 by auto. pose proof (Rmult_le_pos _ _ Hb (Rabs_pos (S 1%nat))). lra. }
      apply Nat.eqb_neq in N2. rewrite cs_nth by lia. fold S. replace (Datatypes.S ((og_nmax h) - 2)) with ((og_nmax h) - 1)%nat by lia.
      eexists. split; [reflexivity|]. cbn [og_low og_up og_conv og_v]. split; [exact LOW|].
      assert (EX : exists j, first_beyond (og_nmax h) h k r j /\ ~ settled atol rtol (og_nmax h) S j) by (exists (Datatypes.S i); auto).
      split; [tauto|]. split.
      { rewrite negb_true_iff. destruct (isclose atol rtol (S (og_nmax h)) (S ((og_nmax h) - 1)%nat)) eqn:Q.
        - apply isclose_close in Q. split; [discriminate|intros [_ G]; contradiction].
        - split; auto. intros _. split; auto. intros G. apply isclose_close in G. congruence. }
      split; auto. intros j Fj G. rewrite (U j Fj) in G. contradiction.
Qed.

(** with flags downgraded over rows that include [p], no sample fails *)
Lemma pfunc_ok_shared : forall pp rows lnk p spl x, In p rows -> (2 <= List.length p)%nat -> pf_ok (pfunc (downgrade pp rows) lnk p spl x) = true.
Proof.
  intros pp rows lnk p spl x I L. unfold pfunc. destruct (snd (downgrade pp rows)) eqn:E.
  2:{ cbn [andb]. repeat match goal with |- context [if ?b then _ else _] => destruct b end; reflexivity. }
  assert (P : last2_pos p = true).
  { unfold downgrade in E. cbn [snd] in E. destruct (snd pp); cbn [andb] in E; [|discriminate]. destruct (forallb last2_pos rows) eqn:F; cbn [negb] in E; [|discriminate].
    rewrite forallb_forall in F. auto. }
  pose proof (downgrade_pos (true, true) p L) as [_ D]. unfold downgrade in D. cbn [snd fst forallb andb] in D. rewrite P in D. cbn [andb negb] in D. destruct (D eq_refl) as [A B].
  replace (Rleb (nth (List.length p - 1) p 0) 0) with false by (symmetry; apply Rleb_false; exact A).
  replace (Rleb (nth (List.length p - 2) p 0) 0) with false by (symmetry; apply Rleb_false; exact B).
  cbn [andb orb]. repeat match goal with |- context [if ?b then _ else _] => destruct b end; reflexivity.
Qed.
Lemma all_ok_shared : forall spline3 pp rows k p h r, In p rows -> (2 <= List.length p)%nat ->
  forallb pf_ok (map (fun v => pfunc (downgrade pp rows) (map ln k) p (spline3 (map ln k) p) (ln v)) (map (fun n => og_x h n / r) (seq 1 (og_nmax h)))) = true.
Proof. intros. apply forallb_forall. intros q I. apply in_map_iff in I. destruct I as (u & <- & _). apply pfunc_ok_shared; auto. Qed.
