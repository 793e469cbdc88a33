From Coq Require Import Reals Lra Lia Bool Psatz String.
From Coquelicot Require Import Coquelicot.
From Verif Require Import Model.RBool Model.SpecialFn Model.Profiles Spec.ProfileSpec Proofs.Calc Proofs.HODProofs.
Local Open Scope R_scope.

Lemma ftc_open : forall (F g : R -> R) a b, a <= b ->
  (forall x, a < x < b -> is_derive F x (g x)) ->
  (forall x, a <= x <= b -> continuous F x) ->
  (forall x, a <= x <= b -> continuous g x) -> is_RInt g a b (F b - F a).
Proof.
  intros F g a b Hab HF CF Cg. destruct (Req_dec a b) as [->|N].
  { replace (F b - F b) with 0 by ring. apply (is_RInt_point g). }
  assert (H : a < b) by lra. clear Hab N.
  assert (EX : forall x, a <= x <= b -> ex_RInt g a x).
  { intros x Hx. apply (ex_RInt_continuous (V:=R_CompleteNormedModule)). intros z. rewrite Rmin_left, Rmax_right by lra. intros. apply Cg. lra. }
  (* extend g continuously by constants *)
  set (ge := fun x => g (Rmax a (Rmin x b))).
  assert (Cge : forall x, continuous ge x).
  { intros x. unfold ge. apply (continuous_comp (fun x => Rmax a (Rmin x b)) g).
    - apply (continuous_comp (fun x => Rmin x b) (fun y => Rmax a y)).
      + apply (continuous_ext (fun x => (x + b - Rabs (x - b)) / 2)).
        * intros t. unfold Rmin, Rabs. destruct (Rle_dec t b), (Rcase_abs (t - b)); lra.
        * unfold Rdiv. apply (continuous_mult (K:=R_AbsRing)); [|apply continuous_const]. apply (continuous_minus (V:=R_NormedModule)).
          -- apply (continuous_plus (V:=R_NormedModule)); [apply continuous_id|apply continuous_const].
          -- apply (continuous_comp (fun x => x - b) Rabs); [|apply continuous_Rabs]. apply (continuous_minus (V:=R_NormedModule)); [apply continuous_id|apply continuous_const].
      + apply (continuous_ext (fun y => (a + y + Rabs (a - y)) / 2)).
        * intros t. unfold Rmax, Rabs. destruct (Rle_dec a t), (Rcase_abs (a - t)); lra.
        * unfold Rdiv. apply (continuous_mult (K:=R_AbsRing)); [|apply continuous_const]. apply (continuous_plus (V:=R_NormedModule)).
          -- apply (continuous_plus (V:=R_NormedModule)); [apply continuous_const|apply continuous_id].
          -- apply (continuous_comp (fun y => a - y) Rabs); [|apply continuous_Rabs]. apply (continuous_minus (V:=R_NormedModule)); [apply continuous_const|apply continuous_id].
    - apply Cg. unfold Rmax, Rmin. destruct (Rle_dec x b), (Rle_dec a _); lra. }
  assert (gin : forall x, a <= x <= b -> ge x = g x).
  { intros x Hx. unfold ge. f_equal. rewrite Rmin_left by lra. rewrite Rmax_right by lra. reflexivity. }
  set (P := fun x => RInt ge a x).
  assert (DP : forall x, is_derive P x (ge x)).
  { intros x. unfold P. apply (is_derive_RInt ge (fun x => RInt ge a x) a x).
    - exists (mkposreal 1 Rlt_0_1). intros y _. apply (RInt_correct ge). apply (ex_RInt_continuous (V:=R_CompleteNormedModule)). intros; apply Cge.
    - apply Cge. }
  destruct (MVT_gen (fun x => F x - P x) a b (fun x => g x - ge x)) as [c [Hc E]].
  - intros x. rewrite Rmin_left, Rmax_right by lra. intros Hx. apply (is_derive_minus F P); [now apply HF|apply DP].
  - intros x. rewrite Rmin_left, Rmax_right by lra. intros Hx. apply continuity_pt_minus.
    + apply continuity_pt_filterlim. now apply CF.
    + apply continuity_pt_filterlim. apply (ex_derive_continuous P). exists (ge x). apply DP.
  - rewrite Rmin_left, Rmax_right in Hc by lra. rewrite (gin c Hc) in E.
    assert (PA : P a = 0) by (unfold P; rewrite RInt_point; reflexivity).
    assert (EQ : F b - F a = P b) by lra.
    rewrite EQ. unfold P. apply (is_RInt_ext ge).
    + intros x. rewrite Rmin_left, Rmax_right by lra. intros. apply gin. lra.
    + apply (RInt_correct ge). apply (ex_RInt_continuous (V:=R_CompleteNormedModule)). intros; apply Cge.
Qed.

Lemma ftc0 : forall (F g f : R -> R) a b, a <= b ->
  (forall x, a <= x <= b -> is_derive F x (g x)) -> (forall x, a <= x <= b -> continuous g x) ->
  (forall x, a < x < b -> f x = g x) -> is_RInt f a b (F b - F a).
Proof.
  intros. apply (is_RInt_ext g); [|now apply ftc]. intros x. rewrite Rmin_left, Rmax_right by lra. intros; symmetry; auto.
Qed.
Ltac cont g := apply (ex_derive_continuous g).

Lemma nfw_mass : forall c, 0 <= c -> mass_integral nfw_f c (nfw_h c).
Proof.
  intros c Hc. unfold mass_integral. replace (nfw_h c) with (nfw_h c - nfw_h 0).
  2:{ unfold nfw_h. replace (1 + 0) with 1 by ring. rewrite ln_1. field. lra. }
  apply (ftc0 nfw_h (fun x => x / (1 + x)^2)); auto.
  - intros x Hx. unfold nfw_h. auto_derive; [lra|]. field. lra.
  - intros x Hx. cont (fun x => x / (1 + x)^2). auto_derive. nra.
  - intros x Hx. unfold nfw_f. field. lra.
Qed.
Lemma hern_mass : forall c, 0 <= c -> mass_integral hern_f c (hern_h c).
Proof.
  intros c Hc. unfold mass_integral. replace (hern_h c) with (hern_h c - hern_h 0).
  2:{ unfold hern_h. field. lra. }
  apply (ftc0 hern_h (fun x => x / (1 + x)^3)); auto.
  - intros x Hx. unfold hern_h. auto_derive; [nra|]. simpl pow. field. lra.
  - intros x Hx. cont (fun x => x / (1 + x)^3). auto_derive. apply Rgt_not_eq. assert (0 < (1+x)*(1+x)) by nra. nra.
  - intros x Hx. unfold hern_f. field. lra.
Qed.
Lemma const_mass : forall c, 0 <= c -> mass_integral const_f c (const_h c).
Proof.
  intros c Hc. unfold mass_integral. replace (const_h c) with (const_h c - const_h 0) by (unfold const_h; field).
  apply (ftc0 const_h (fun x => x^2)); auto.
  - intros x Hx. unfold const_h. auto_derive; auto. field.
  - intros x Hx. cont (fun x => x^2). auto_derive. auto.
  - intros x Hx. unfold const_f. ring.
Qed.
Lemma cored_h0 : cored_h 0 = 0.
Proof. unfold cored_h. rewrite !Rplus_0_l. rewrite ln_1. field. Qed.
Lemma cored_mass : forall c, 0 <= c -> mass_integral cored_f c (cored_h c).
Proof.
  intros c Hc. unfold mass_integral. replace (cored_h c) with (cored_h c - cored_h 0) by (rewrite cored_h0; ring).
  apply (ftc0 cored_h (fun x => x^2 / (x + 0.75) / (x + 1)^2)); auto.
  - intros x Hx. unfold cored_h. auto_derive; [repeat split; lra|]. replace 0.75 with (3/4) by lra. field. lra.
  - intros x Hx. cont (fun x => x^2 / (x + 0.75) / (x + 1)^2). auto_derive. repeat split; try lra. nra.
  - intros x Hx. unfold cored_f. replace 0.75 with (3/4) by lra. field. lra.
Qed.
Lemma npow15 : forall x, 0 <= x -> npow x 1.5 = x * sqrt x.
Proof.
  intros x Hx. unfold npow. destruct (Reqb x 0) eqn:E.
  - apply Reqb_spec in E. subst. ring.
  - apply Reqb_false in E. replace 1.5 with (1 + / 2) by lra. rewrite Rpower_plus, Rpower_1, Rpower_sqrt by lra. reflexivity.
Qed.
Lemma moore_mass : forall c, 0 <= c -> mass_integral moore_f c (moore_h c).
Proof.
  intros c Hc. unfold mass_integral.
  set (F := fun x => 2 * ln (1 + x * sqrt x) / 3). set (g := fun x => sqrt x / (1 + x * sqrt x)).
  assert (P : forall x, 0 <= x -> 0 < 1 + x * sqrt x).
  { intros x Hx. assert (A := sqrt_pos x). assert (0 <= x * sqrt x) by now apply Rmult_le_pos. lra. }
  replace (moore_h c) with (F c - F 0).
  2:{ unfold F, moore_h. rewrite npow15 by auto. rewrite Rmult_0_l, Rplus_0_r, ln_1. field. }
  assert (Csq : forall x, continuous sqrt x) by (intros; apply continuous_sqrt).
  assert (Cin : forall x, continuous (fun x => 1 + x * sqrt x) x).
  { intros. apply (continuous_plus (V:=R_NormedModule)); [apply continuous_const|]. apply (continuous_mult (K:=R_AbsRing)); [apply continuous_id|apply Csq]. }
  apply (is_RInt_ext g).
  - intros x. rewrite Rmin_left, Rmax_right by lra. intros Hx. unfold g, moore_f. rewrite npow15 by lra.
    assert (0 < sqrt x) by (apply sqrt_lt_R0; lra). specialize (P x ltac:(lra)). 
    assert (E : x = sqrt x * sqrt x) by (rewrite sqrt_def; lra). set (w := sqrt x) in *. 
    rewrite E. rewrite E in P. req. field. split; [lra|lra].
  - apply ftc_open; auto.
    + intros x Hx. specialize (P x ltac:(lra)). unfold F, g. auto_derive; [repeat split; lra|].
      assert (0 < sqrt x) by (apply sqrt_lt_R0; lra). assert (E : x = sqrt x * sqrt x) by (rewrite sqrt_def; lra). set (w := sqrt x) in *.
      rewrite E in *. field. split; lra.
    + intros x Hx. specialize (P x ltac:(lra)). unfold F, Rdiv. apply (continuous_mult (K:=R_AbsRing)); [|apply continuous_const].
      apply (continuous_mult (K:=R_AbsRing)); [apply continuous_const|].
      apply (continuous_comp (fun x => 1 + x * sqrt x) ln); [apply Cin|]. cont ln. auto_derive. exact P.
    + intros x Hx. specialize (P x ltac:(lra)). unfold g, Rdiv. apply (continuous_mult (K:=R_AbsRing)); [apply Csq|].
      apply (continuous_comp (fun x => 1 + x * sqrt x) Rinv); [apply Cin|]. cont Rinv. auto_derive. lra.
Qed.

(** positivity and monotonicity from the integral *)
Lemma mass_incr : forall f h, (forall x, 0 < x -> 0 < f x) -> (forall x, 0 < x -> continuous f x) ->
  (forall c, 0 <= c -> mass_integral f c (h c)) -> forall a b, 0 <= a < b -> h a < h b.
Proof.
  intros f h Pf Cf H a b Hab.
  assert (A := H a ltac:(lra)). assert (B := H b ltac:(lra)). unfold mass_integral in *.
  set (m := (a + b) / 2).
  assert (I1 : ex_RInt (fun x => f x * x^2) 0 b) by (eexists; exact B).
  assert (I0 : ex_RInt (fun x => f x * x^2) 0 m) by (apply (ex_RInt_Chasles_1 (V:=R_CompleteNormedModule)) with b; auto; unfold m; lra).
  assert (Im : ex_RInt (fun x => f x * x^2) a m) by (apply (ex_RInt_Chasles_2 (V:=R_CompleteNormedModule)) with 0; auto; unfold m; lra).
  assert (Ib : ex_RInt (fun x => f x * x^2) m b) by (apply (ex_RInt_Chasles_2 (V:=R_CompleteNormedModule)) with 0; auto; unfold m; lra).
  assert (Ia : ex_RInt (fun x => f x * x^2) 0 a) by (eexists; exact A).
  apply (is_RInt_unique (V:=R_CompleteNormedModule)) in A. apply (is_RInt_unique (V:=R_CompleteNormedModule)) in B.
  assert (E1 := RInt_Chasles (V:=R_CompleteNormedModule) _ _ _ _ Ia Im). assert (E2 := RInt_Chasles (V:=R_CompleteNormedModule) _ _ _ _ I0 Ib).
  assert (G1 : 0 <= RInt (fun x => f x * x^2) a m).
  { apply RInt_ge_0; auto; [unfold m; lra|]. intros x Hx. assert (0 < f x) by (apply Pf; lra). nra. }
  assert (G2 : 0 < RInt (fun x => f x * x^2) m b).
  { apply RInt_gt_0; [unfold m; lra| |].
    - intros x Hx. unfold m in Hx. assert (0 < f x) by (apply Pf; lra). assert (0 < x^2) by (apply pow_lt; lra). now apply Rmult_lt_0_compat.
    - intros x Hx. unfold m in Hx. apply (continuous_mult (K:=R_AbsRing)); [apply Cf; lra|]. cont (fun x => x^2). auto_derive. auto. }
  set (I := RInt (fun x => f x * x^2)) in *.
  assert (E1' : I 0 a + I a m = I 0 m) by exact E1. assert (E2' : I 0 m + I m b = I 0 b) by exact E2.
  assert (A' : I 0 a = h a) by exact A. assert (B' : I 0 b = h b) by exact B. lra.
Qed.

Lemma shape_pos : forall x, 0 < x ->
  (0 < nfw_f x /\ 0 < hern_f x /\ 0 < cored_f x /\ 0 < const_f x /\ 0 < moore_f x) /\
  (continuous nfw_f x /\ continuous hern_f x /\ continuous cored_f x /\ continuous const_f x /\ continuous moore_f x).
Proof.
  intros x Hx. assert (S : 0 < sqrt x) by (apply sqrt_lt_R0; lra). assert (0 < x * sqrt x) by now apply Rmult_lt_0_compat.
  assert (P2 : 0 < (1 + x)^2) by (apply pow_lt; lra). assert (P3 : 0 < (1 + x)^3) by (apply pow_lt; lra).
  repeat split.
  - unfold nfw_f. apply Rdiv_lt_0_compat; [lra|]. now apply Rmult_lt_0_compat.
  - unfold hern_f. apply Rdiv_lt_0_compat; [lra|]. now apply Rmult_lt_0_compat.
  - unfold cored_f. repeat apply Rdiv_lt_0_compat; lra.
  - unfold const_f; lra.
  - unfold moore_f. rewrite npow15 by lra. apply Rdiv_lt_0_compat; [lra|]. apply Rmult_lt_0_compat; lra.
  - cont nfw_f. unfold nfw_f. auto_derive. simpl in P2. apply Rgt_not_eq, Rmult_lt_0_compat; lra.
  - cont hern_f. unfold hern_f. auto_derive. simpl in P3. apply Rgt_not_eq, Rmult_lt_0_compat; lra.
  - cont cored_f. unfold cored_f. auto_derive. split; [lra|]. simpl in P2. split; auto. rewrite Rplus_comm. lra.
  - apply continuous_const.
  - apply (continuous_ext_loc _ (fun x => 1 / (x * sqrt x * (1 + x * sqrt x)))).
    + exists (mkposreal x Hx). intros y Hy. unfold ball in Hy; simpl in Hy. unfold AbsRing_ball, abs, minus, plus, opp in Hy; simpl in Hy.
      apply Rabs_def2 in Hy. unfold moore_f. rewrite npow15 by lra. reflexivity.
    + cont (fun x => 1 / (x * sqrt x * (1 + x * sqrt x))). auto_derive. repeat split; auto. apply Rgt_not_eq, Rmult_lt_0_compat; lra.
Qed.

(** * sine transforms *)
Section Sici.
  Variables Si Ci : R -> R.
  Hypothesis HS : sine_cosine_integrals Si Ci.
  Lemma dSi : forall t, 0 < t -> ex_derive Si t /\ Derive Si t = sin t / t.
  Proof. intros t Ht. destruct HS as [H _]. specialize (H t Ht). split; [eexists; exact H|]. now apply is_derive_unique. Qed.
  Lemma dCi : forall t, 0 < t -> ex_derive Ci t /\ Derive Ci t = cos t / t.
  Proof. intros t Ht. destruct HS as [_ H]. specialize (H t Ht). split; [eexists; exact H|]. now apply is_derive_unique. Qed.

  Definition nfw_F (K x : R) : R := sin K * Si ((1 + x) * K) - sin (x * K) / ((1 + x) * K) + cos K * Ci ((1 + x) * K).
  Lemma nfw_F_derive : forall K x, 0 < K -> 0 <= x -> is_derive (nfw_F K) x (sin (K * x) / (K * (1 + x)^2)).
  Proof.
    intros K x HK Hx. assert (P : 0 < (1 + x) * K) by nra. destruct (dSi _ P) as [A A']. destruct (dCi _ P) as [B B'].
    unfold nfw_F. auto_derive.
    - repeat split; auto. lra.
    - change (Derive (fun x0 => Si x0) ((1 + x) * K)) with (Derive Si ((1 + x) * K)).
      change (Derive (fun x0 => Ci x0) ((1 + x) * K)) with (Derive Ci ((1 + x) * K)). rewrite A', B'.
      set (Y := (1 + x) * K) in *. replace (K * x) with (Y - K) by (unfold Y; ring). replace (x * K) with (Y - K) by (unfold Y; ring).
      rewrite sin_minus, cos_minus. unfold Y. field. split; lra.
  Qed.
  Lemma nfw_sine : forall K c, 0 < K -> 0 <= c -> sine_transform nfw_f K c (nfw_p Si Ci K c).
  Proof.
    intros K c HK Hc. unfold sine_transform. replace (nfw_p Si Ci K c) with (nfw_F K c - nfw_F K 0).
    2:{ unfold nfw_F, nfw_p. cbv zeta. replace ((1 + 0) * K) with K by ring. rewrite Rmult_0_l, sin_0. field. split; lra. }
    apply (ftc0 (nfw_F K) (fun x => sin (K * x) / (K * (1 + x)^2))); auto.
    - intros; apply nfw_F_derive; lra.
    - intros x Hx. cont (fun x => sin (K * x) / (K * (1 + x)^2)). auto_derive. apply Rgt_not_eq, Rmult_lt_0_compat; nra.
    - intros x Hx. unfold nfw_f. field. repeat split; lra.
  Qed.
  Definition hern_F (K x : R) : R :=
    (- sin (x * K) / (2 * (1 + x)^2) - K / 2 * cos (x * K) / (1 + x)
     - K^2 / 2 * (cos K * Si (K + x * K) - sin K * Ci (K + x * K))) / K.
  Lemma hern_F_derive : forall K x, 0 < K -> 0 <= x -> is_derive (hern_F K) x (sin (K * x) / (K * (1 + x)^3)).
  Proof.
    intros K x HK Hx. assert (P : 0 < K + x * K) by nra. destruct (dSi _ P) as [A A']. destruct (dCi _ P) as [B B'].
    unfold hern_F. auto_derive.
    - repeat split; auto; nra.
    - change (Derive (fun x0 => Si x0) (K + x * K)) with (Derive Si (K + x * K)).
      change (Derive (fun x0 => Ci x0) (K + x * K)) with (Derive Ci (K + x * K)). rewrite A', B'.
      set (Y := K + x * K) in *. replace (K * x) with (Y - K) by (unfold Y; ring). replace (x * K) with (Y - K) by (unfold Y; ring).
      rewrite sin_minus, cos_minus. unfold Y. simpl pow. field. repeat split; try lra. nra.
  Qed.
  Lemma hern_sine : forall K c, 0 < K -> 0 <= c -> sine_transform hern_f K c (hern_p Si Ci K c).
  Proof.
    intros K c HK Hc. unfold sine_transform. replace (hern_p Si Ci K c) with (hern_F K c - hern_F K 0).
    2:{ unfold hern_F, hern_p. cbv zeta. rewrite Rmult_0_l, !Rplus_0_r, sin_0, cos_0. replace 0.5 with (1/2) by lra. field. split; lra. }
    apply (ftc0 (hern_F K) (fun x => sin (K * x) / (K * (1 + x)^3))); auto.
    - intros; apply hern_F_derive; lra.
    - intros x Hx. cont (fun x => sin (K * x) / (K * (1 + x)^3)). auto_derive.
      apply Rgt_not_eq, Rmult_lt_0_compat; [lra|]. assert (0 < (1+x)*(1+x)) by nra. nra.
    - intros x Hx. unfold hern_f. field. repeat split; lra.
  Qed.
  Lemma sin_block : forall k a x, 0 < k -> 0 < x + a ->
    is_derive (fun x => cos (k * a) * Si (k * (x + a)) - sin (k * a) * Ci (k * (x + a))) x (sin (k * x) / (x + a)).
  Proof.
    intros k a x HK Hx. assert (P : 0 < k * (x + a)) by nra. destruct (dSi _ P) as [A A']. destruct (dCi _ P) as [B B'].
    auto_derive; [repeat split; auto|].
    change (Derive (fun x0 => Si x0)) with (Derive Si). change (Derive (fun x0 => Ci x0)) with (Derive Ci). rewrite A', B'.
    replace (k * x) with (k * (x + a) - k * a) by ring. rewrite sin_minus. field. split; lra.
  Qed.
  Lemma cos_block : forall k a x, 0 < k -> 0 < x + a ->
    is_derive (fun x => cos (k * a) * Ci (k * (x + a)) + sin (k * a) * Si (k * (x + a))) x (cos (k * x) / (x + a)).
  Proof.
    intros k a x HK Hx. assert (P : 0 < k * (x + a)) by nra. destruct (dSi _ P) as [A A']. destruct (dCi _ P) as [B B'].
    auto_derive; [repeat split; auto|].
    change (Derive (fun x0 => Si x0)) with (Derive Si). change (Derive (fun x0 => Ci x0)) with (Derive Ci). rewrite A', B'.
    replace (k * x) with (k * (x + a) - k * a) by ring. rewrite cos_minus. field. split; lra.
  Qed.
  Lemma cored_F_derive : forall K x, 0 < K -> 0 <= x ->
    is_derive (cored_antideriv Si Ci K) x (x * sin (K * x) / (K * (x + 0.75) * (x + 1)^2)).
  Proof.
    intros K x HK Hx.
    assert (A := sin_block K 1 x HK ltac:(lra)). assert (B := cos_block K 1 x HK ltac:(lra)). assert (C := sin_block K 0.75 x HK ltac:(lra)).
    rewrite Rmult_1_r in A, B. rewrite (Rmult_comm K 0.75) in C.
    set (F1 := fun x => cos K * Si (K * (x + 1)) - sin K * Ci (K * (x + 1))). change (is_derive F1 x (sin (K * x) / (x + 1))) in A.
    set (F2 := fun x => cos K * Ci (K * (x + 1)) + sin K * Si (K * (x + 1))). change (is_derive F2 x (cos (K * x) / (x + 1))) in B.
    set (F3 := fun x => cos (0.75 * K) * Si (K * (x + 0.75)) - sin (0.75 * K) * Ci (K * (x + 0.75))). change (is_derive F3 x (sin (K * x) / (x + 0.75))) in C.
    apply (is_derive_ext (fun x => 1 / K * (12 * F1 x + 4 * K * F2 x - 4 * sin (K * x) / (x + 1) + - 12 * F3 x))); [intros; reflexivity|].
    clearbody F1 F2 F3.
    auto_derive.
    - repeat split; try (eexists; eassumption); lra.
    - change (Derive (fun x0 => F1 x0)) with (Derive F1). change (Derive (fun x0 => F2 x0)) with (Derive F2). change (Derive (fun x0 => F3 x0)) with (Derive F3).
      rewrite (is_derive_unique _ _ _ A), (is_derive_unique _ _ _ B), (is_derive_unique _ _ _ C). replace 0.75 with (3/4) by lra. field. repeat split; lra.
  Qed.
  Lemma cored_sine : forall K c, 0 < K -> 0 <= c -> sine_transform cored_f K c (cored_p Si Ci K c).
  Proof.
    intros K c HK Hc. unfold sine_transform, cored_p.
    apply (ftc0 (cored_antideriv Si Ci K) (fun x => x * sin (K * x) / (K * (x + 0.75) * (x + 1)^2))); auto.
    - intros; apply cored_F_derive; lra.
    - intros x Hx. cont (fun x => x * sin (K * x) / (K * (x + 0.75) * (x + 1)^2)). auto_derive. apply Rgt_not_eq. repeat apply Rmult_lt_0_compat; lra.
    - intros x Hx. unfold cored_f. replace 0.75 with (3/4) by lra. field. repeat split; lra.
  Qed.
End Sici.

Lemma const_sine : forall K c, 0 < K -> 0 <= c -> sine_transform const_f K c (const_p K c).
Proof.
  intros K c HK Hc. unfold sine_transform. replace (const_p K c) with (const_p K c - const_p K 0).
  2:{ unfold const_p. rewrite !Rmult_0_l, sin_0. field. lra. }
  apply (ftc0 (const_p K) (fun x => x * sin (K * x) / K)); auto.
  - intros x Hx. unfold const_p. auto_derive; [auto|]. rewrite (Rmult_comm x K). simpl pow. field. lra.
  - intros x Hx. cont (fun x => x * sin (K * x) / K). auto_derive. auto.
  - intros x Hx. unfold const_f. field. lra.
Qed.

Lemma sine_bounds : forall f c K h p, (forall x, 0 < x -> 0 < f x) -> 0 <= c -> 0 < K ->
  mass_integral f c h -> sine_transform f K c p ->
  h * (1 - (K * c)^2 / 6) <= p <= h /\ - h <= p.
Proof.
  intros f c K h p Pf Hc HK H P. unfold mass_integral, sine_transform in *.
  assert (Ih : ex_RInt (fun x => f x * x^2) 0 c) by (eexists; exact H). assert (Ip : ex_RInt (fun x => x * f x * (sin (K * x) / K)) 0 c) by (eexists; exact P).
  apply (is_RInt_unique (V:=R_CompleteNormedModule)) in H. apply (is_RInt_unique (V:=R_CompleteNormedModule)) in P. subst h p.
  assert (key : forall x, 0 < x < c -> x * f x * (sin (K * x) / K) = (f x * x) * (sin (K * x) / K)) by (intros; ring).
  assert (up : forall x, 0 < x < c -> x * f x * (sin (K*x) / K) <= f x * x^2).
  { intros x Hx. assert (0 < f x) by (apply Pf; lra). assert (S := sin_le_id (K*x) ltac:(nra)).
    replace (f x * x^2) with (x * f x * (K * x / K)) by (field; lra). apply Rmult_le_compat_l; [nra|].
    apply Rmult_le_compat_r; [left; apply Rinv_0_lt_compat; lra|lra]. }
  assert (lo : forall x, 0 < x < c -> - (f x * x^2) <= x * f x * (sin (K*x) / K)).
  { intros x Hx. assert (0 < f x) by (apply Pf; lra). assert (S := sin_abs_le (K*x)). rewrite (Rabs_pos_eq (K*x)) in S by nra.
    apply Rabs_le_between in S. replace (- (f x * x^2)) with (x * f x * (- (K * x) / K)) by (field; lra). apply Rmult_le_compat_l; [nra|].
    apply Rmult_le_compat_r; [left; apply Rinv_0_lt_compat; lra|lra]. }
  assert (lo2 : forall x, 0 < x < c -> (1 - (K * c)^2/6) * (f x * x^2) <= x * f x * (sin (K*x) / K)).
  { intros x Hx. assert (0 < f x) by (apply Pf; lra). assert (S := sin_ge_cubic (K*x) ltac:(nra)).
    apply Rle_trans with (x * f x * ((K * x - (K*x)^3/6) / K)).
    - replace (x * f x * ((K * x - (K*x)^3/6) / K)) with ((1 - (K*x)^2/6) * (f x * x^2)) by (field; lra).
      apply Rmult_le_compat_r; [nra|]. assert (K * x * (K * x) <= K * c * (K * c)) by (apply Rmult_le_compat; nra). simpl. lra.
    - apply Rmult_le_compat_l; [nra|]. apply Rmult_le_compat_r; [left; apply Rinv_0_lt_compat; lra|lra]. }
  split; [split|].
  - rewrite Rmult_comm, <- RInt_mult_l by auto. apply RInt_le; auto. now apply ex_RInt_mult_l.
  - apply RInt_le; auto.
  - replace (- RInt (fun x => f x * x^2) 0 c) with (-1 * RInt (fun x => f x * x^2) 0 c) by ring. rewrite <- RInt_mult_l by auto.
    apply RInt_le; auto; [now apply ex_RInt_mult_l|]. intros. specialize (lo x H). lra.
Qed.
