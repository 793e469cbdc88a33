(** The sine transform of a weight: positive and at most 2/K^2 times its value at 0 if the weight decreases; of both signs at
    large K if it vanishes at 0 and not at the cut. *)
From Coq Require Import Reals Lra Psatz ZArith.
From Coquelicot Require Import Coquelicot.
From Verif Require Import Model.RBool Model.Profiles Spec.ProfileSpec Proofs.Calc Proofs.ProfileProofs Proofs.ProfileConv Proofs.Fubini Proofs.LamFourier.
Local Open Scope R_scope.

Section Weight.
  Variables (w w1 : R -> R) (c K : R).
  Hypothesis Hc : 0 < c.
  Hypothesis HK : 0 < K.
  Hypothesis D1 : forall x, 0 <= x <= c -> is_derive w x (w1 x).
  Hypothesis C1 : forall x, 0 <= x <= c -> continuous w1 x.

  Lemma cos_cont : forall x, continuous (fun x => cos (K * x)) x.
  Proof. intros. apply (ex_derive_continuous (fun x => cos (K * x))). auto_derive; auto. Qed.
  Lemma sin_cont : forall x, continuous (fun x => sin (K * x)) x.
  Proof. intros. apply (ex_derive_continuous (fun x => sin (K * x))). auto_derive; auto. Qed.
  Definition defect (x : R) : R := - w1 x * (1 - cos (K * x)).
  Lemma defect_cont : forall x, 0 <= x <= c -> continuous defect x.
  Proof.
    intros x Hx. apply (continuous_mult (K:=R_AbsRing) (fun x => - w1 x)); [now apply (continuous_opp (V:=R_NormedModule)), C1|].
    apply (continuous_minus (V:=R_NormedModule) (fun _ => 1)); [apply continuous_const|apply cos_cont].
  Qed.
  Lemma defect_ex : forall a b, 0 <= a <= b -> b <= c -> ex_RInt defect a b.
  Proof. intros a b H L. apply (ex_RInt_continuous (V:=R_CompleteNormedModule)). intros z. rewrite Rmin_left, Rmax_right by lra. intros Hz. apply defect_cont. lra. Qed.
  (** integration by parts *)
  Lemma by_parts : forall v, is_RInt (fun x => w x * (sin (K * x) / K)) 0 c v ->
    is_RInt defect 0 c (K ^ 2 * v - w c * (1 - cos (K * c))).
  Proof.
    intros v H. assert (F := ftc (fun x => w x * (1 - cos (K * x))) (fun x => w1 x * (1 - cos (K * x)) + w x * (K * sin (K * x))) 0 c ltac:(lra)).
    assert (E : is_RInt (fun x => w1 x * (1 - cos (K * x)) + w x * (K * sin (K * x))) 0 c (w c * (1 - cos (K * c)) - w 0 * (1 - cos (K * 0)))).
    { apply F.
      - intros x Hx. specialize (D1 x Hx). evar_last.
        + apply (is_derive_mult w (fun x => 1 - cos (K * x)) x (w1 x) (K * sin (K * x))); auto.
          * auto_derive; auto. ring.
          * intros; unfold mult; simpl; ring.
        + unfold plus, mult; simpl. ring.
      - intros x Hx. apply (continuous_plus (V:=R_NormedModule) (fun x => w1 x * (1 - cos (K * x)))).
        + apply (continuous_mult (K:=R_AbsRing) w1); [auto|]. apply (continuous_minus (V:=R_NormedModule) (fun _ => 1)); [apply continuous_const|apply cos_cont].
        + apply (continuous_mult (K:=R_AbsRing) w). { apply (ex_derive_continuous w). eexists. apply (D1 x Hx). }
          apply (continuous_mult (K:=R_AbsRing) (fun _ => K)); [apply continuous_const|apply sin_cont]. }
    rewrite Rmult_0_r, cos_0 in E. assert (Q := rlin _ _ (K ^ 2) (- 1) _ _ _ _ H E).
    eapply rint_eq; [apply is_RInt_ext with (2 := Q)|].
    - intros x _. unfold defect. req. field. lra.
    - req. ring.
  Qed.
  Lemma decreasing_positive : forall v, (forall x, 0 <= x <= c -> w1 x < 0) -> 0 < w c -> is_RInt (fun x => w x * (sin (K * x) / K)) 0 c v ->
    0 < v <= 2 * w 0 / K ^ 2.
  Proof.
    intros v N W H. assert (B := by_parts v H). assert (K2 : 0 < K ^ 2) by (apply pow_lt; auto). assert (PP := PI_RGT_0).
    assert (CB := COS_bound (K * c)).
    set (m := Rmin c (PI / K)). assert (Q : 0 < PI / K) by now apply Rdiv_lt_0_compat. assert (M0 : 0 < m) by (unfold m; apply Rmin_glb_lt; auto).
    assert (Mc : m <= c) by apply Rmin_l. assert (MK : m <= PI / K) by apply Rmin_r.
    assert (P1 : 0 < RInt defect 0 m).
    { apply RInt_gt_0; auto; [|intros; apply defect_cont; lra]. intros x Hx. unfold defect. specialize (N x ltac:(lra)). apply Rmult_lt_0_compat; [lra|].
      assert (x * K < PI). { apply Rmult_lt_reg_r with (/ K); [now apply Rinv_0_lt_compat|]. replace (x * K * / K) with x by (field; lra). unfold Rdiv in *. lra. }
      assert (cos (K * x) < cos 0) by (apply cos_decreasing_1; nra). rewrite cos_0 in *. lra. }
    assert (P2 : 0 <= RInt defect m c).
    { apply RInt_ge_0; auto; [apply defect_ex; lra|]. intros x Hx. unfold defect. specialize (N x ltac:(lra)). assert (Y := COS_bound (K * x)). apply Rmult_le_pos; lra. }
    assert (P3 : RInt defect 0 m + RInt defect m c = K ^ 2 * v - w c * (1 - cos (K * c))).
    { rewrite <- (rint_u _ _ _ _ B). apply (RInt_Chasles (V:=R_CompleteNormedModule) defect); apply defect_ex; lra. }
    assert (P4 : K ^ 2 * v - w c * (1 - cos (K * c)) <= 2 * (w 0 - w c)).
    { assert (F := ftc w w1 0 c ltac:(lra) D1 C1). apply (rscal _ _ _ _ (- 2)) in F.
      assert (L := is_RInt_le _ _ 0 c _ _ ltac:(lra) B F). replace (2 * (w 0 - w c)) with (- 2 * (w c - w 0)) by ring. apply L.
      intros x Hx. unfold defect. specialize (N x ltac:(lra)). assert (Y := COS_bound (K * x)). nra. }
    assert (0 <= w c * (1 - cos (K * c)) <= 2 * w c) by (split; [apply Rmult_le_pos; lra|nra]).
    split.
    - apply Rmult_lt_reg_l with (K ^ 2); lra.
    - apply Rmult_le_reg_l with (K ^ 2); auto. replace (K ^ 2 * (2 * w 0 / K ^ 2)) with (2 * w 0) by (field; lra). lra.
  Qed.
End Weight.

(** with w(0) = 0 the edge at c dominates at large K *)
Lemma edge_negative : forall (w w1 w2 : R -> R) c, 0 < c -> (forall x, 0 <= x <= c -> is_derive w x (w1 x)) -> (forall x, 0 <= x <= c -> is_derive w1 x (w2 x)) ->
  (forall x, 0 <= x <= c -> continuous w2 x) -> w 0 = 0 -> 0 < w c ->
  exists K0, 0 < K0 /\ forall n : nat, K0 < 2 * PI * INR n / c -> forall v, is_RInt (fun x => w x * (sin (2 * PI * INR n / c * x) / (2 * PI * INR n / c))) 0 c v -> v < 0.
Proof.
  intros w w1 w2 c Hc D1 D2 C2 W0 Wc.
  assert (C1 : forall x, 0 <= x <= c -> continuous w1 x) by (intros x Hx; apply (ex_derive_continuous w1); eexists; now apply D2).
  assert (E2 : ex_RInt w2 0 c). { apply (ex_RInt_continuous (V:=R_CompleteNormedModule)). intros z. rewrite Rmin_left, Rmax_right by lra. auto. }
  destruct (ex_RInt_ub (V:=R_NormedModule) _ _ _ E2) as [M HM]. rewrite Rmin_left, Rmax_right in HM by lra.
  assert (M0 : 0 <= M). { eapply Rle_trans; [apply (norm_ge_0 (V:=R_NormedModule) (w2 0))|apply HM; lra]. }
  set (K0 := M * c / w c + 1). assert (K0P : 0 < K0). { unfold K0. assert (0 <= M * c / w c) by (apply Rmult_le_pos; [nra|left; now apply Rinv_0_lt_compat]). lra. }
  exists K0. split; auto. intros n Hn v. set (K := 2 * PI * INR n / c) in *. intros H. assert (HK : 0 < K) by lra.
  assert (KC : K * c = 2 * INR n * PI) by (unfold K; field; lra).
  assert (CS : cos (K * c) = 1 /\ sin (K * c) = 0).
  { rewrite KC. split; [rewrite <- (Rplus_0_l (2 * INR n * PI)), cos_period; apply cos_0|rewrite <- (Rplus_0_l (2 * INR n * PI)), sin_period; apply sin_0]. }
  destruct CS as [CC SS]. assert (B := by_parts w w1 c K Hc HK D1 C1 v H). rewrite CC in B.
  (* int w1 cos = - int w2 sin / K *)
  assert (F : is_RInt (fun x => w2 x * sin (K * x) + w1 x * (K * cos (K * x))) 0 c 0).
  { assert (F := ftc (fun x => w1 x * sin (K * x)) (fun x => w2 x * sin (K * x) + w1 x * (K * cos (K * x))) 0 c ltac:(lra)). cbv beta in F. rewrite SS, (Rmult_0_r K), sin_0 in F.
    eapply rint_eq; [apply F|req; ring].
    - intros x Hx. specialize (D2 x Hx). evar_last.
      + apply (is_derive_mult w1 (fun x => sin (K * x)) x (w2 x) (K * cos (K * x))); auto.
        * auto_derive; auto. ring.
        * intros; unfold mult; simpl; ring.
      + unfold plus, mult; simpl. ring.
    - intros x Hx. apply (continuous_plus (V:=R_NormedModule) (fun x => w2 x * sin (K * x))).
      + apply (continuous_mult (K:=R_AbsRing) w2); [auto|apply sin_cont].
      + apply (continuous_mult (K:=R_AbsRing) w1); [auto|]. apply (continuous_mult (K:=R_AbsRing) (fun _ => K)); [apply continuous_const|apply cos_cont]. }
  assert (G := ftc w w1 0 c ltac:(lra) D1 C1). rewrite W0 in G.
  (* K * defect + K w1 - (w2 sin + K w1 cos) = - w2 sin *)
  assert (Q := rlin _ _ 1 (-1) _ _ _ _ (rlin _ _ K K _ _ _ _ B G) F).
  assert (S : is_RInt (fun x => - (w2 x * sin (K * x))) 0 c (K * (K ^ 2 * v) + K * w c)).
  { eapply rint_eq; [apply is_RInt_ext with (2 := Q)|].
    - intros x _. unfold defect. req. ring.
    - req. ring. }
  assert (U : K * (K ^ 2 * v) + K * w c <= M * c).
  { assert (L := is_RInt_le _ (fun _ => M) 0 c _ _ ltac:(lra) S (is_RInt_const (V:=R_NormedModule) 0 c M)). unfold scal in L; simpl in L; unfold mult in L; simpl in L.
    replace (M * c) with ((c - 0) * M) by ring. apply L. intros x Hx. specialize (HM x ltac:(lra)). change (Rabs (w2 x) <= M) in HM.
    assert (SB := SIN_bound (K * x)). assert (Z := Rabs_le_between (w2 x) M). destruct Z as [Z _]. specialize (Z HM).
    destruct (Rle_dec 0 (w2 x)); nra. }
  assert (KW : M * c < K * w c). { assert (M * c / w c < K) by (unfold K0 in Hn; lra). apply Rmult_lt_compat_r with (r := w c) in H0; auto. replace (M * c / w c * w c) with (M * c) in H0 by (field; lra). exact H0. }
  assert (K3 : 0 < K ^ 3) by (apply pow_lt; auto). replace (K * (K ^ 2 * v)) with (K ^ 3 * v) in U by ring.
  destruct (Rlt_dec v 0) as [|V]; auto. exfalso. assert (0 <= K ^ 3 * v) by (apply Rmult_le_pos; lra). lra.
Qed.

Lemma weight_nfw : forall Si Ci K c, sine_cosine_integrals Si Ci -> 0 < K -> 0 < c -> 0 < nfw_p Si Ci K c <= 2 / K ^ 2.
Proof.
  intros Si Ci K c HS HK Hc. assert (H := nfw_sine Si Ci HS K c HK ltac:(lra)). unfold sine_transform in H.
  assert (Q := decreasing_positive (fun x => 1 / (1 + x) ^ 2) (fun x => - 2 / (1 + x) ^ 3) c K Hc HK).
  replace (2 / K ^ 2) with (2 * (1 / (1 + 0) ^ 2) / K ^ 2) by (field; lra). apply Q.
  - intros x Hx. auto_derive; [|field]; try lra. repeat split; auto; apply Rgt_not_eq; nra.
  - intros x Hx. apply (ex_derive_continuous (fun x => - 2 / (1 + x) ^ 3)). auto_derive. apply Rgt_not_eq. assert (0 < (1+x)^3) by (apply pow_lt; lra). lra.
  - intros x Hx. assert (0 < (1+x)^3) by (apply pow_lt; lra). unfold Rdiv. assert (0 < / (1 + x) ^ 3) by now apply Rinv_0_lt_compat. lra.
  - apply Rdiv_lt_0_compat; [lra|]. apply pow_lt. lra.
  - apply is_RInt_ext with (2 := H). intros x. rewrite Rmin_left, Rmax_right by lra. intros Hx. unfold nfw_f. req. field. lra.
Qed.
Lemma weight_hern : forall Si Ci K c, sine_cosine_integrals Si Ci -> 0 < K -> 0 < c -> 0 < hern_p Si Ci K c <= 2 / K ^ 2.
Proof.
  intros Si Ci K c HS HK Hc. assert (H := hern_sine Si Ci HS K c HK ltac:(lra)). unfold sine_transform in H.
  assert (Q := decreasing_positive (fun x => 1 / (1 + x) ^ 3) (fun x => - 3 / (1 + x) ^ 4) c K Hc HK).
  replace (2 / K ^ 2) with (2 * (1 / (1 + 0) ^ 3) / K ^ 2) by (field; lra). apply Q.
  - intros x Hx. assert (0 < (1+x)^3) by (apply pow_lt; lra). auto_derive; [|field]; try lra.
  - intros x Hx. assert (0 < (1+x)^4) by (apply pow_lt; lra). apply (ex_derive_continuous (fun x => - 3 / (1 + x) ^ 4)). auto_derive. lra.
  - intros x Hx. assert (0 < (1+x)^4) by (apply pow_lt; lra). unfold Rdiv. assert (0 < / (1 + x) ^ 4) by now apply Rinv_0_lt_compat. lra.
  - apply Rdiv_lt_0_compat; [lra|]. apply pow_lt. lra.
  - apply is_RInt_ext with (2 := H). intros x. rewrite Rmin_left, Rmax_right by lra. intros Hx. unfold hern_f. req. field. lra.
Qed.
Lemma edge_const : forall c, 0 < c -> exists K0, 0 < K0 /\ forall n : nat, K0 < 2 * PI * INR n / c -> const_p (2 * PI * INR n / c) c < 0.
Proof.
  intros c Hc. destruct (edge_negative (fun x => x) (fun _ => 1) (fun _ => 0) c Hc) as [K0 [P H]]; auto.
  - intros x _. auto_derive; auto.
  - intros x _. auto_derive; auto.
  - intros; apply continuous_const.
  - exists K0. split; auto. intros n Hn. specialize (H n Hn). set (K := 2 * PI * INR n / c) in *. apply H. assert (Q := const_sine K c ltac:(lra) ltac:(lra)). unfold sine_transform in Q.
    apply is_RInt_ext with (2 := Q). intros x _. unfold const_f. req. field. lra.
Qed.
Lemma edge_cored : forall Si Ci c, sine_cosine_integrals Si Ci -> 0 < c -> exists K0, 0 < K0 /\ forall n : nat, K0 < 2 * PI * INR n / c -> cored_p Si Ci (2 * PI * INR n / c) c < 0.
Proof.
  intros Si Ci c HS Hc. set (w := fun x => x / ((x + 3/4) * (x + 1) ^ 2)). set (w1 := fun x => (3/4 - 3/4 * x - 2 * x ^ 2) / ((x + 3/4) ^ 2 * (x + 1) ^ 3)).
  set (w2 := fun x => ((- (3/4) - 4 * x) * ((x + 3/4) * (x + 1)) - (3/4 - 3/4 * x - 2 * x ^ 2) * (2 * (x + 1) + 3 * (x + 3/4))) / ((x + 3/4) ^ 3 * (x + 1) ^ 4)).
  assert (N : forall x, 0 <= x <= c -> x + 3/4 <> 0 /\ x + 1 <> 0) by (intros; lra).
  assert (A1 : forall x, 0 <= x <= c -> is_derive w x (w1 x)).
  { intros x Hx. destruct (N x Hx) as [N1 N2]. unfold w, w1. auto_derive; [|field; repeat split; lra]. repeat apply Rmult_integral_contrapositive_currified; auto using R1_neq_R0. }
  assert (A2 : forall x, 0 <= x <= c -> is_derive w1 x (w2 x)).
  { intros x Hx. destruct (N x Hx) as [N1 N2]. unfold w1, w2. auto_derive; [|field; repeat split; lra]. repeat apply Rmult_integral_contrapositive_currified; auto using R1_neq_R0. }
  assert (A3 : forall x, 0 <= x <= c -> continuous w2 x).
  { intros x Hx. destruct (N x Hx) as [N1 N2]. apply (ex_derive_continuous w2). unfold w2. auto_derive. repeat apply Rmult_integral_contrapositive_currified; auto using R1_neq_R0. }
  assert (A4 : w 0 = 0) by (unfold w; field).
  assert (A5 : 0 < w c) by (unfold w; apply Rdiv_lt_0_compat; auto; apply Rmult_lt_0_compat; [lra|apply pow_lt; lra]).
  destruct (edge_negative w w1 w2 c Hc A1 A2 A3 A4 A5) as [K0 [P H]].
  exists K0. split; auto. intros n Hn. specialize (H n Hn). set (K := 2 * PI * INR n / c) in *. apply H. assert (Q := cored_sine Si Ci HS K c ltac:(lra) ltac:(lra)). unfold sine_transform in Q.
    apply is_RInt_ext with (2 := Q). intros x. rewrite Rmin_left, Rmax_right by lra. intros Hx. unfold cored_f, w. req. replace 0.75 with (3/4) by lra. field. repeat split; lra.
Qed.
