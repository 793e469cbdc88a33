(** C157: more concentrated haloes have more of their mass at small radii. *)
From Coq Require Import Reals Lra Lia Bool Psatz String List.
From Coquelicot Require Import Coquelicot.
From Verif Require Import Model.RBool Model.SpecialFn Model.Profiles Model.NumericH Model.SplineInt Model.ExtSpline Model.Quad Model.HOD Model.HaloModel Spec.HMSpec Proofs.HMProofs Props.HODProps Props.HaloModelProps Props.CompositeProps Props.ProfileExamples Spec.ProfileSpec Proofs.Calc Proofs.HODProofs Proofs.ProfileProofs Proofs.ProfileConv Proofs.ProfileProofs2 Proofs.ProfileProofs3 Props.ProfileProps.
Import ListNotations.
Local Open Scope R_scope.

(** the logarithmic slope of [f] does not increase outwards *)
Definition steepening (f : R -> R) : Prop := forall l p q, 1 <= l -> 0 < p <= q -> f (l * q) * f p <= f (l * p) * f q.

(** ** a monotone likelihood ratio orders averages *)
Lemma mlr : forall w1 w2 g A B G1 G2,
  is_RInt w1 0 1 A -> is_RInt w2 0 1 B -> is_RInt (fun y => g y * w1 y) 0 1 G1 -> is_RInt (fun y => g y * w2 y) 0 1 G2 -> 0 < A -> 0 < B ->
  (forall y, 0 < y <= 1 -> 0 < w1 y /\ 0 < w2 y) ->
  (forall x y, 0 < x <= y -> y <= 1 -> w2 y * w1 x <= w2 x * w1 y) ->
  (forall x y, 0 <= x <= y -> y <= 1 -> g y <= g x) -> G1 * B <= G2 * A.
Proof.
  intros w1 w2 g A B G1 G2 I1 I2 J1 J2 PA PB W M D.
  set (E := fun y => 0 <= y <= 1 /\ (y = 0 \/ w1 y * B <= w2 y * A)).
  destruct (completeness E) as [y0 [UB LUB]].
  - exists 1. intros y [Hy _]. lra.
  - exists 0. split; [lra|auto].
  - assert (Y0 : 0 <= y0) by (apply UB; split; [lra|auto]). assert (Y1 : y0 <= 1) by (apply LUB; intros y [Hy _]; lra).
    assert (S : forall y, 0 < y < 1 -> 0 <= (g y - g y0) * (w2 y * A - w1 y * B)).
    { intros y Hy. destruct (Rtotal_order y y0) as [H|[->|H]]; [|replace (g y0 - g y0) with 0 by ring; lra|].
      - assert (N : ~ is_upper_bound E y) by (intros N; specialize (LUB y N); lra).
        assert (X : exists e, E e /\ y < e). { destruct (Classical_Prop.classic (exists e, E e /\ y < e)) as [X|X]; auto. exfalso. apply N. intros e He. destruct (Rle_dec e y); auto. exfalso. apply X. exists e. split; auto. lra. }
        destruct X as [e [[E1 E2] E3]]. destruct E2 as [E2|E2]; [lra|]. assert (Q := M y e ltac:(lra) ltac:(lra)). destruct (W e ltac:(lra)) as [W1 W2]. destruct (W y ltac:(lra)) as [V1 V2].
        assert (K : w1 y * B <= w2 y * A).
        { apply Rmult_le_reg_r with (w1 e); auto. replace (w2 y * A * w1 e) with (A * (w2 y * w1 e)) by ring. replace (w1 y * B * w1 e) with (w1 y * (w1 e * B)) by ring.
          apply Rle_trans with (w1 y * (w2 e * A)); [apply Rmult_le_compat_l; lra|]. replace (w1 y * (w2 e * A)) with (A * (w2 e * w1 y)) by ring. apply Rmult_le_compat_l; lra. }
        apply Rmult_le_pos; [|lra]. assert (Q2 := D y y0 ltac:(lra) Y1). lra.
      - assert (K : w2 y * A < w1 y * B). { apply Rnot_le_lt. intros K. assert (y <= y0) by (apply UB; split; [lra|auto]). lra. }
        assert (Q2 := D y0 y ltac:(lra) ltac:(lra)). nra. }
    assert (T : is_RInt (fun y => (g y - g y0) * (w2 y * A - w1 y * B)) 0 1 (G2 * A - G1 * B)).
    { replace (G2 * A - G1 * B) with ((A * G2 - B * G1) - g y0 * (A * B - B * A)) by ring.
      apply (is_RInt_ext (fun y => (A * (g y * w2 y) - B * (g y * w1 y)) - g y0 * (A * w2 y - B * w1 y))); [intros; req; ring|].
      apply (is_RInt_minus (V:=R_NormedModule)); [apply (is_RInt_minus (V:=R_NormedModule)); apply (is_RInt_scal (V:=R_NormedModule)); auto|].
      apply (is_RInt_scal (V:=R_NormedModule)). apply (is_RInt_minus (V:=R_NormedModule)); apply (is_RInt_scal (V:=R_NormedModule)); auto. }
    assert (Z : is_RInt (fun _ => 0) 0 1 0) by (assert (Z := is_RInt_const (V:=R_NormedModule) 0 1 0); unfold scal in Z; simpl in Z; unfold mult in Z; simpl in Z; replace ((1 - 0) * 0) with 0 in Z by ring; exact Z).
    assert (L := is_RInt_le _ _ _ _ _ _ Rle_0_1 Z T S). lra.
Qed.

(** the average over the mass of a halo of a quantity that does not increase with the fraction of the virial radius *)
Theorem c157_averages : forall f c1 c2 M1 M2 g G1 G2, steepening f -> (forall x, 0 < x -> 0 < f x) -> 0 < c1 <= c2 ->
  mass_integral f c1 M1 -> mass_integral f c2 M2 -> 0 < M1 -> 0 < M2 -> (forall x y, 0 <= x <= y -> y <= 1 -> g y <= g x) ->
  is_RInt (fun x => g (x / c1) * (f x * x ^ 2)) 0 c1 G1 -> is_RInt (fun x => g (x / c2) * (f x * x ^ 2)) 0 c2 G2 -> G1 / M1 <= G2 / M2.
Proof.
  intros f c1 c2 M1 M2 g G1 G2 ST FP C I1 I2 P1 P2 D J1 J2.
  assert (SUB : forall c F v, 0 < c -> is_RInt F 0 c v -> is_RInt (fun y => c * F (c * y)) 0 1 v).
  { intros c F v Hc H. apply (is_RInt_ext (fun y => scal c (F (c * y + 0)))); [intros; unfold scal; simpl; unfold mult; simpl; now rewrite Rplus_0_r|].
    apply (is_RInt_comp_lin (V:=R_NormedModule)). replace (c * 0 + 0) with 0 by ring. replace (c * 1 + 0) with c by ring. exact H. }
  assert (K : G1 * M2 <= G2 * M1).
  { apply (mlr (fun y => c1 * (f (c1 * y) * (c1 * y) ^ 2)) (fun y => c2 * (f (c2 * y) * (c2 * y) ^ 2)) g); auto.
    - apply (SUB c1 (fun x => f x * x ^ 2)); [lra|exact I1].
    - apply (SUB c2 (fun x => f x * x ^ 2)); [lra|exact I2].
    - apply (is_RInt_ext (fun y => c1 * (g (c1 * y / c1) * (f (c1 * y) * (c1 * y) ^ 2)))); [|apply (SUB c1 (fun x => g (x / c1) * (f x * x ^ 2))); [lra|exact J1]].
      intros y _. req. replace (c1 * y / c1) with y by (field; lra). ring.
    - apply (is_RInt_ext (fun y => c2 * (g (c2 * y / c2) * (f (c2 * y) * (c2 * y) ^ 2)))); [|apply (SUB c2 (fun x => g (x / c2) * (f x * x ^ 2))); [lra|exact J2]].
      intros y _. req. replace (c2 * y / c2) with y by (field; lra). ring.
    - intros y Hy. split; (apply Rmult_lt_0_compat; [lra|apply Rmult_lt_0_compat; [apply FP; apply Rmult_lt_0_compat; lra|apply pow_lt; apply Rmult_lt_0_compat; lra]]).
    - intros x y Hx Hy. assert (Q := ST (c2 / c1) (c1 * x) (c1 * y)). replace (c2 / c1 * (c1 * y)) with (c2 * y) in Q by (field; lra). replace (c2 / c1 * (c1 * x)) with (c2 * x) in Q by (field; lra).
      assert (L : 1 <= c2 / c1) by (apply Rmult_le_reg_r with c1; [lra|]; unfold Rdiv; rewrite Rmult_assoc, Rinv_l by lra; lra).
      specialize (Q L ltac:(split; [apply Rmult_lt_0_compat; lra|apply Rmult_le_compat_l; lra])).
      set (s := c1 * c2 * (c2 * y) ^ 2 * (c1 * x) ^ 2).
      replace (c2 * (f (c2 * y) * (c2 * y) ^ 2) * (c1 * (f (c1 * x) * (c1 * x) ^ 2))) with (s * (f (c2 * y) * f (c1 * x))) by (unfold s; ring).
      replace (c2 * (f (c2 * x) * (c2 * x) ^ 2) * (c1 * (f (c1 * y) * (c1 * y) ^ 2))) with (s * (f (c2 * x) * f (c1 * y))) by (unfold s; ring).
      apply Rmult_le_compat_l; auto. unfold s. apply Rmult_le_pos; [apply Rmult_le_pos; [nra|apply pow2_ge_0]|apply pow2_ge_0]. }
  apply Rmult_le_reg_r with (M1 * M2); [apply Rmult_lt_0_compat; lra|]. replace (G1 / M1 * (M1 * M2)) with (G1 * M2) by (field; lra). replace (G2 / M2 * (M1 * M2)) with (G2 * M1) by (field; lra). exact K.
Qed.
Print Assumptions c157_averages.

(** ** the profiles of the library steepen outwards *)
Lemma inv_prod : forall a b c d, 0 < a -> 0 < b -> 0 < c -> 0 < d -> c * d <= a * b -> / a * / b <= / c * / d.
Proof. intros. rewrite <- !Rinv_mult. apply Rinv_le_contravar; auto. now apply Rmult_lt_0_compat. Qed.
Lemma pow_shift : forall k l p q n, 0 < k -> 1 <= l -> 0 < p <= q -> ((k + l * p) * (k + q)) ^ n <= ((k + l * q) * (k + p)) ^ n.
Proof.
  intros k l p q n Hk Hl Hp. assert (0 < l * p) by (apply Rmult_lt_0_compat; lra). apply pow_incr. split; [apply Rmult_le_pos; lra|].
  enough (0 <= k * ((l - 1) * (q - p))) by nra. apply Rmult_le_pos; [lra|apply Rmult_le_pos; lra].
Qed.
Lemma steep_mult : forall f g, (forall x, 0 < x -> 0 < f x) -> (forall x, 0 < x -> 0 < g x) -> steepening f -> steepening g -> steepening (fun x => f x * g x).
Proof.
  intros f g F G SF SG l p q Hl Hp. assert (L : 0 < l * p) by (apply Rmult_lt_0_compat; lra). assert (L2 : 0 < l * q) by (apply Rmult_lt_0_compat; lra). assert (A := SF l p q Hl Hp). assert (B := SG l p q Hl Hp).
  replace (f (l * q) * g (l * q) * (f p * g p)) with (f (l * q) * f p * (g (l * q) * g p)) by ring. replace (f (l * p) * g (l * p) * (f q * g q)) with (f (l * p) * f q * (g (l * p) * g q)) by ring.
  apply Rmult_le_compat; auto; left; apply Rmult_lt_0_compat; [apply F|apply F|apply G|apply G]; lra.
Qed.
Lemma steep_ext : forall f g, (forall x, 0 < x -> f x = g x) -> steepening f -> steepening g.
Proof. intros f g E S l p q Hl Hp. assert (L : 0 < l * p) by (apply Rmult_lt_0_compat; lra). assert (L2 : 0 < l * q) by (apply Rmult_lt_0_compat; lra). rewrite <- !E by lra. now apply S. Qed.
Lemma steep_power : forall a, steepening (fun x => Rpower x a).
Proof. intros a l p q Hl Hp. rewrite <- !Rpower_mult_distr by lra. right. ring. Qed.
Lemma steep_shift : forall k b, 0 < k -> 0 <= b -> steepening (fun x => Rpower (k + x) (- b)).
Proof.
  intros k b Hk Hb l p q Hl Hp. assert (0 < l * p) by (apply Rmult_lt_0_compat; lra). assert (0 < l * q) by (apply Rmult_lt_0_compat; lra).
  rewrite !Rpower_mult_distr by lra. assert (P := pow_shift k l p q 1 Hk Hl Hp). rewrite !pow_1 in P. rewrite !Rpower_Ropp. apply Rinv_le_contravar; [apply exp_pos|]. destruct (Req_dec b 0) as [->|N].
  - rewrite !Rpower_O by (apply Rmult_lt_0_compat; lra). lra.
  - apply Rle_Rpower_l; [lra|]. split; [apply Rmult_lt_0_compat; lra|exact P].
Qed.
Lemma rpow_pos : forall a, forall x, 0 < x -> 0 < Rpower x a. Proof. intros; apply exp_pos. Qed.
Lemma pm1 : forall x, 0 < x -> Rpower x (-1) = / x.
Proof. intros x Hx. replace (-1) with (- (1)) by lra. rewrite Rpower_Ropp, Rpower_1 by lra. reflexivity. Qed.
Lemma shift_pow : forall k n x, 0 < k -> 0 < x -> Rpower (k + x) (- INR n) = / (k + x) ^ n.
Proof. intros k n x Hk Hx. rewrite Rpower_Ropp, Rpower_pow by lra. reflexivity. Qed.
Lemma steep_gen : forall a k b, 0 < k -> 0 <= b -> steepening (fun x => Rpower x a * Rpower (k + x) (- b)).
Proof. intros a k b Hk Hb. apply steep_mult; [apply rpow_pos|intros; apply exp_pos|apply steep_power|now apply steep_shift]. Qed.
Theorem c157_shapes : forall Si Ci p s, In s (analytic_mass Si Ci p) -> steepening (s_f s) /\ (forall x, 0 < x -> 0 < s_f s x).
Proof.
  intros Si Ci p s H. assert (NP : forall x a, 0 < x -> 0 < npow x a) by (intros; rewrite npow_pos by auto; apply exp_pos).
  destruct H as [<-|[<-|[<-|[<-|[<-|[]]]]]]; simpl s_f; split.
  - apply (steep_ext (fun x => Rpower x (-1) * Rpower (1 + x) (- INR 2))); [|apply steep_gen; simpl; lra]. intros x Hx. rewrite shift_pow by lra. rewrite pm1 by lra. unfold nfw_f. field. lra.
  - intros x Hx. unfold nfw_f. apply Rdiv_lt_0_compat; [lra|]. apply Rmult_lt_0_compat; [lra|apply pow_lt; lra].
  - apply (steep_ext (fun x => Rpower x (-1) * Rpower (1 + x) (- INR 3))); [|apply steep_gen; simpl; lra]. intros x Hx. rewrite shift_pow by lra. rewrite pm1 by lra. unfold hern_f. field. lra.
  - intros x Hx. unfold hern_f. apply Rdiv_lt_0_compat; [lra|]. apply Rmult_lt_0_compat; [lra|apply pow_lt; lra].
  - apply (steep_ext (fun x => Rpower (0.75 + x) (- INR 1) * Rpower (1 + x) (- INR 2))); [|apply steep_mult; try (intros; apply exp_pos); apply steep_shift; simpl; lra].
    intros x Hx. rewrite !shift_pow by lra. unfold cored_f. rewrite (Rplus_comm x 0.75), (Rplus_comm x 1). set (a := 0.75 + x). assert (0 < a) by (unfold a; lra). clearbody a. field. lra.
  - intros x Hx. unfold cored_f. unfold Rdiv. apply Rmult_lt_0_compat; [apply Rmult_lt_0_compat; [lra|apply Rinv_0_lt_compat; lra]|apply Rinv_0_lt_compat, pow_lt; lra].
  - intros l q r _ _. unfold const_f. lra.
  - intros; unfold const_f; lra.
  - intros l q r Hl Hq. assert (L : 0 < l * q) by (apply Rmult_lt_0_compat; lra). assert (L2 : 0 < l * r) by (apply Rmult_lt_0_compat; lra). unfold moore_f. rewrite !npow_pos by lra.
    assert (T := steep_gen (-1) 1 1 ltac:(lra) ltac:(lra) (Rpower l 1.5) (Rpower q 1.5) (Rpower r 1.5)). replace (- (1)) with (-1) in T by lra.
    assert (A : 1 <= Rpower l 1.5) by (rewrite <- (Rpower_O l) by lra; apply Rle_Rpower; lra). assert (B : 0 < Rpower q 1.5 <= Rpower r 1.5) by (split; [apply exp_pos|apply Rle_Rpower_l; lra]).
    specialize (T A B). rewrite (Rpower_mult_distr l r 1.5), (Rpower_mult_distr l q 1.5) in T by lra.
    assert (E : forall x, 0 < x -> Rpower x (-1) * Rpower (1 + x) (-1) = 1 / (x * (1 + x))) by (intros x Hx; rewrite !pm1 by lra; field; lra).
    rewrite !E in T by apply exp_pos. exact T.
  - intros x Hx. unfold moore_f. specialize (NP x 1.5 Hx). apply Rdiv_lt_0_compat; [lra|]. apply Rmult_lt_0_compat; lra.
Qed.
Print Assumptions c157_shapes.
(** Einasto and GeneralizedNFW as well *)
Theorem c157_numerical_shapes : (forall a, 0 < a -> steepening (einasto_f a)) /\ (forall alpha, alpha <= 3 -> steepening (gnfw_f alpha)).
Proof.
  split.
  - intros a Ha l p q Hl Hp. assert (L : 0 < l * p) by (apply Rmult_lt_0_compat; lra). assert (L2 : 0 < l * q) by (apply Rmult_lt_0_compat; lra). unfold einasto_f. rewrite !npow_pos by lra. rewrite <- !exp_plus.
    rewrite <- !Rpower_mult_distr by lra. assert (A : 1 <= Rpower l a) by (rewrite <- (Rpower_O l) by lra; apply Rle_Rpower; lra). assert (B : Rpower p a <= Rpower q a) by (apply Rle_Rpower_l; lra).
    set (x := Rpower l a) in *. set (y := Rpower p a) in *. set (z := Rpower q a) in *.
    assert (K : - 2 / a * (x * z - 1) + - 2 / a * (y - 1) <= - 2 / a * (x * y - 1) + - 2 / a * (z - 1)).
    { assert (Q : 0 <= 2 / a * ((x - 1) * (z - y))) by (apply Rmult_le_pos; [left; apply Rdiv_lt_0_compat; lra|apply Rmult_le_pos; lra]). replace (- 2 / a) with (- (2 / a)) by (field; lra). set (e := 2 / a) in *. nra. }
    destruct K as [K|K]; [left; now apply exp_increasing|right; now rewrite K].
  - intros al Ha. apply (steep_ext (fun x => Rpower x (- al) * Rpower (1 + x) (- (3 - al)))); [|apply steep_gen; lra].
    intros x Hx. unfold gnfw_f. rewrite npow_pos by auto. rewrite !Rpower_Ropp. assert (A : 0 < Rpower x al) by apply exp_pos. assert (B : 0 < Rpower (1 + x) (3 - al)) by apply exp_pos. field. lra.
Qed.
Print Assumptions c157_numerical_shapes.

(** ** enclosed mass *)
(** the fraction of the mass within a given fraction of the virial radius does not decrease with concentration *)
Theorem c157_enclosed_mass : forall Si Ci p s o m c1 c2 x v1 v2, In s (analytic_mass Si Ci p) -> inst_ok o -> 0 < c1 <= c2 -> 0 <= x <= 1 ->
  cdf s o x (Some c1) m "s" = Ok v1 -> cdf s o x (Some c2) m "s" = Ok v2 -> v1 <= v2.
Proof.
  intros Si Ci p s o m c1 c2 x v1 v2 H Ho C X V1 V2. destruct (c157_shapes Si Ci p s H) as [ST FP]. destruct (good_all _ _ _ _ H) as [G _].
  assert (VAL : forall c v, 0 < c -> cdf s o x (Some c) m "s" = Ok v -> v = s_h s (x * c) / s_h s c).
  { intros c v Hc V. destruct (rs_ok o s m c Hc) as [rs [R _]]. unfold cdf, get_r_variables in V. rewrite R in V. simpl in V. injection V as <-. reflexivity. }
  rewrite (VAL c1 v1), (VAL c2 v2) by (auto; lra).
  set (g := fun y => if Rle_dec y x then 1 else 0).
  assert (INT : forall c, 0 < c -> is_RInt (fun y => g (y / c) * (s_f s y * y ^ 2)) 0 c (s_h s (x * c))).
  { intros c Hc. assert (XC : 0 <= x * c <= c) by nra. replace (s_h s (x * c)) with (s_h s (x * c) + 0) by ring. apply (is_RInt_Chasles (V:=R_NormedModule)) with (x * c).
    - apply (is_RInt_ext (fun y => s_f s y * y ^ 2)); [|apply (c37_mass_function_is_the_integral Si Ci p); auto; lra].
      intros y. rewrite Rmin_left, Rmax_right by lra. intros Hy. req. unfold g. destruct (Rle_dec (y / c) x) as [L|L]; [ring|]. exfalso. apply L. apply Rmult_le_reg_r with c; auto. unfold Rdiv. rewrite Rmult_assoc, Rinv_l by lra. lra.
    - apply (is_RInt_ext (fun y => 0)); [|assert (Z := is_RInt_const (V:=R_NormedModule) (x * c) c 0); unfold scal in Z; simpl in Z; unfold mult in Z; simpl in Z; rewrite Rmult_0_r in Z; exact Z].
      intros y. rewrite Rmin_left, Rmax_right by lra. intros Hy. req. unfold g. destruct (Rle_dec (y / c) x) as [L|L]; [|ring]. exfalso. apply Rmult_le_compat_r with (r := c) in L; [|lra]. unfold Rdiv in L. rewrite Rmult_assoc, Rinv_l in L by lra. lra. }
  apply (c157_averages (s_f s) c1 c2 (s_h s c1) (s_h s c2) g); auto; try (apply good_pos; auto; lra); try (apply INT; lra); try (apply (c37_mass_function_is_the_integral Si Ci p); auto; lra).
  intros a b Hab Hb. unfold g. destruct (Rle_dec b x), (Rle_dec a x); lra.
Qed.
Print Assumptions c157_enclosed_mass.

(** ** the Fourier profile *)
Definition sinc (x : R) : R := if Req_EM_T x 0 then 1 else sin x / x.
Lemma sinc_mono : forall x y, 0 <= x <= y -> y <= PI -> sinc y <= sinc x.
Proof.
  intros x y Hx Hy. unfold sinc. destruct (Req_EM_T y 0) as [Ny|Ny]; destruct (Req_EM_T x 0) as [Nx|Nx]; try lra.
  - apply Rmult_le_reg_r with y; [lra|]. unfold Rdiv. rewrite Rmult_assoc, Rinv_l by lra. assert (Q := sin_lt_x y ltac:(lra)). lra.
  - enough (- (sin x / x) <= - (sin y / y)) by lra.
    apply (mono_of_derive (fun t => - (sin t / t)) (fun t => (sin t - t * cos t) / t ^ 2)); [lra| |].
    + intros t Ht. evar_last; [auto_derive; [lra|reflexivity]|]. simpl. field. lra.
    + intros t Ht. apply Rmult_le_pos; [|left; apply Rinv_0_lt_compat; apply pow_lt; lra].
      assert (K : sin 0 - 0 * cos 0 <= sin t - t * cos t).
      { apply (mono_of_derive (fun t => sin t - t * cos t) (fun t => t * sin t)); [lra| |].
        - intros z _. evar_last; [auto_derive; auto|]. simpl. ring.
        - intros z Hz. apply Rmult_le_pos; [lra|]. apply sin_ge_0; lra. }
      rewrite sin_0 in K. lra.
Qed.
(** up to half a wavelength per virial radius the Fourier profile does not decrease with concentration *)
Theorem c157_fourier : forall Si Ci s o k m c1 c2 v1 v2, sine_cosine_integrals Si Ci -> In s (analytic_fourier Si Ci) -> inst_ok o -> 0 < c1 <= c2 -> 0 < k -> k * (halo_mass_to_radius o m false * bloat o m) <= PI ->
  u s o k m (Some "m"%string) (Some c1) "k" = Ok v1 -> u s o k m (Some "m"%string) (Some c2) "k" = Ok v2 -> 0 <= v1 <= v2.
Proof.
  intros Si Ci s o k m c1 c2 v1 v2 HS Hs Ho C Hk HP V1 V2. destruct (fourier_mass _ _ _ Hs) as [HM [NM NI]]. destruct (c157_shapes Si Ci _ s HM) as [ST FP]. destruct (good_all _ _ _ _ HM) as [G _].
  set (Rv := halo_mass_to_radius o m false * bloat o m) in *.
  assert (VAL : forall c v, 0 < c -> u s o k m (Some "m"%string) (Some c) "k" = Ok v -> 0 < Rv /\ exists W, v = W / s_h s c /\ is_RInt (fun y => sinc (k * Rv * (y / c)) * (s_f s y * y ^ 2)) 0 c W).
  { intros c v Hc V. destruct (rs_ok o s m c Hc) as [rs [R [P E]]]. specialize (E NM). fold Rv in E. unfold u, get_k_variables in V. rewrite NI, R in V. simpl in V. injection V as <-.
    split; [rewrite <- E; now apply Rmult_lt_0_compat|]. exists (s_p s (k * rs) c). split; auto. assert (KP : 0 < k * rs) by now apply Rmult_lt_0_compat.
    apply (is_RInt_ext (fun x => x * s_f s x * (sin (k * rs * x) / (k * rs)))); [|exact (c38_fourier_function_is_the_sine_transform Si Ci s (k * rs) c HS Hs KP ltac:(lra))].
    intros y. rewrite Rmin_left, Rmax_right by lra. intros Hy. req. rewrite <- E. replace (k * (rs * c) * (y / c)) with (k * rs * y) by (field; lra). assert (0 < k * rs * y) by (apply Rmult_lt_0_compat; lra). unfold sinc. destruct (Req_EM_T (k * rs * y) 0) as [N|N]; [lra|]. field. lra. }
  destruct (VAL c1 v1 ltac:(lra) V1) as [RP [W1 [-> I1]]]. destruct (VAL c2 v2 ltac:(lra) V2) as [_ [W2 [-> I2]]]. assert (H1 := good_pos s c1 G ltac:(lra)). assert (H2 := good_pos s c2 G ltac:(lra)). assert (KR : 0 < k * Rv) by now apply Rmult_lt_0_compat.
  split.
  - apply Rmult_le_pos; [|left; now apply Rinv_0_lt_compat].
    assert (Z : is_RInt (fun _ => 0) 0 c1 0) by (assert (Z := is_RInt_const (V:=R_NormedModule) 0 c1 0); unfold scal in Z; simpl in Z; unfold mult in Z; simpl in Z; rewrite Rmult_0_r in Z; exact Z).
    assert (LE : 0 <= c1) by lra. apply (is_RInt_le _ _ _ _ _ _ LE Z I1). intros y Hy. apply Rmult_le_pos; [|apply Rmult_le_pos; [left; apply FP; lra|apply pow2_ge_0]].
    assert (Y : 0 < y / c1 <= 1) by (split; [apply Rdiv_lt_0_compat; lra|apply Rmult_le_reg_r with c1; [lra|]; unfold Rdiv; rewrite Rmult_assoc, Rinv_l by lra; lra]).
    assert (Q : 0 < k * Rv * (y / c1) <= PI) by (split; [apply Rmult_lt_0_compat; lra|nra]). unfold sinc. destruct (Req_EM_T _ _) as [N|N]; [lra|]. apply Rmult_le_pos; [apply sin_ge_0; lra|left; apply Rinv_0_lt_compat; lra].
  - apply (c157_averages (s_f s) c1 c2 (s_h s c1) (s_h s c2) (fun y => sinc (k * Rv * y))); auto; try (apply (c37_mass_function_is_the_integral Si Ci (fun _ _ => 0)); auto; lra).
    intros a b Hab Hb. apply sinc_mono; [split; [apply Rmult_le_pos; lra|apply Rmult_le_compat_l; lra]|nra].
Qed.
Print Assumptions c157_fourier.

(** ** the 1-halo terms of the halo model *)
(** the framework [h] with another table of Fourier profiles *)
Definition with_ukm (h : dmhm) (g : nat -> nat -> R) : dmhm :=
  mkDM (d_nm h) (d_m h) (d_dndm h) (d_bias h) (d_dlog10m h) (d_nk h) (d_k h) (d_khm h) (d_power h) (d_phc h) (d_plin h) (d_hc h) (d_nr h) (d_r h) g (d_lam h) (d_rho0 h) (d_rhoh h) (d_delta h) (d_turnover h) (d_unity h) (d_noexcl h) (d_sd h).
Section Spectra.
  Variables (I : quadrature) (spline : nat -> list R -> list R -> R -> R) (uspline : list R -> list R -> R -> R).
  Variables (h : dmhm) (hd : hod) (rho1 rho2 : nat -> nat -> R) (lam1 lam2 : option (nat -> nat -> R)) (Si Ci : R -> R) (s : shape) (o : inst) (conc1 conc2 : nat -> R) (U1 U2 : nat -> nat -> R).
  Hypothesis LI : q_linear I.
  Hypothesis PI_ : q_positive I.
  Hypothesis ZI : q_zero_outside I.
  Hypothesis HI : interpolates (spline 3%nat).
  Hypothesis GM : grid (d_nm h) (d_m h).
  Hypothesis GK : grid (d_nk h) (d_k h).
  Hypothesis SC : sine_cosine_integrals Si Ci.
  Hypothesis OK : inst_ok o.
  Hypothesis S1 : In s (analytic_fourier Si Ci).
  Hypothesis DN : forall im, (im < d_nm h)%nat -> 0 <= d_dndm h im.
  (** every halo is at least as concentrated in the second model; the tables are what the profile's method returns *)
  Hypothesis CC : forall im, (im < d_nm h)%nat -> 0 < conc1 im <= conc2 im.
  Hypothesis W1 : forall ik im, (ik < d_nk h)%nat -> (im < d_nm h)%nat -> u s o (d_k h ik) (d_m h im) (Some "m"%string) (Some (conc1 im)) "k" = Ok (U1 ik im).
  Hypothesis W2 : forall ik im, (ik < d_nk h)%nat -> (im < d_nm h)%nat -> u s o (d_k h ik) (d_m h im) (Some "m"%string) (Some (conc2 im)) "k" = Ok (U2 ik im).
  Lemma integral_le : forall f g x, 0 < x -> (forall i, (i < d_nm h)%nat -> f i <= g i) -> mint I h f (Some x) <= mint I h g (Some x).
  Proof.
    intros f g x Hx F. assert (Q := mint_pos_any I h (fun i => g i + -1 * f i) (Some x) PI_ ZI GM Hx ltac:(intros i Hi; specialize (F i Hi); cbv beta; lra)). rewrite mint_lin in Q by auto. lra.
  Qed.
  Lemma sq_le : forall a b d, a <= b -> a / d ^ 2 <= b / d ^ 2.
  Proof.
    intros a b d H. destruct (Req_dec d 0) as [->|N]; [replace (0 ^ 2) with 0 by ring; unfold Rdiv; rewrite Rinv_0; lra|].
    apply Rmult_le_compat_r; auto. left. apply Rinv_0_lt_compat. replace (d ^ 2) with (Rsqr d) by (unfold Rsqr; ring). now apply Rsqr_pos_lt.
  Qed.
  Theorem c157_one_halo : forall ik, (ik < d_nk h)%nat -> (forall im, (im < d_nm h)%nat -> d_k h ik * (halo_mass_to_radius o (d_m h im) false * bloat o (d_m h im)) <= PI) ->
    (forall im, (im < d_nm h)%nat -> 0 <= ss_pairs hd (d_m h im) /\ 0 <= cs_pairs hd (d_m h im)) -> 0 < h_mmin hd ->
    (forall p1 p2, power_1h_matter I spline uspline (with_ukm h U1) = Ok p1 -> power_1h_matter I spline uspline (with_ukm h U2) = Ok p2 -> p1 (d_k h ik) <= p2 (d_k h ik)) /\
    (forall p1 p2, power_1h_ss I spline uspline h (mkTr hd U1 rho1 lam1) = Ok p1 -> power_1h_ss I spline uspline h (mkTr hd U2 rho2 lam2) = Ok p2 -> p1 (d_k h ik) <= p2 (d_k h ik)) /\
    (forall p1 p2, power_1h_cs I spline uspline h (mkTr hd U1 rho1 lam1) = Ok p1 -> power_1h_cs I spline uspline h (mkTr hd U2 rho2 lam2) = Ok p2 -> p1 (d_k h ik) <= p2 (d_k h ik)).
  Proof.
    intros ik Hk HK HP HM.
    assert (U : forall im, (im < d_nm h)%nat -> 0 <= U1 ik im <= U2 ik im).
    { intros im Hm. apply (c157_fourier Si Ci s o (d_k h ik) (d_m h im) (conc1 im) (conc2 im)); auto. now apply GK. }
    assert (SQ : forall im, (im < d_nm h)%nat -> U1 ik im ^ 2 <= U2 ik im ^ 2) by (intros; apply pow_incr; auto).
    assert (X : forall mm k, 0 < mm -> 0 < mmin_1h h mm k) by (intros mm k Q; unfold mmin_1h; destruct (d_turnover h); auto; eapply Rlt_le_trans; [exact Q|apply Rmax_l]).
    assert (M0 : 0 < d_m h 0%nat) by (apply GM; apply GM).
    split; [|split]; intros p1 p2 P1 P2.
    - unfold power_1h_matter in P1, P2. assert (E1 := efun_node _ _ _ _ _ _ _ _ _ _ HI (GK : grid (d_nk (with_ukm h U1)) (d_k (with_ukm h U1))) Hk P1). assert (E2 := efun_node _ _ _ _ _ _ _ _ _ _ HI (GK : grid (d_nk (with_ukm h U2)) (d_k (with_ukm h U2))) Hk P2).
      change (d_k (with_ukm h U1) ik) with (d_k h ik) in E1. change (d_k (with_ukm h U2) ik) with (d_k h ik) in E2. rewrite E1, E2. unfold p1h_matter, do_1halo. apply sq_le.
      apply (integral_le (fun im => d_dndm h im * d_m h im ^ 2 * U1 ik im ^ 2) (fun im => d_dndm h im * d_m h im ^ 2 * U2 ik im ^ 2)); [now apply X|].
      intros i Hi. apply Rmult_le_compat_l; auto. apply Rmult_le_pos; auto. apply pow2_ge_0.
    - unfold power_1h_ss in P1, P2. rewrite (efun_node _ _ _ _ _ _ _ _ _ _ HI GK Hk P1), (efun_node _ _ _ _ _ _ _ _ _ _ HI GK Hk P2). unfold p1h_ss, do_1halo. simpl t_hod. simpl t_ukm.
      change (mean_tracer_den I h (mkTr hd U2 rho2 lam2)) with (mean_tracer_den I h (mkTr hd U1 rho1 lam1)). apply sq_le. apply integral_le; [now apply X|].
      intros i Hi. apply Rmult_le_compat_r; [now apply HP|]. apply Rmult_le_compat_r; auto.
    - unfold power_1h_cs in P1, P2. cbv zeta in P1, P2. rewrite (efun_node _ _ _ _ _ _ _ _ _ _ HI GK Hk P1), (efun_node _ _ _ _ _ _ _ _ _ _ HI GK Hk P2). unfold p1h_cs, do_1halo. simpl t_hod. simpl t_ukm.
      change (mean_tracer_den I h (mkTr hd U2 rho2 lam2)) with (mean_tracer_den I h (mkTr hd U1 rho1 lam1)). apply sq_le. apply integral_le; [now apply X|].
      intros i Hi. apply Rmult_le_compat_l; [|now apply U]. assert (A := proj2 (HP i Hi)). assert (B := DN i Hi). apply Rmult_le_pos; [apply Rmult_le_pos; lra|auto].
  Qed.
End Spectra.
Print Assumptions c157_one_halo.

(** an NFW halo of mass m in concentrations 5 and 10: the hypotheses are met at half a wavelength per virial radius *)
Example c157_met : exists Si Ci, sine_cosine_integrals Si Ci /\ forall m, exists k v1 v2, 0 < k /\ k * (halo_mass_to_radius ex_inst m false * bloat ex_inst m) = PI /\
  u (NFW Si Ci) ex_inst k m (Some "m"%string) (Some 5) "k" = Ok v1 /\ u (NFW Si Ci) ex_inst k m (Some "m"%string) (Some 10) "k" = Ok v2 /\ 0 <= v1 <= v2.
Proof.
  destruct sici_exist as [Si [Ci [SC _]]]. exists Si, Ci. split; [exact SC|]. intros m. destruct ex_inst_ok as [OK B].
  destruct (rs_ok ex_inst (NFW Si Ci) m 5 ltac:(lra)) as [rs [_ [RP E]]]. specialize (E eq_refl). set (Rv := halo_mass_to_radius ex_inst m false * bloat ex_inst m) in *.
  assert (RV : 0 < Rv) by (rewrite <- E; lra). assert (PP := PI_RGT_0). assert (KP : 0 < PI / Rv) by now apply Rdiv_lt_0_compat.
  destruct (c38_u_bounds Si Ci (NFW Si Ci) ex_inst (PI / Rv) m 5 SC ltac:(simpl; auto) OK KP ltac:(lra)) as [v1 [_ [_ [V1 _]]]]. destruct (c38_u_bounds Si Ci (NFW Si Ci) ex_inst (PI / Rv) m 10 SC ltac:(simpl; auto) OK KP ltac:(lra)) as [v2 [_ [_ [V2 _]]]].
  exists (PI / Rv), v1, v2. assert (KE : PI / Rv * Rv = PI) by (field; lra). split; auto. split; auto. split; auto. split; auto.
  apply (c157_fourier Si Ci (NFW Si Ci) ex_inst (PI / Rv) m 5 10); auto; [simpl; auto|lra|fold Rv; lra].
Qed.
