From Coq Require Import Reals Lra Lia Bool Psatz.
From Coquelicot Require Import Coquelicot.
From Verif Require Import Model.RBool Model.SpecialFn Model.Profiles Spec.ProfileSpec Proofs.Calc Proofs.HODProofs Proofs.ProfileProofs.
Local Open Scope R_scope.

Lemma chasles : forall (f : R -> R) a b c l1 l2, is_RInt f a b l1 -> is_RInt f b c l2 -> is_RInt f a c (l1 + l2).
Proof. intros. exact (is_RInt_Chasles (V:=R_NormedModule) f a b c l1 l2 H H0). Qed.
Lemma rint_zero : forall (f : R -> R) a b, a <= b -> (forall x, a < x < b -> f x = 0) -> is_RInt f a b 0.
Proof.
  intros. apply (is_RInt_ext (fun _ => 0)).
  - intros x. rewrite Rmin_left, Rmax_right by lra. intros. symmetry. auto.
  - assert (Z : (b - a) * 0 = 0) by ring. assert (E := is_RInt_const (V:=R_NormedModule) a b 0). change (scal (b - a) 0) with ((b - a) * 0) in E. rewrite Z in E. exact E.
Qed.
Lemma rint_eq : forall (f : R -> R) a b v w, is_RInt f a b v -> v = w -> is_RInt f a b w.
Proof. intros. now subst. Qed.
Lemma rint_u : forall (f : R -> R) a b v, is_RInt f a b v -> RInt f a b = v.
Proof. intros. exact (is_RInt_unique (V:=R_CompleteNormedModule) f a b v H). Qed.
Lemma rint_swap_diff : forall (f : R -> R) a b va vb, is_RInt f 0 a va -> is_RInt f 0 b vb -> RInt f a b = vb - va.
Proof.
  intros. apply rint_u. assert (S := is_RInt_swap (V:=R_NormedModule) _ _ _ _ H).
  eapply rint_eq; [eapply chasles; [exact S|exact H0]|]. unfold opp; simpl. ring.
Qed.

(** * truncated NFW *)
Definition Hn (t : R) : R := - / (1 + t).
Lemma nfw_inner : forall c t, 0 < c -> 0 <= t -> is_RInt (fun z => z * truncated nfw_f c z) 0 t (Hn (Rmin t c) - Hn 0).
Proof.
  assert (B : forall c t, 0 < c -> 0 <= t <= c -> is_RInt (fun z => z * truncated nfw_f c z) 0 t (Hn t - Hn 0)).
  { intros c t Hc Ht. apply (ftc0 Hn (fun z => / (1 + z)^2)); [lra| | |].
    - intros z Hz. unfold Hn. auto_derive; [lra|]. simpl pow. field. lra.
    - intros z Hz. cont (fun z => / (1 + z)^2). auto_derive. nra.
    - intros z Hz. unfold truncated, nfw_f. destruct (Rle_dec z c); [|lra]. field. lra. }
  intros c t Hc Ht. destruct (Rle_dec t c) as [L|L].
  - rewrite Rmin_left by lra. apply B; lra.
  - rewrite Rmin_right by lra. replace (Hn c - Hn 0) with (Hn c - Hn 0 + 0) by ring. eapply chasles; [apply B; lra|].
    apply rint_zero; [lra|]. intros z Hz. unfold truncated. destruct (Rle_dec z c); [lra|ring].
Qed.
Lemma nfw_shell : forall c x y, 0 < c -> 0 < x -> 0 <= y ->
  shell_average (truncated nfw_f c) x y = / (1 + Rmin (Rabs (x - y)) c) - / (1 + Rmin (x + y) c).
Proof.
  intros. unfold shell_average. rewrite (rint_swap_diff _ _ _ _ _ (nfw_inner c (Rabs (x - y)) H (Rabs_pos _)) (nfw_inner c (x + y) H ltac:(lra))).
  unfold Hn. ring.
Qed.
(* integrand on 0 < y < c *)
Lemma nfw_integrand : forall c x y, 0 < c -> 0 < x -> 0 < y < c ->
  y * truncated nfw_f c y * shell_average (truncated nfw_f c) x y
  = / (1 + y)^2 * (/ (1 + Rmin (Rabs (x - y)) c) - / (1 + Rmin (x + y) c)).
Proof.
  intros. rewrite nfw_shell by lra. unfold truncated, nfw_f. destruct (Rle_dec y c); [|lra].
  replace (y * (1 / (y * (1 + y)^2))) with (/ (1 + y)^2) by (field; lra). reflexivity.
Qed.

(* antiderivatives *)
Definition Fw (x y : R) : R := - / ((2 + x) * (1 + y)) + (ln (1 + y) - ln (1 + x - y)) / (2 + x)^2.
Definition Fv (x y : R) : R := / (x * (1 + y)) + (ln (1 + y - x) - ln (1 + y)) / x^2.
Definition Ft (x y : R) : R := - / (x * (1 + y)) - (ln (1 + y) - ln (1 + x + y)) / x^2.
Definition Fc (c y : R) : R := - / ((1 + c) * (1 + y)).
Lemma dFw : forall x y, 0 < x -> 0 <= y -> y < 1 + x -> is_derive (Fw x) y (/ ((1 + y)^2 * (1 + x - y))).
Proof. intros. unfold Fw. auto_derive; [repeat split; try lra; nra|]. simpl pow. field. repeat split; lra. Qed.
Lemma dFv : forall x y, 0 < x -> x - 1 < y -> 0 <= y -> is_derive (Fv x) y (/ ((1 + y)^2 * (1 + y - x))).
Proof. intros. unfold Fv. auto_derive; [repeat split; try lra; nra|]. simpl pow. field. repeat split; lra. Qed.
Lemma dFt : forall x y, 0 < x -> 0 <= y -> is_derive (Ft x) y (/ ((1 + y)^2 * (1 + x + y))).
Proof. intros. unfold Ft. auto_derive; [repeat split; try lra; nra|]. simpl pow. field. repeat split; lra. Qed.
Lemma dFc : forall c y, 0 < c -> 0 <= y -> is_derive (Fc c) y (/ ((1 + y)^2 * (1 + c))).
Proof. intros. unfold Fc. auto_derive; [nra|]. simpl pow. field. repeat split; lra. Qed.

Lemma inv_cont : forall (g : R -> R) x, ex_derive g x -> g x <> 0 -> continuous (fun y => / g y) x.
Proof. intros. apply (ex_derive_continuous (fun y => / g y)). apply ex_derive_inv; auto. Qed.

Lemma pw : forall x a b, 0 < x -> 0 <= a <= b -> b <= x -> is_RInt (fun y => / ((1 + y)^2 * (1 + x - y))) a b (Fw x b - Fw x a).
Proof.
  intros. apply ftc; [lra| |].
  - intros. apply dFw; lra.
  - intros y Hy. apply inv_cont; [auto_derive; auto|]. apply Rgt_not_eq, Rmult_lt_0_compat; [apply pow_lt|]; lra.
Qed.
Lemma pv : forall x a b, 0 < x -> x <= a <= b -> is_RInt (fun y => / ((1 + y)^2 * (1 + y - x))) a b (Fv x b - Fv x a).
Proof.
  intros. apply ftc; [lra| |].
  - intros. apply dFv; lra.
  - intros y Hy. apply inv_cont; [auto_derive; auto|]. apply Rgt_not_eq, Rmult_lt_0_compat; [apply pow_lt|]; lra.
Qed.
Lemma pt : forall x a b, 0 < x -> 0 <= a <= b -> is_RInt (fun y => / ((1 + y)^2 * (1 + x + y))) a b (Ft x b - Ft x a).
Proof.
  intros. apply ftc; [lra| |].
  - intros. apply dFt; lra.
  - intros y Hy. apply inv_cont; [auto_derive; auto|]. apply Rgt_not_eq, Rmult_lt_0_compat; [apply pow_lt|]; lra.
Qed.
Lemma pc : forall c a b, 0 < c -> 0 <= a <= b -> is_RInt (fun y => / ((1 + y)^2 * (1 + c))) a b (Fc c b - Fc c a).
Proof.
  intros. apply ftc; [lra| |].
  - intros. apply dFc; lra.
  - intros y Hy. apply inv_cont; [auto_derive; auto|]. apply Rgt_not_eq, Rmult_lt_0_compat; [apply pow_lt|]; lra.
Qed.
Lemma rext : forall (f g : R -> R) a b v, a <= b -> (forall x, a < x < b -> f x = g x) -> is_RInt g a b v -> is_RInt f a b v.
Proof. intros. apply (is_RInt_ext g); auto. intros x. rewrite Rmin_left, Rmax_right by lra. intros; symmetry; auto. Qed.
Lemma rminus : forall (f g : R -> R) a b v w, is_RInt f a b v -> is_RInt g a b w -> is_RInt (fun y => f y - g y) a b (v - w).
Proof. intros. exact (is_RInt_minus (V:=R_NormedModule) f g a b v w H H0). Qed.

Lemma inv_mult : forall a b, a <> 0 -> b <> 0 -> / a * / b = / (a * b).
Proof. intros. field. auto. Qed.

Lemma nfw_conv_lo : forall c x, 0 < c -> 0 < x <= c -> self_convolution_truncated nfw_f c x (nfw_l_lo x c).
Proof.
  intros c x Hc Hx. unfold self_convolution_truncated. cbv zeta.
  (* first term *)
  assert (A : is_RInt (fun y => / (1 + y)^2 * / (1 + Rmin (Rabs (x - y)) c)) 0 c ((Fw x x - Fw x 0) + (Fv x c - Fv x x))).
  { eapply chasles with x.
    - eapply rext; [lra| |apply pw; lra]. intros y Hy. cbv beta. rewrite Rabs_pos_eq, Rmin_left by lra.
      rewrite inv_mult by (try apply pow_nonzero; lra). f_equal. ring.
    - eapply rext; [lra| |apply pv; lra]. intros y Hy. cbv beta. rewrite Rabs_left1, Rmin_left by lra.
      rewrite inv_mult by (try apply pow_nonzero; lra). f_equal. ring. }
  assert (B : is_RInt (fun y => / (1 + y)^2 * / (1 + Rmin (x + y) c)) 0 c ((Ft x (c - x) - Ft x 0) + (Fc c c - Fc c (c - x)))).
  { eapply chasles with (c - x).
    - eapply rext; [lra| |apply pt; lra]. intros y Hy. cbv beta. rewrite Rmin_left by lra.
      rewrite inv_mult by (try apply pow_nonzero; lra). f_equal. ring.
    - eapply rext; [lra| |apply pc; lra]. intros y Hy. cbv beta. rewrite Rmin_right by lra.
      rewrite inv_mult by (try apply pow_nonzero; lra). reflexivity. }
  eapply rext; [lra| |eapply rint_eq; [exact (rminus _ _ _ _ _ _ A B)|]].
  - intros y Hy. cbv beta. rewrite nfw_integrand by lra. ring.
  - unfold nfw_l_lo. cbv zeta.
    replace ((1 + 1 / c - 1 / c * x) * (1 + x) / (1 + 1 / c)) with ((1 + c - x) * (1 + x) * / (1 + c)) by (field; lra).
    rewrite ln_mult; [|nra|apply Rinv_0_lt_compat; lra]. rewrite ln_mult by lra. rewrite ln_Rinv by lra.
    unfold Fw, Fv, Ft, Fc. 
    replace (1 + x - x) with 1 by ring. replace (1 + x - 0) with (1 + x) by ring. replace (1 + 0) with 1 by ring.
    replace (1 + x + (c - x)) with (1 + c) by ring. replace (1 + (c - x)) with (1 + c - x) by ring. replace (1 + x + 0) with (1 + x) by ring.
    rewrite ln_1. assert (P := PI_RGT_0). req. field. repeat split; lra.
Qed.
Lemma nfw_conv_hi : forall c x, 0 < c -> c <= x <= 2 * c -> self_convolution_truncated nfw_f c x (nfw_l_hi x c).
Proof.
  intros c x Hc Hx. unfold self_convolution_truncated. cbv zeta.
  assert (A : is_RInt (fun y => y * truncated nfw_f c y * shell_average (truncated nfw_f c) x y) 0 c
     (0 + ((Fw x c - Fw x (x - c)) - (Fc c c - Fc c (x - c))))).
  { eapply chasles with (x - c).
    - apply rint_zero; [lra|]. intros y Hy. rewrite nfw_integrand by lra. rewrite Rabs_pos_eq by lra. rewrite !Rmin_right by lra. ring.
    - eapply rext; [lra| |apply rminus; [apply pw; lra|apply pc; lra]]. intros y Hy. cbv beta. rewrite nfw_integrand by lra.
      rewrite Rabs_pos_eq by lra. rewrite (Rmin_left (x - y)), (Rmin_right (x + y)) by lra.
      rewrite Rmult_minus_distr_l, !inv_mult by (try apply pow_nonzero; lra). do 2 f_equal. ring. }
  eapply rint_eq; [exact A|]. unfold nfw_l_hi. cbv zeta.
  assert (P := PI_RGT_0).
  replace ((1 + 1 / c) / (1 / c + 1 / c * x - 1)) with ((1 + c) * / (1 + x - c)) by (field; repeat split; lra).
  rewrite ln_mult; [|lra|apply Rinv_0_lt_compat; lra]. rewrite ln_Rinv by lra.
  unfold Fw, Fc. replace (1 + (x - c)) with (1 + x - c) by ring. replace (1 + x - (x - c)) with (1 + c) by ring. req. field. repeat split; lra.
Qed.
Lemma nfw_conv_far : forall c x, 0 < c -> 2 * c <= x -> self_convolution_truncated nfw_f c x 0.
Proof.
  intros c x Hc Hx. unfold self_convolution_truncated. cbv zeta. rewrite Rmult_0_r. apply rint_zero; [lra|].
  intros y Hy. rewrite nfw_integrand by lra. rewrite Rabs_pos_eq by lra. rewrite !Rmin_right by lra. ring.
Qed.
Lemma conv_unique : forall f c x v w, 0 < x -> self_convolution_truncated f c x v -> self_convolution_truncated f c x w -> v = w.
Proof.
  intros f c x v w Hx A B. unfold self_convolution_truncated in *. cbv zeta in *. apply rint_u in A. apply rint_u in B. rewrite A in B.
  apply Rmult_eq_reg_l in B; auto. assert (P := PI_RGT_0). apply Rgt_not_eq. apply Rdiv_lt_0_compat; lra.
Qed.
Lemma nfw_conv : forall c x, 0 < c -> 0 < x -> self_convolution_truncated nfw_f c x (nfw_l x c).
Proof.
  intros. unfold nfw_l. destruct (Rleb x c) eqn:A; [apply Rleb_spec in A; apply nfw_conv_lo; lra|]. apply Rleb_false in A.
  destruct (Rleb x (2*c)) eqn:B; [apply Rleb_spec in B; apply nfw_conv_hi; lra|]. apply Rleb_false in B. apply nfw_conv_far; lra.
Qed.
Lemma nfw_l_at_c : forall c, 0 < c -> nfw_l_lo c c = nfw_l_hi c c.
Proof. intros. apply (conv_unique nfw_f c c); auto; [apply nfw_conv_lo; lra|apply nfw_conv_hi; lra]. Qed.
Lemma nfw_l_at_2c : forall c, 0 < c -> nfw_l_hi (2*c) c = 0.
Proof. intros. apply (conv_unique nfw_f c (2*c)); [lra|apply nfw_conv_hi; lra|apply nfw_conv_far; lra]. Qed.
Lemma nfw_l_nonneg : forall c x, 0 < c -> 0 < x -> 0 <= nfw_l x c.
Proof.
  intros c x Hc Hx. assert (A := nfw_conv c x Hc Hx). unfold self_convolution_truncated in A. cbv zeta in A.
  assert (E : ex_RInt (fun y => y * truncated nfw_f c y * shell_average (truncated nfw_f c) x y) 0 c) by (eexists; exact A).
  apply rint_u in A. assert (G : 0 <= x / (2 * PI) * nfw_l x c).
  { rewrite <- A. apply RInt_ge_0; [lra|auto|]. intros y Hy. rewrite nfw_integrand by lra.
    apply Rmult_le_pos; [left; apply Rinv_0_lt_compat, pow_lt; lra|].
    assert (Rmin (Rabs (x - y)) c <= Rmin (x + y) c).
    { apply Rle_min_compat_r. apply Rabs_le. lra. }
    assert (0 <= Rmin (Rabs (x - y)) c) by (apply Rmin_glb; [apply Rabs_pos|lra]).
    assert (/ (1 + Rmin (x + y) c) <= / (1 + Rmin (Rabs (x - y)) c)) by (apply Rinv_le_contravar; lra). lra. }
  assert (P := PI_RGT_0). assert (Q : 0 < x / (2 * PI)) by (apply Rdiv_lt_0_compat; lra).
  destruct (Rle_or_lt 0 (nfw_l x c)) as [|N]; auto. exfalso. nra.
Qed.

(** * untruncated profiles *)
Lemma nfwu_inner : forall t, 0 <= t -> is_RInt (fun z => z * nfw_f z) 0 t (Hn t - Hn 0).
Proof.
  intros t Ht. apply (ftc0 Hn (fun z => / (1 + z)^2)); [lra| | |].
  - intros z Hz. unfold Hn. auto_derive; [lra|]. simpl pow. field. lra.
  - intros z Hz. cont (fun z => / (1 + z)^2). auto_derive. nra.
  - intros z Hz. unfold nfw_f. field. lra.
Qed.
Lemma nfwu_shell : forall x y, 0 < x -> 0 <= y -> shell_average nfw_f x y = / (1 + Rabs (x - y)) - / (1 + (x + y)).
Proof.
  intros. unfold shell_average. rewrite (rint_swap_diff _ _ _ _ _ (nfwu_inner (Rabs (x - y)) (Rabs_pos _)) (nfwu_inner (x + y) ltac:(lra))).
  unfold Hn. ring.
Qed.
Lemma nfwu_outer : forall x b, 0 < x <= b -> is_RInt (fun y => y * nfw_f y * shell_average nfw_f x y) 0 b
  ((Fw x x - Fw x 0) + (Fv x b - Fv x x) - (Ft x b - Ft x 0)).
Proof.
  intros x b Hx.
  assert (A : is_RInt (fun y => / (1 + y)^2 * / (1 + Rabs (x - y))) 0 b ((Fw x x - Fw x 0) + (Fv x b - Fv x x))).
  { eapply chasles with x.
    - eapply rext; [lra| |apply pw; lra]. intros y Hy. cbv beta. rewrite Rabs_pos_eq by lra.
      rewrite inv_mult by (try apply pow_nonzero; lra). f_equal. ring.
    - eapply rext; [lra| |apply pv; lra]. intros y Hy. cbv beta. rewrite Rabs_left1 by lra.
      rewrite inv_mult by (try apply pow_nonzero; lra). f_equal. ring. }
  eapply rext; [lra| |exact (rminus _ _ _ _ _ _ A (pt x 0 b ltac:(lra) ltac:(lra)))].
  intros y Hy. cbv beta. rewrite nfwu_shell by lra. unfold nfw_f.
  replace (y * (1 / (y * (1 + y)^2))) with (/ (1 + y)^2) by (field; lra).
  rewrite Rmult_minus_distr_l. f_equal. rewrite inv_mult by (try apply pow_nonzero; lra). f_equal. ring.
Qed.
Lemma lim_inv_aff : forall p, is_lim (fun b => / (b + p)) p_infty 0.
Proof.
  intros p. evar (l : Rbar). replace (Finite 0) with l.
  - apply is_lim_inv. eapply is_lim_plus; [apply is_lim_id|apply is_lim_const|]. simpl. reflexivity. simpl. discriminate.
  - reflexivity.
Qed.
Lemma lim_ln_ratio : forall p q, is_lim (fun b => ln (b + p) - ln (b + q)) p_infty 0.
Proof.
  intros p q.
  assert (R1 : is_lim (fun b => 1 + (p - q) * / (b + q)) p_infty 1).
  { replace (Finite 1) with (Finite (1 + (p - q) * 0)) by (f_equal; ring).
    apply is_lim_plus'; [apply is_lim_const|]. apply (is_lim_scal_l _ (p - q) p_infty 0). apply lim_inv_aff. }
  assert (L : is_lim (fun b => ln (1 + (p - q) * / (b + q))) p_infty (ln 1)).
  { apply (is_lim_comp_continuous (fun b => 1 + (p - q) * / (b + q)) ln p_infty 1); auto. 
    apply (ex_derive_continuous ln). auto_derive. lra. }
  rewrite ln_1 in L. eapply is_lim_ext_loc; [|exact L].
  exists (Rmax (- p) (- q)). intros b Hb. assert (A := Rmax_l (-p) (-q)). assert (B := Rmax_r (-p) (-q)).
  replace (1 + (p - q) * / (b + q)) with ((b + p) * / (b + q)) by (field; lra). rewrite ln_mult, ln_Rinv; try lra. apply Rinv_0_lt_compat; lra.
Qed.
Lemma lim_eq : forall f (l l' : R), is_lim f p_infty l -> l = l' -> is_lim f p_infty l'.
Proof. intros. now subst. Qed.

Lemma nfwinf_conv : forall x, 0 < x -> self_convolution nfw_f x (nfwinf_l x).
Proof.
  intros x Hx. unfold self_convolution.
  apply is_lim_ext_loc with (fun b => (Fw x x - Fw x 0) - Fv x x + Ft x 0 + (Fv x b - Ft x b)).
  { exists x. intros b Hb. symmetry. rewrite (rint_u _ _ _ _ (nfwu_outer x b ltac:(lra))). ring. }
  eapply lim_eq.
  - apply is_lim_plus'; [apply is_lim_const|].
    apply is_lim_ext_loc with (fun b => 2 / x * / (b + 1) + (/ x^2 * (ln (b + (1 - x)) - ln (b + 1)) - / x^2 * (ln (b + (1 + x)) - ln (b + 1)))).
    { exists x. intros b Hb. unfold Fv, Ft. replace (b + (1 - x)) with (1 + b - x) by ring. replace (b + (1 + x)) with (1 + x + b) by ring. replace (b + 1) with (1 + b) by ring. field. lra. }
    apply is_lim_plus'; [apply (is_lim_scal_l _ (2/x) p_infty 0), lim_inv_aff|].
    apply is_lim_minus'; apply (is_lim_scal_l _ (/x^2) p_infty 0), lim_ln_ratio.
  - unfold nfwinf_l, Fw, Fv, Ft. cbv zeta. replace (1 + x - x) with 1 by ring. replace (1 + x - 0) with (1 + x) by ring. replace (1 + 0) with 1 by ring. replace (1 + x + 0) with (1 + x) by ring.
    rewrite ln_1. assert (P := PI_RGT_0). req. field. repeat split; lra.
Qed.

(** Hernquist *)
Definition Hh (t : R) : R := - / (2 * (1 + t)^2).
Lemma hern_inner : forall t, 0 <= t -> is_RInt (fun z => z * hern_f z) 0 t (Hh t - Hh 0).
Proof.
  intros t Ht. apply (ftc0 Hh (fun z => / (1 + z)^3)); [lra| | |].
  - intros z Hz. unfold Hh. auto_derive; [nra|]. simpl pow. field. lra.
  - intros z Hz. apply inv_cont; [auto_derive; auto|]. apply pow_nonzero; lra.
  - intros z Hz. unfold hern_f. field. lra.
Qed.
Lemma hern_shell : forall x y, 0 < x -> 0 <= y -> shell_average hern_f x y = / 2 * (/ (1 + Rabs (x - y))^2 - / (1 + (x + y))^2).
Proof.
  intros. unfold shell_average. rewrite (rint_swap_diff _ _ _ _ _ (hern_inner (Rabs (x - y)) (Rabs_pos _)) (hern_inner (x + y) ltac:(lra))).
  unfold Hh. assert (P := Rabs_pos (x - y)). field. split; lra.
Qed.
Definition Gw (x y : R) : R :=
  3 / (2+x)^4 * (ln (1+y) - ln (1+x-y)) - 2 / (2+x)^3 * / (1+y) - / (2+x)^2 * / (2 * (1+y)^2) + / (2+x)^3 * / (1+x-y).
Definition Gv (x y : R) : R :=
  3 / x^4 * (ln (1+y) - ln (1+y-x)) - 2 / x^3 * / (1+y) - / x^2 * / (2 * (1+y)^2) - / x^3 * / (1+y-x).
Definition Gt (x y : R) : R :=
  3 / x^4 * (ln (1+y) - ln (1+x+y)) + 2 / x^3 * / (1+y) - / x^2 * / (2 * (1+y)^2) + / x^3 * / (1+x+y).
Lemma dGw : forall x y, 0 < x -> 0 <= y -> y < 1 + x -> is_derive (Gw x) y (/ ((1 + y)^3 * (1 + x - y)^2)).
Proof. intros. unfold Gw. auto_derive; [repeat split; try lra; nra|]. simpl pow. field. repeat split; lra. Qed.
Lemma dGv : forall x y, 0 < x -> x - 1 < y -> 0 <= y -> is_derive (Gv x) y (/ ((1 + y)^3 * (1 + y - x)^2)).
Proof. intros. unfold Gv. auto_derive; [repeat split; try lra; nra|]. simpl pow. field. repeat split; lra. Qed.
Lemma dGt : forall x y, 0 < x -> 0 <= y -> is_derive (Gt x) y (/ ((1 + y)^3 * (1 + x + y)^2)).
Proof. intros. unfold Gt. auto_derive; [repeat split; try lra; nra|]. simpl pow. field. repeat split; lra. Qed.
Lemma qw : forall x a b, 0 < x -> 0 <= a <= b -> b <= x -> is_RInt (fun y => / ((1 + y)^3 * (1 + x - y)^2)) a b (Gw x b - Gw x a).
Proof.
  intros. apply ftc; [lra| |].
  - intros. apply dGw; lra.
  - intros y Hy. apply inv_cont; [auto_derive; auto|]. apply Rgt_not_eq, Rmult_lt_0_compat; apply pow_lt; lra.
Qed.
Lemma qv : forall x a b, 0 < x -> x <= a <= b -> is_RInt (fun y => / ((1 + y)^3 * (1 + y - x)^2)) a b (Gv x b - Gv x a).
Proof.
  intros. apply ftc; [lra| |].
  - intros. apply dGv; lra.
  - intros y Hy. apply inv_cont; [auto_derive; auto|]. apply Rgt_not_eq, Rmult_lt_0_compat; apply pow_lt; lra.
Qed.
Lemma qt : forall x a b, 0 < x -> 0 <= a <= b -> is_RInt (fun y => / ((1 + y)^3 * (1 + x + y)^2)) a b (Gt x b - Gt x a).
Proof.
  intros. apply ftc; [lra| |].
  - intros. apply dGt; lra.
  - intros y Hy. apply inv_cont; [auto_derive; auto|]. apply Rgt_not_eq, Rmult_lt_0_compat; apply pow_lt; lra.
Qed.
Lemma rscal : forall (f : R -> R) a b v k, is_RInt f a b v -> is_RInt (fun y => k * f y) a b (k * v).
Proof. intros. exact (is_RInt_scal (V:=R_NormedModule) f a b k v H). Qed.
Lemma hern_outer : forall x b, 0 < x <= b -> is_RInt (fun y => y * hern_f y * shell_average hern_f x y) 0 b
  (/2 * ((Gw x x - Gw x 0) + (Gv x b - Gv x x) - (Gt x b - Gt x 0))).
Proof.
  intros x b Hx.
  assert (A : is_RInt (fun y => / (1 + y)^3 * / (1 + Rabs (x - y))^2) 0 b ((Gw x x - Gw x 0) + (Gv x b - Gv x x))).
  { eapply chasles with x.
    - eapply rext; [lra| |apply qw; lra]. intros y Hy. cbv beta. rewrite Rabs_pos_eq by lra.
      rewrite inv_mult by (apply pow_nonzero; lra). f_equal. ring.
    - eapply rext; [lra| |apply qv; lra]. intros y Hy. cbv beta. rewrite Rabs_left1 by lra.
      rewrite inv_mult by (apply pow_nonzero; lra). f_equal. ring. }
  eapply rext; [lra| |exact (rscal _ _ _ _ (/2) (rminus _ _ _ _ _ _ A (qt x 0 b ltac:(lra) ltac:(lra))))].
  intros y Hy. cbv beta. rewrite hern_shell by lra. unfold hern_f.
  replace (y * (1 / (y * (1 + y)^3))) with (/ (1 + y)^3) by (field; lra).
  replace (/ ((1 + y)^3 * (1 + x + y)^2)) with (/ (1 + y)^3 * / (1 + (x + y))^2); [ring|].
  rewrite inv_mult by (apply pow_nonzero; lra). f_equal. ring.
Qed.
Lemma lim_inv_sq : forall p, is_lim (fun b => / (2 * (b + p)^2)) p_infty 0.
Proof.
  intros p. apply is_lim_ext_loc with (fun b => / 2 * (/ (b + p) * / (b + p))).
  - exists (- p). intros b Hb. field. lra.
  - replace (Finite 0) with (Finite (/2 * (0 * 0))) by (f_equal; ring). apply (is_lim_scal_l _ (/2) p_infty (0*0)).
    apply (is_lim_mult _ _ p_infty 0 0); try apply lim_inv_aff. simpl. auto.
Qed.
Lemma herninf_conv : forall x, 0 < x -> self_convolution hern_f x (herninf_l x / 4).
Proof.
  intros x Hx. unfold self_convolution.
  apply is_lim_ext_loc with (fun b => /2 * (((Gw x x - Gw x 0) - Gv x x + Gt x 0) + (Gv x b - Gt x b))).
  { exists x. intros b Hb. symmetry. rewrite (rint_u _ _ _ _ (hern_outer x b ltac:(lra))). ring. }
  eapply lim_eq.
  - apply (is_lim_scal_l _ (/2) p_infty (((Gw x x - Gw x 0) - Gv x x + Gt x 0) + 0)).
    apply is_lim_plus'; [apply is_lim_const|].
    apply is_lim_ext_loc with (fun b => (3 / x^4 * (ln (b + (1+x)) - ln (b + (1-x))) + - (4 / x^3) * / (b + 1)) + (- / x^3 * / (b + (1-x)) + - / x^3 * / (b + (1+x)))).
    { exists x. intros b Hb. unfold Gv, Gt. replace (b + (1 - x)) with (1 + b - x) by ring. replace (b + (1 + x)) with (1 + x + b) by ring. replace (b + 1) with (1 + b) by ring. field. lra. }
    replace (Finite 0) with (Finite ((3 / x^4 * 0 + - (4 / x^3) * 0) + (- / x^3 * 0 + - / x^3 * 0))) by (f_equal; ring).
    apply is_lim_plus'; apply is_lim_plus'.
    + apply (is_lim_scal_l _ (3 / x^4) p_infty 0), lim_ln_ratio.
    + apply (is_lim_scal_l _ (- (4 / x^3)) p_infty 0), lim_inv_aff.
    + apply (is_lim_scal_l _ (- / x^3) p_infty 0), lim_inv_aff.
    + apply (is_lim_scal_l _ (- / x^3) p_infty 0), lim_inv_aff.
  - unfold herninf_l, Gw, Gv, Gt. cbv zeta. replace (1 + x - x) with 1 by ring. replace (1 + x - 0) with (1 + x) by ring. replace (1 + 0) with 1 by ring. replace (1 + x + 0) with (1 + x) by ring.
    rewrite ln_1. assert (P := PI_RGT_0). req. field. repeat split; lra.
Qed.
Lemma self_conv_unique : forall f x v w, 0 < x -> self_convolution f x v -> self_convolution f x w -> v = w.
Proof.
  intros f x v w Hx A B. unfold self_convolution in *. apply is_lim_unique in A. apply is_lim_unique in B. rewrite A in B.
  injection B; intros E. apply Rmult_eq_reg_l in E; auto. assert (P := PI_RGT_0). apply Rgt_not_eq. apply Rdiv_lt_0_compat; lra.
Qed.
Lemma hern_conv_pos : forall x v, 0 < x -> self_convolution hern_f x v -> 0 < v.
Proof.
  intros x v Hx H. unfold self_convolution in H.
  set (g := fun y => y * hern_f y * shell_average hern_f x y) in *.
  assert (nn : forall y, 0 < y -> 0 < g y).
  { intros y Hy. unfold g. rewrite hern_shell by lra. destruct (shape_pos y Hy) as [[_ [F _]] _].
    apply Rmult_lt_0_compat; [now apply Rmult_lt_0_compat|]. apply Rmult_lt_0_compat; [lra|].
    assert (A : Rabs (x - y) < x + y) by (apply Rabs_def1; lra). assert (P := Rabs_pos (x - y)).
    assert (/ (1 + (x + y))^2 < / (1 + Rabs (x - y))^2); [|lra]. apply Rinv_lt_contravar.
    - apply Rmult_lt_0_compat; apply pow_lt; lra.
    - simpl. rewrite !Rmult_1_r. apply Rmult_le_0_lt_compat; lra. }
  assert (E0 : forall b, x <= b -> ex_RInt g 0 b) by (intros b Hb; eexists; apply hern_outer; lra).
  assert (E : forall a b, x <= a <= b -> ex_RInt g a b).
  { intros a b Hab. apply (ex_RInt_Chasles_2 (V:=R_CompleteNormedModule) g 0); [lra|]. apply E0; lra. }
  set (k := fun y => / (1 + y)^3 * (/2 * (/ (1 + y - x)^2 - / (1 + (x + y))^2))).
  assert (gk : forall y, x < y -> g y = k y).
  { intros y Hy. unfold g, k. rewrite hern_shell by lra. rewrite Rabs_left1 by lra. unfold hern_f.
    replace (- (x - y)) with (y - x) by ring. replace (1 + (y - x)) with (1 + y - x) by ring. field. repeat split; lra. }
  assert (I1 : 0 < RInt g 0 (2*x)).
  { rewrite <- (RInt_Chasles (V:=R_CompleteNormedModule) g 0 x (2*x)); [|apply E0; lra|apply E; lra].
    assert (G1 : 0 <= RInt g 0 x) by (apply RInt_ge_0; [lra|apply E0; lra|]; intros; left; apply nn; lra).
    assert (G2 : 0 < RInt g x (2*x)).
    { rewrite (RInt_ext g k).
      - apply RInt_gt_0; [lra| |].
        + intros y Hy. rewrite <- gk by lra. apply nn; lra.
        + intros y Hy. cont k. unfold k. auto_derive. repeat split; apply Rgt_not_eq; repeat apply Rmult_lt_0_compat; lra.
      - intros y. rewrite Rmin_left, Rmax_right by lra. intros; apply gk; lra. }
    unfold plus; simpl. lra. }
  assert (L : Rbar_le (RInt g 0 (2*x)) (x / (2 * PI) * v)).
  { apply (is_lim_le_loc (fun _ => RInt g 0 (2*x)) (fun b => RInt g 0 b) p_infty); [|apply is_lim_const|exact H].
    exists (2*x). intros b Hb. rewrite <- (RInt_Chasles (V:=R_CompleteNormedModule) g 0 (2*x) b); [|apply E0; lra|apply E; lra].
    assert (G1 : 0 <= RInt g (2*x) b) by (apply RInt_ge_0; [lra|apply E; lra|]; intros; left; apply nn; lra).
    unfold plus; simpl. lra. }
  simpl in L. assert (P := PI_RGT_0). assert (Q : 0 < x / (2 * PI)) by (apply Rdiv_lt_0_compat; lra).
  destruct (Rlt_or_le 0 v) as [|N]; auto. exfalso. nra.
Qed.
