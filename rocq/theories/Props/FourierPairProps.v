(** C149: the self-convolution of the NFW profile transforms to the square of the transform of its density. *)
From Coq Require Import Reals Lra Lia Bool Psatz String List.
From Coquelicot Require Import Coquelicot.
From Verif Require Import Model.RBool Model.SpecialFn Model.Profiles Spec.ProfileSpec Proofs.Calc Proofs.HODProofs Proofs.ExclusionProofs
  Proofs.ProfileProofs Proofs.ProfileConv Proofs.ProfileProofs2 Proofs.ProfileProofs3 Proofs.Fubini Proofs.LamFourier Props.ProfileProps Props.ProfileExamples.
Import ListNotations.
Local Open Scope R_scope.

(** the transform of a spherical function [d] of the separation, int_0^b d(r) sin(kr)/(kr) 4 pi r^2 dr *)
Definition fourier (d : R -> R) (k b v : R) : Prop := is_RInt (fun r => 4 * PI * r ^ 2 * d r * (sin (k * r) / (k * r))) 0 b v.

Lemma fourier_tail : forall d k b b' v, b <= b' -> (forall r, b < r -> d r = 0) -> fourier d k b v -> fourier d k b' v.
Proof.
  intros d k b b' v L Z H. unfold fourier in *. replace v with (v + 0) by ring. eapply chasles; [exact H|]. apply rint_zero; auto. intros r Hr. rewrite Z by lra. ring.
Qed.
Lemma fourier_density : forall f c k rs a p, 0 < k -> 0 < rs -> 0 <= c -> sine_transform f (k * rs) c p ->
  fourier (fun r => a * truncated f c (r / rs)) k (rs * c) (4 * PI * a * rs ^ 3 * p).
Proof.
  intros f c k rs a p Hk Hr Hc H. unfold fourier. apply (comp_lin _ rs) in H; auto. apply (rscal _ _ _ _ (4 * PI * a * rs ^ 3)) in H.
  eapply rext; [nra| |exact H]. intros x Hx. cbv beta. assert (L : x / rs < c).
  { apply Rmult_lt_reg_r with rs; auto. replace (x / rs * rs) with x by (field; lra). lra. }
  unfold truncated. destruct (Rle_dec (x/rs) c); [|lra]. replace (k * rs * (x / rs)) with (k * x) by (field; lra). field. lra.
Qed.
Lemma fourier_lam : forall Si Ci c k rs A, sine_cosine_integrals Si Ci -> 0 < k -> 0 < rs -> 0 < c ->
  fourier (fun r => nfw_l (r / rs) c * A) k (rs * (2 * c)) (4 * PI * A * rs ^ 3 * (4 * PI * nfw_p Si Ci (k * rs) c ^ 2)).
Proof.
  intros Si Ci c k rs A HS Hk Hr Hc. unfold fourier. assert (H := lam_transform Si Ci c (k * rs) HS Hc ltac:(nra)). apply (comp_lin _ rs) in H; auto. apply (rscal _ _ _ _ (4 * PI * A * rs ^ 3)) in H.
  eapply rext; [nra| |exact H]. intros x Hx. cbv beta. replace (k * rs * (x / rs)) with (k * x) by (field; lra). field. lra.
Qed.
Lemma lam_zero_far : forall c x, 0 < c -> 2 * c <= x -> nfw_l x c = 0.
Proof. intros c x Hc. exact (proj1 (proj2 (c44_nfw_lam_shape c Hc)) x). Qed.
Lemma lam_value : forall Si Ci o m c rs a norm r, norm = None \/ norm = Some "m"%string -> rs_from_m (NFW Si Ci) o m (Some c) None = Ok rs -> rho_s (NFW Si Ci) o c rs norm = Ok a ->
  lam (NFW Si Ci) o r m norm (Some c) "r" = Ok (nfw_l (r / rs) c * (rs ^ 3 * a ^ 2)).
Proof.
  intros Si Ci o m c rs a norm r HN R A. assert (V : get_r_variables (NFW Si Ci) o r m (Some c) "r" = Ok (c, rs, r / rs)) by (unfold get_r_variables; rewrite R; reflexivity).
  unfold lam. change (s_l (NFW Si Ci)) with (Some nfw_l). rewrite V. unfold bind at 1. rewrite <- Rmult_assoc.
  destruct HN as [-> | ->]; [|change ("m" =? "m")%string with true]; cbv iota; unfold rmap; rewrite A; reflexivity.
Qed.

(** ** C149 *)
(** For either normalisation, the transform of lam(r, m) over its support is the square of the transform of rho(r, m) over the halo;
    with norm "m" (the default) both are what u(k, m) returns. *)
Theorem c149_transform_of_lam : forall Si Ci o m c k norm, sine_cosine_integrals Si Ci -> inst_ok o -> 0 < c -> 0 < k -> norm = None \/ norm = Some "m"%string ->
  exists r_s d l w, rs_from_m (NFW Si Ci) o m (Some c) None = Ok r_s /\
    (forall r, rho (NFW Si Ci) o r m norm (Some c) "r" = Ok (d r)) /\ (forall r, lam (NFW Si Ci) o r m norm (Some c) "r" = Ok (l r)) /\
    fourier d k (r_s * c) w /\ fourier l k (2 * (r_s * c)) (w ^ 2) /\ (forall r, 2 * (r_s * c) <= r -> l r = 0) /\
    (norm = Some "m"%string -> u (NFW Si Ci) o k m norm (Some c) "k" = Ok w).
Proof.
  intros Si Ci o m c k norm HS Ho Hc Hk HN. set (s := NFW Si Ci). destruct (rs_ok o s m c Hc) as [rs [R [P _]]]. assert (PP := PI_RGT_0).
  assert (A : exists a, rho_s s o c rs norm = Ok a) by (destruct HN as [-> | ->]; eexists; reflexivity). destruct A as [a A].
  exists rs, (fun y => a * truncated nfw_f c (y / rs)), (fun r => nfw_l (r / rs) c * (rs ^ 3 * a ^ 2)), (4 * PI * a * rs ^ 3 * nfw_p Si Ci (k * rs) c).
  split; auto. split; [now apply (rho_val s)|]. split; [intros r; now apply lam_value|]. split.
  { apply fourier_density; auto; [lra|]. apply nfw_sine; auto; nra. }
  split. { replace (2 * (rs * c)) with (rs * (2 * c)) by ring. eapply rint_eq; [now apply (fourier_lam Si Ci)|]. req. ring. }
  split. { intros r Hr. rewrite lam_zero_far; [ring|auto|]. apply Rmult_le_reg_r with rs; auto. replace (r / rs * rs) with r by (field; lra). lra. }
  intros ->. unfold u, get_k_variables. change (s_inf s) with false. rewrite R. simpl. f_equal. simpl in A. injection A as <-.
  assert (HP : 0 < nfw_h c). { destruct (c37_mass_function_positive_increasing Si Ci (fun _ _ => 0) (NFW Si Ci) (or_introl eq_refl)) as [Q _]. now apply Q. }
  change (s_h s c) with (nfw_h c). field. repeat split; lra.
Qed.
Print Assumptions c149_transform_of_lam.

Lemma lam_moment_ex : forall c, 0 < c -> ex_RInt (fun s => s * (s * nfw_l s c)) 0 (2 * c).
Proof.
  intros c Hc. assert (PP := PI_RGT_0). apply ex_RInt_ext with (fun s => 2 * PI * s * RInt (fun y => Gn y * (Vn c (s + y) - Vn c (s - y))) 0 c).
  - intros s. rewrite Rmin_left, Rmax_right by lra. intros Hs. rewrite lam_kernel by lra. req. field. lra.
  - apply ex_cont. intros s. apply (continuous_mult (K:=R_AbsRing)); [apply (ex_derive_continuous (fun s => 2 * PI * s)); auto_derive; auto|].
    apply (param_cont (fun s y => Gn y * (Vn c (s + y) - Vn c (s - y))) 0 c s ltac:(lra)). intros u v. apply continuity_2d_pt_filterlim.
    assert (F1 : continuous (fun z : R * R => fst z) (u, v)) by apply continuous_fst. assert (F2 : continuous (fun z : R * R => snd z) (u, v)) by apply continuous_snd.
    apply (continuous_mult (K:=R_AbsRing) (fun z : R * R => Gn (snd z))).
    + apply (continuous_comp (fun z : R * R => snd z) Gn); auto. apply Gn_cont.
    + apply (continuous_minus (V:=R_NormedModule) (fun z : R * R => Vn c (fst z + snd z)) (fun z => Vn c (fst z - snd z))).
      * apply (continuous_comp (fun z : R * R => fst z + snd z) (Vn c)); [|now apply Vn_cont]. now apply (continuous_plus (V:=R_NormedModule) (fun z : R * R => fst z) (fun z => snd z)).
      * apply (continuous_comp (fun z : R * R => fst z - snd z) (Vn c)); [|now apply Vn_cont]. now apply (continuous_minus (V:=R_NormedModule) (fun z : R * R => fst z) (fun z => snd z)).
Qed.
Lemma small_zero : forall a b, 0 <= b -> (forall K, 0 < K < 1 -> Rabs a <= b * K ^ 2) -> a = 0.
Proof.
  intros a b Hb H. destruct (Req_dec a 0) as [E|E]; auto. exfalso. assert (P := Rabs_pos_lt a E).
  set (K := Rmin (1/2) (Rabs a / (2 * (b + 1)))). assert (Q : 0 < Rabs a / (2 * (b + 1))) by (apply Rdiv_lt_0_compat; lra).
  assert (K1 : 0 < K) by (unfold K; apply Rmin_glb_lt; lra). assert (K2 : K <= 1/2) by apply Rmin_l. assert (K3 : K <= Rabs a / (2 * (b + 1))) by apply Rmin_r.
  specialize (H K ltac:(lra)). assert (B : K * (2 * (b + 1)) <= Rabs a). { apply Rmult_le_compat_r with (r := 2 * (b + 1)) in K3; [|lra]. replace (Rabs a / (2 * (b + 1)) * (2 * (b + 1))) with (Rabs a) in K3 by (field; lra). exact K3. }
  assert (b * K ^ 2 <= b * K) by (apply Rmult_le_compat_l; auto; nra). nra.
Qed.
Lemma lam_moment : forall Si Ci c, sine_cosine_integrals Si Ci -> 0 < c -> is_RInt (fun s => s * (s * nfw_l s c)) 0 (2 * c) (4 * PI * nfw_h c ^ 2).
Proof.
  intros Si Ci c HS Hc. assert (PP := PI_RGT_0). assert (E := lam_moment_ex c Hc). set (J := RInt (fun s => s * (s * nfw_l s c)) 0 (2 * c)).
  assert (EJ : is_RInt (fun s => s * (s * nfw_l s c)) 0 (2 * c) J) by (apply (RInt_correct (V:=R_CompleteNormedModule)); auto).
  set (H := nfw_h c). destruct (good_all Si Ci (fun _ _ => 0) (NFW Si Ci) (or_introl eq_refl)) as [G _].
  assert (HP : 0 < H) by (change H with (s_h (NFW Si Ci) c); now apply good_pos).
  assert (JP : 0 <= J). { unfold J. apply RInt_ge_0; [lra|auto|]. intros s Hs. assert (0 <= nfw_l s c) by (apply nfw_l_nonneg; lra). apply Rmult_le_pos; [lra|]. apply Rmult_le_pos; lra. }
  assert (D : J - 4 * PI * H ^ 2 = 0); [|eapply rint_eq; [exact EJ|lra]].
  assert (HH : 0 < H ^ 2) by (apply pow_lt; auto). assert (CC : 0 < c ^ 2) by (apply pow_lt; auto).
  assert (P1 : 0 <= c ^ 2 * J) by (apply Rmult_le_pos; lra). assert (P2 : 0 <= PI * (c ^ 2 * H ^ 2)) by (apply Rmult_le_pos; [lra|]; apply Rmult_le_pos; lra).
  apply (small_zero _ (4 * c ^ 2 / 6 * J + 4 * PI * (2 * (c ^ 2 / 6) * H ^ 2))).
  { lra. }
  intros K HK. set (p := nfw_p Si Ci K c). assert (LT := lam_transform Si Ci c K HS Hc ltac:(lra)). fold p in LT.
  assert (MI : mass_integral nfw_f c H) by exact (c37_mass_function_is_the_integral Si Ci (fun _ _ => 0) (NFW Si Ci) c (or_introl eq_refl) ltac:(lra)).
  destruct (sine_bounds nfw_f c K H p ltac:(intros x Hx; apply (proj1 (proj2 G)); auto) ltac:(lra) ltac:(lra) MI (nfw_sine Si Ci HS K c ltac:(lra) ltac:(lra))) as [[B1 B2] B3].
  assert (K2 : 0 <= K ^ 2) by apply pow2_ge_0.
  assert (PB : H ^ 2 - 2 * ((K * c) ^ 2 / 6) * H ^ 2 <= p ^ 2 <= H ^ 2).
  { set (x := (K * c) ^ 2 / 6) in *. assert (0 <= x) by (unfold x; assert (0 <= (K * c) ^ 2) by apply pow2_ge_0; lra). split; [|nra].
    destruct (Rle_dec x 1) as [L|L]; [|assert (0 <= p ^ 2) by apply pow2_ge_0; nra]. assert (H * (1 - x) * (H * (1 - x)) <= p * p) by (apply Rmult_le_compat; try apply Rmult_le_pos; lra). nra. }
  assert (UB : 4 * PI * p ^ 2 <= J).
  { apply (is_RInt_le (fun s => s * nfw_l s c * (sin (K * s) / K)) (fun s => s * (s * nfw_l s c)) 0 (2 * c)); auto; [lra|].
    intros s Hs. assert (0 <= nfw_l s c) by (apply nfw_l_nonneg; lra). assert (sin (K * s) / K <= s). { apply Rmult_le_reg_r with K; [lra|]. replace (sin (K * s) / K * K) with (sin (K * s)) by (field; lra). assert (Q := sin_le_id (K * s) ltac:(nra)). lra. }
    assert (0 <= s * nfw_l s c) by (apply Rmult_le_pos; lra). nra. }
  assert (LB : (1 - (2 * c * K) ^ 2 / 6) * J <= 4 * PI * p ^ 2).
  { apply (is_RInt_le (fun s => (1 - (2 * c * K) ^ 2 / 6) * (s * (s * nfw_l s c))) (fun s => s * nfw_l s c * (sin (K * s) / K)) 0 (2 * c)); auto; [lra|now apply rscal|].
    intros s Hs. assert (0 <= nfw_l s c) by (apply nfw_l_nonneg; lra). assert (Q := sin_ge_cubic (K * s) ltac:(nra)).
    assert ((1 - (2 * c * K) ^ 2 / 6) * s <= sin (K * s) / K). { apply Rmult_le_reg_r with K; [lra|]. replace (sin (K * s) / K * K) with (sin (K * s)) by (field; lra). apply Rle_trans with (2 := Q).
      assert ((K * s) ^ 3 <= K * s * (2 * c * K) ^ 2); [|nra]. replace ((K * s) ^ 3) with (K * s * (K * s) ^ 2) by ring. apply Rmult_le_compat_l; [nra|]. apply pow_incr. nra. }
    assert (0 <= s * nfw_l s c) by (apply Rmult_le_pos; lra). nra. }
  apply Rabs_le. replace ((2 * c * K) ^ 2) with (4 * c ^ 2 * K ^ 2) in LB by ring. replace ((K * c) ^ 2) with (c ^ 2 * K ^ 2) in PB by ring.
  assert (M1 : 4 * PI * (H ^ 2 - 2 * (c ^ 2 * K ^ 2 / 6) * H ^ 2) <= 4 * PI * p ^ 2) by (apply Rmult_le_compat_l; lra).
  assert (M2 : 4 * PI * p ^ 2 <= 4 * PI * H ^ 2) by (apply Rmult_le_compat_l; lra).
  assert (P3 : 0 <= K ^ 2 * (c ^ 2 * J)) by (apply Rmult_le_pos; lra). assert (P4 : 0 <= K ^ 2 * (PI * (c ^ 2 * H ^ 2))) by (apply Rmult_le_pos; lra).
  split; lra.
Qed.
(** With norm "m" the self-convolution integrates to 1 over its support: the pairs of a halo are all within twice its radius. *)
Theorem c149_lam_counts_every_pair : forall Si Ci o m c, sine_cosine_integrals Si Ci -> inst_ok o -> 0 < c ->
  exists r_s l, rs_from_m (NFW Si Ci) o m (Some c) None = Ok r_s /\ (forall r, lam (NFW Si Ci) o r m (Some "m"%string) (Some c) "r" = Ok (l r)) /\
    is_RInt (fun r => 4 * PI * r ^ 2 * l r) 0 (2 * (r_s * c)) 1.
Proof.
  intros Si Ci o m c HS Ho Hc. set (s := NFW Si Ci). destruct (rs_ok o s m c Hc) as [rs [R [P _]]]. assert (PP := PI_RGT_0).
  set (a := 1 / (4 * PI * rs ^ 3 * nfw_h c)). assert (A : rho_s s o c rs (Some "m"%string) = Ok a) by reflexivity.
  assert (HP : 0 < nfw_h c). { destruct (c37_mass_function_positive_increasing Si Ci (fun _ _ => 0) (NFW Si Ci) (or_introl eq_refl)) as [Q _]. now apply Q. }
  exists rs, (fun r => nfw_l (r / rs) c * (rs ^ 3 * a ^ 2)). split; auto. split; [intros r; apply lam_value; auto|].
  assert (M := lam_moment Si Ci c HS Hc). apply (comp_lin _ rs) in M; auto. apply (rscal _ _ _ _ (4 * PI * rs ^ 3 * (rs ^ 3 * a ^ 2))) in M.
  replace (2 * (rs * c)) with (rs * (2 * c)) by ring. eapply rint_eq; [eapply rext; [nra| |exact M]|].
  - intros x Hx. cbv beta. field. lra.
  - unfold a. req. field. repeat split; lra.
Qed.
Print Assumptions c149_lam_counts_every_pair.
(** the hypotheses are met: the sine and cosine integrals exist (c38), c = 10, k = 1 *)
Example c149_met : exists Si Ci, sine_cosine_integrals Si Ci /\ inst_ok ex_inst /\ 0 < 10 /\ 0 < 1.
Proof. destruct sici_exist as [Si [Ci [HS _]]]. exists Si, Ci. split; auto. split; [apply ex_inst_ok|]. lra. Qed.
