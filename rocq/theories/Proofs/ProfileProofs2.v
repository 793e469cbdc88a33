From Coq Require Import Reals Lra Lia Bool Psatz String List.
From Coquelicot Require Import Coquelicot.
From Verif Require Import Model.RBool Model.SpecialFn Model.Profiles Spec.ProfileSpec Proofs.Calc Proofs.HODProofs Proofs.ExclusionProofs Proofs.ProfileProofs Proofs.ProfileConv.
Import ListNotations.
Local Open Scope R_scope.

(** * shape facts *)
Definition good_shape (s : shape) : Prop :=
  (forall c, 0 <= c -> mass_integral (s_f s) c (s_h s c)) /\
  (forall x, 0 < x -> 0 < s_f s x) /\
  (forall a b, 0 <= a < b -> s_h s a < s_h s b).
Lemma h0 : forall f h, (forall c, 0 <= c -> mass_integral f c (h c)) -> h 0 = 0.
Proof.
  intros. assert (A := H 0 ltac:(lra)). apply rint_u in A. rewrite <- A. exact (RInt_point (V:=R_CompleteNormedModule) 0 _).
Qed.
Lemma good_intro : forall s, (forall c, 0 <= c -> mass_integral (s_f s) c (s_h s c)) -> (forall x, 0 < x -> 0 < s_f s x) ->
  (forall x, 0 < x -> continuous (s_f s) x) -> good_shape s.
Proof. intros. repeat split; auto. intros. eapply mass_incr; eauto. Qed.
Lemma good_pos : forall s c, good_shape s -> 0 < c -> 0 < s_h s c.
Proof. intros s c [H [_ I]] Hc. rewrite <- (h0 _ _ H). apply I. lra. Qed.
Lemma good_all : forall Si Ci p s, In s [NFW Si Ci; Hernquist Si Ci; CoredNFW Si Ci; ConstantProfile; Moore p] -> good_shape s /\ s_inf s = false.
Proof.
  intros Si Ci p s H. simpl in H.
  assert (P := shape_pos).
  destruct H as [<-|[<-|[<-|[<-|[<-|[]]]]]]; (split; [|reflexivity]); apply good_intro; simpl; intros; try (now apply P);
    auto using nfw_mass, hern_mass, cored_mass, const_mass, moore_mass.
Qed.

(** * mass and radius *)
Definition inst_ok (o : inst) : Prop := 0 < delta_halo o /\ 0 < mean_dens o /\ 0 < mean_density0 o.
Section Inst.
  Variable o : inst.
  Hypothesis Ho : inst_ok o.
  Definition dens (b : bool) := if b then mean_dens o else mean_density0 o.
  Lemma dens_pos : forall b, 0 < dens b.
  Proof. destruct Ho as [A [B C]]. intros []; auto. Qed.
  Lemma arg_pos : forall m b, 0 < m -> 0 < 3 * m / (4 * PI * delta_halo o * dens b).
  Proof. intros. assert (P := PI_RGT_0). destruct Ho as [A _]. assert (D := dens_pos b). apply Rdiv_lt_0_compat; [lra|]. apply Rmult_lt_0_compat; auto. apply Rmult_lt_0_compat; auto. lra. Qed.
  Lemma hmr_pos : forall m b, 0 < halo_mass_to_radius o m b.
  Proof. intros. apply exp_pos. Qed.
  Lemma hmr_cube : forall m b, 0 < m -> halo_mass_to_radius o m b ^ 3 = 3 * m / (4 * PI * delta_halo o * dens b).
  Proof.
    intros. unfold halo_mass_to_radius. fold (dens b). rewrite <- Rpower_pow by apply exp_pos. rewrite Rpower_mult.
    replace (1/3 * INR 3) with 1 by (simpl; field). apply Rpower_1. now apply arg_pos.
  Qed.
  Lemma hrm_hmr : forall m b, 0 < m -> halo_radius_to_mass o (halo_mass_to_radius o m b) b = m.
  Proof.
    intros. unfold halo_radius_to_mass. rewrite hmr_cube by auto. fold (dens b). assert (P := PI_RGT_0). destruct Ho as [A _]. assert (D := dens_pos b).
    field. repeat split; lra.
  Qed.
  Lemma hmr_hrm : forall r b, 0 < r -> halo_mass_to_radius o (halo_radius_to_mass o r b) b = r.
  Proof.
    intros. unfold halo_mass_to_radius, halo_radius_to_mass. fold (dens b). assert (P := PI_RGT_0). destruct Ho as [A _]. assert (D := dens_pos b).
    replace (3 * (4 * PI * r ^ 3 * delta_halo o * dens b / 3) / (4 * PI * delta_halo o * dens b)) with (r ^ 3) by (field; repeat split; lra).
    rewrite <- Rpower_pow by auto. rewrite Rpower_mult. replace (INR 3 * (1/3)) with 1 by (simpl; field). now apply Rpower_1.
  Qed.
  Lemma hmr_incr : forall m m' b, 0 < m < m' -> halo_mass_to_radius o m b < halo_mass_to_radius o m' b.
  Proof.
    intros. unfold halo_mass_to_radius. fold (dens b). apply Rlt_Rpower_l; [lra|]. split; [now apply arg_pos|].
    assert (P := PI_RGT_0). destruct Ho as [A _]. assert (D := dens_pos b).
    apply Rmult_lt_compat_r; [|lra]. apply Rinv_0_lt_compat. apply Rmult_lt_0_compat; auto. apply Rmult_lt_0_compat; auto. lra.
  Qed.
  Lemma bloat_pos : forall m, 0 < bloat o m.
  Proof. intros; apply exp_pos. Qed.
  Lemma base_rs_pos : forall m c b, 0 < c -> 0 < base_rs o m c b.
  Proof. intros. unfold base_rs. apply Rdiv_lt_0_compat; auto. apply Rmult_lt_0_compat; [apply hmr_pos|apply bloat_pos]. Qed.
  Definition conc (s : shape) (m : R) (c : option R) : R := match c with None => cm_relation s o m | Some c => c end.
  Lemma rs_ok : forall s m c, 0 < c -> exists r_s, rs_from_m s o m (Some c) None = Ok r_s /\ 0 < r_s /\
     (s_moore s = false -> r_s * c = halo_mass_to_radius o m false * bloat o m).
  Proof.
    intros s m c Hc. unfold rs_from_m. assert (B := base_rs_pos m c false Hc). destruct (s_moore s).
    - eexists; split; [reflexivity|]. split; [|discriminate]. apply Rdiv_lt_0_compat; [now apply Rmult_lt_0_compat|apply exp_pos].
    - eexists; split; [reflexivity|]. split; auto. intros _. unfold base_rs. field. lra.
  Qed.
End Inst.

(** * density *)
Lemma rho_val : forall s o m c rs norm a, s_inf s = false -> rs_from_m s o m (Some c) None = Ok rs -> rho_s s o c rs norm = Ok a -> forall r,
  rho s o r m norm (Some c) "r" = Ok (a * truncated (s_f s) c (r / rs)).
Proof.
  intros s o m c rs norm a I R A r. unfold rho, get_r_variables. rewrite R. simpl. rewrite A. simpl. rewrite I. f_equal. unfold truncated.
  destruct (Rltb c (r / rs)) eqn:L.
  - apply Rltb_spec in L. destruct (Rle_dec (r/rs) c); [lra|ring].
  - apply Rltb_false in L. destruct (Rle_dec (r/rs) c); [ring|lra].
Qed.
Lemma rho_val_inf : forall s o m c rs norm a, s_inf s = true -> rs_from_m s o m (Some c) None = Ok rs -> rho_s s o c rs norm = Ok a -> forall r,
  rho s o r m norm (Some c) "r" = Ok (a * s_f s (r / rs)).
Proof. intros s o m c rs norm a I R A r. unfold rho, get_r_variables. rewrite R. simpl. rewrite A. simpl. rewrite I. f_equal. ring. Qed.
Lemma comp_lin : forall (f : R -> R) rs b v, 0 < rs -> is_RInt f 0 b v -> is_RInt (fun y => / rs * f (y / rs)) 0 (rs * b) v.
Proof.
  intros f rs b v Hr H. assert (A := is_RInt_comp_lin (V:=R_NormedModule) f (/rs) 0 0 (rs * b) v).
  replace (/ rs * 0 + 0) with 0 in A by ring. replace (/ rs * (rs * b) + 0) with b in A by (field; lra). specialize (A H).
  eapply is_RInt_ext; [|exact A]. intros x _. unfold scal; simpl. unfold mult; simpl. f_equal. f_equal. field. lra.
Qed.
Lemma mass_scale : forall f c h rs a, 0 <= c -> 0 < rs -> mass_integral f c h ->
  is_RInt (fun r => 4 * PI * r ^ 2 * (a * truncated f c (r / rs))) 0 (rs * c) (4 * PI * a * rs ^ 3 * h).
Proof.
  intros f c h rs a Hc Hr H. unfold mass_integral in H. apply (comp_lin _ rs) in H; auto. apply (rscal _ _ _ _ (4 * PI * a * rs ^ 3)) in H.
  eapply rext; [nra| |exact H]. intros x Hx. cbv beta. assert (L : x / rs < c).
  { apply Rmult_lt_reg_r with rs; auto. replace (x / rs * rs) with x by (field; lra). lra. }
  unfold truncated. destruct (Rle_dec (x/rs) c); [|lra]. field. lra.
Qed.

(** * scaling of self-convolutions *)
Lemma shell_scale : forall (g I : R -> R) a rs x y, 0 < rs -> (forall t, 0 <= t -> is_RInt (fun z => z * g z) 0 t (I t)) -> 0 < x -> 0 <= y ->
  shell_average (fun z => a * g (z / rs)) (rs * x) (rs * y) = a * rs ^ 2 * shell_average g x y.
Proof.
  intros g I a rs x y Hr HI Hx Hy.
  assert (S : forall t, 0 <= t -> is_RInt (fun z => z * (a * g (z / rs))) 0 (rs * t) (a * rs ^ 2 * I t)).
  { intros t Ht. eapply rext; [nra| |exact (rscal _ _ _ _ (a * rs ^ 2) (comp_lin _ rs _ _ Hr (HI t Ht)))]. intros z Hz. cbv beta. field. lra. }
  unfold shell_average.
  replace (Rabs (rs * x - rs * y)) with (rs * Rabs (x - y)) by (rewrite <- Rmult_minus_distr_l, Rabs_mult, (Rabs_pos_eq rs); lra).
  replace (rs * x + rs * y) with (rs * (x + y)) by ring.
  rewrite (rint_swap_diff _ _ _ _ _ (S (Rabs (x - y)) (Rabs_pos _)) (S (x + y) ltac:(lra))).
  rewrite (rint_swap_diff _ _ _ _ _ (HI (Rabs (x - y)) (Rabs_pos _)) (HI (x + y) ltac:(lra))). ring.
Qed.
Lemma outer_scale : forall (g I : R -> R) a rs x b v, 0 < rs -> (forall t, 0 <= t -> is_RInt (fun z => z * g z) 0 t (I t)) -> 0 < x -> 0 <= b ->
  is_RInt (fun y => y * g y * shell_average g x y) 0 b v ->
  is_RInt (fun y => y * (a * g (y / rs)) * shell_average (fun z => a * g (z / rs)) (rs * x) y) 0 (rs * b) (a ^ 2 * rs ^ 4 * v).
Proof.
  intros g I a rs x b v Hr HI Hx Hb H. eapply rext; [nra| |exact (rscal _ _ _ _ (a^2 * rs^4) (comp_lin _ rs _ _ Hr H))].
  intros y Hy. cbv beta. replace y with (rs * (y / rs)) at 3 by (field; lra).
  rewrite (shell_scale g I) by (auto; apply Rlt_le, Rdiv_lt_0_compat; lra). field. lra.
Qed.

(** * Moore: no further facts needed *)

(** * numerical transform *)
Lemma upd_same : forall a i v, upd a i v i = v.
Proof. intros. unfold upd. now rewrite Nat.eqb_refl. Qed.
Lemma upd_other : forall a i v j, j <> i -> upd a i v j = a j.
Proof. intros. unfold upd. destruct (Nat.eqb j i) eqn:E; auto. apply Nat.eqb_eq in E. contradiction. Qed.
Lemma loop_frame : forall quad c order prev res j, ~ In j order -> numeric_p_loop quad c prev order res j = res j.
Proof.
  induction order as [|i rest IH]; intros prev res j N; simpl; auto. rewrite IH.
  - apply upd_other. intros ->. apply N. now left.
  - intros H. apply N. now right.
Qed.
Lemma loop_inv : forall quad c, (forall a b d, quad a b + quad b d = quad a d) -> forall order prev res, NoDup order ->
  (forall q, prev = Some q -> res q = quad 0 (c q) /\ ~ In q order) ->
  forall j, In j order -> numeric_p_loop quad c prev order res j = quad 0 (c j).
Proof.
  intros quad c Q. induction order as [|i rest IH]; intros prev res ND HP j Hj; [destruct Hj|].
  inversion ND as [|? ? N1 N2]; subst. simpl.
  set (v := match prev with None => _ | Some q => _ end).
  assert (V : v = quad 0 (c i)).
  { unfold v. destruct prev as [q|]; auto. destruct (HP q eq_refl) as [E _]. rewrite E. apply Q. }
  destruct (in_dec Nat.eq_dec j rest) as [J|J].
  - apply IH; auto. intros q Hq. injection Hq as <-. rewrite upd_same. auto.
  - destruct Hj as [<-|Hj]; [|contradiction]. rewrite loop_frame by auto. rewrite upd_same. exact V.
Qed.

(** * np.repeat *)
Lemma np_repeat_len : forall c n, length (np_repeat c n) = (length c * n)%nat.
Proof. induction c; intros; simpl; auto. unfold np_repeat in *; simpl. rewrite app_length, repeat_length, IHc. reflexivity. Qed.
Lemma np_repeat_nth : forall c n k, (k < length c * n)%nat -> nth k (np_repeat c n) 0 = nth (k / n) c 0.
Proof.
  induction c as [|a c IH]; intros n k H; simpl in H; [lia|]. unfold np_repeat; simpl. fold (np_repeat c n).
  assert (n <> 0)%nat by nia.
  destruct (lt_dec k n) as [L|L].
  - rewrite app_nth1 by (rewrite repeat_length; auto). rewrite Nat.div_small by auto. 
    rewrite nth_indep with (d' := a) by (rewrite repeat_length; auto). apply nth_repeat.
  - rewrite app_nth2 by (rewrite repeat_length; lia). rewrite repeat_length. rewrite IH by lia.
    replace k with (1 * n + (k - n))%nat at 2 by lia. rewrite Nat.div_add_l by auto. reflexivity.
Qed.
