(** Array arguments of the profile methods (C120, C121): profiles.py:240-506, 689-725. *)
From Coq Require Import Reals Bool String List Arith Lia Lra Permutation.
From Verif Require Import Model.RBool Model.Profiles Model.ProfileArrays Spec.ArraySpec Proofs.ExtSplineProofs Proofs.ArrayProofs Props.ProfileProps2.
From Verif Require Model.IntegrateCorr Proofs.IntegrateProofs Proofs.GridProofs.
Import ListNotations.
Local Open Scope R_scope.

Definition good_norm (norm : option string) : Prop := norm = None \/ norm = Some "m"%string \/ norm = Some "rho"%string.
Definition good_conc (m : arg) (c : option arg) : Prop := match c with None => True | Some c => same_shape c m end.
Definition arr_conc (c : option arg) : option arr := option_map to_arr c.
(** the concentration argument for one halo *)
Definition conc_elt (c : option arg) (j : nat) : option R := option_map (fun a => elt a j) c.

Definition rank_arg (a : arg) : nat := match a with Num _ => 0 | Arr _ _ => 1 end.
Lemma like_arg : forall a, like (to_arr a) (rank_arg a) 1 (size a) (fun _ j => elt a j).
Proof. intros [x|n f]; simpl; [apply like_sc|apply like_v1]. Qed.

Section P.
  Variables (s : shape) (o : inst).
  Definition C_el (m : arg) (c : option arg) (j : nat) : R := match c with None => cm_relation s o (elt m j) | Some c => elt c j end.
  Definition RS_el (m : arg) (c : option arg) (j : nat) : R := rs_el s o (elt m j) (C_el m c j).
  Lemma conc_like : forall m c, good_conc m c -> like (conc_of s o (to_arr m) (arr_conc c)) (rank_arg m) 1 (size m) (fun _ j => C_el m c j).
  Proof.
    intros m c H. destruct c as [c|]; simpl.
    - assert (E : rank_arg c = rank_arg m /\ size c = size m). { simpl in H. destruct c, m; simpl in *; try tauto; auto. } destruct E as [E1 E2]. rewrite <- E1, <- E2. apply like_arg.
    - apply (like_map (cm_relation s o) _ _ _ _ _ (like_arg m)).
  Qed.
  Lemma row_ufunc : forall op a b rk p F G, like a rk 1 p F -> like b rk 1 p G -> exists t, ufunc2 op a b = Ok t /\ like t rk 1 p (fun i j => op (F 0%nat j) (G 0%nat j)).
  Proof.
    intros op a b rk p F G A B. destruct (like_ufunc2 op a b _ _ _ _ _ _ _ _ _ _ A B (bdim_refl 1) (bdim_refl p)) as [t [E L]]. exists t. split; auto.
    rewrite Nat.max_id in L. eapply like_ext; [exact L|]. intros i j Hi Hj. cbv beta. rewrite !bidx_1, !(bidx_lt p) by lia. reflexivity.
  Qed.
  Lemma rs_like : forall m c, good_conc m c -> exists t, ufunc2 (rs_el s o) (to_arr m) (conc_of s o (to_arr m) (arr_conc c)) = Ok t /\ like t (rank_arg m) 1 (size m) (fun _ j => RS_el m c j).
  Proof. intros m c H. exact (row_ufunc (rs_el s o) _ _ _ _ _ _ (like_arg m) (conc_like m c H)). Qed.

  (** the amplitude for one halo *)
  Definition amp (norm : option string) (c r_s : R) : R :=
    match norm with
    | None => c ^ 3 * delta_halo o * mean_dens o / (3 * s_h s c)
    | Some n => if (n =? "m")%string then 1 / (4 * PI * r_s ^ 3 * s_h s c) else c ^ 3 * delta_halo o / (3 * s_h s c)
    end.
  Lemma amp_scalar : forall norm c r_s, good_norm norm -> rho_s s o c r_s norm = Ok (amp norm c r_s).
  Proof. intros norm c r_s [-> |[-> | ->]]; reflexivity. Qed.
  Lemma amp_arr : forall norm ca ra rk p C RS, good_norm norm -> like ca rk 1 p (fun _ j => C j) -> like ra rk 1 p (fun _ j => RS j) ->
    exists t, rho_s_arr s o ca ra norm = Ok t /\ like t (red_rank p) 1 p (fun _ j => amp norm (C j) (RS j)).
  Proof.
    intros norm ca ra rk p C RS [-> |[-> | ->]] LC LR; unfold rho_s_arr, amp;
      [|change (("m" =? "m")%string) with true; cbv iota|change (("rho" =? "m")%string) with false; change (("rho" =? "rho")%string) with true; cbv iota].
    - eexists. split; [reflexivity|]. apply (like_reduce_row _ _ _ _ (like_map (fun c => c ^ 3 * delta_halo o * mean_dens o / (3 * s_h s c)) _ _ _ _ _ LC)).
    - destruct (row_ufunc (fun r_s c => 1 / (4 * PI * r_s ^ 3 * s_h s c)) _ _ _ _ _ _ LR LC) as [t [E L]]. rewrite E. eexists. split; [reflexivity|]. exact (like_reduce_row _ _ _ _ L).
    - eexists. split; [reflexivity|]. apply (like_reduce_row _ _ _ _ (like_map (fun c => c ^ 3 * delta_halo o / (3 * s_h s c)) _ _ _ _ _ LC)).
  Qed.
  (** the density for one scaled radius *)
  Definition dens (norm : option string) (x c r_s : R) : R :=
    if s_inf s then s_f s x * amp norm c r_s else if Rltb c x then 0 else s_f s x * amp norm c r_s.

  (** everything rho does after _get_r_variables *)
  Definition finish (x c r_s : arr) (norm : option string) (constf : bool) : res arr :=
    bind (rho_s_arr s o c r_s norm) (fun a => bind (ufunc2 Rmult (f_arr s constf x) a) (fun rho => if s_inf s then Ok (reduce rho) else rmap reduce (zero_where rho x c))).
  Lemma finish_ok : forall x ca ra norm rk p rx nx px q C RS X, good_norm norm ->
    like ca rk 1 p (fun _ j => C j) -> like ra rk 1 p (fun _ j => RS j) -> like x rx nx px X -> bdim px p = Some q ->
    (s_inf s = true \/ (Nat.max rx (red_rank p) = Nat.max rx rk /\ Nat.max rx rk <> 0%nat)) ->
    exists t, finish x ca ra norm false = Ok t /\ is_table t nx q (fun i j => dens norm (X i (bidx px j)) (C (bidx p j)) (RS (bidx p j))).
  Proof.
    intros x ca ra norm rk p rx nx px q C RS X Hn LC LR LX B Hs. unfold finish. destruct (amp_arr norm ca ra rk p C RS Hn LC LR) as [a [E LA]]. rewrite E. simpl bind.
    destruct (like_ufunc2 Rmult _ _ _ _ _ _ _ _ _ _ _ _ (like_map (s_f s) _ _ _ _ _ LX) LA (bdim_1r nx) B) as [t [E2 LT]]. unfold f_arr. rewrite E2. simpl bind. unfold dens.
    destruct (s_inf s) eqn:I.
    - eexists. split; [reflexivity|]. eapply table_ext; [exact (like_reduce _ _ _ _ _ LT)|]. intros i j Hi Hj. cbv beta. rewrite (bidx_lt nx) by auto. reflexivity.
    - destruct Hs as [Hs|[H1 H2]]; [discriminate|]. unfold zero_where.
      destruct (like_ufunc2 (fun u v => if Rltb v u then 1 else 0) _ _ _ _ _ _ _ _ _ _ _ _ LX LC (bdim_1r nx) B) as [mk [E3 LM]]. rewrite E3. simpl bind.
      destruct LT as [T1 [T2 [T3 T4]]]. destruct LM as [M1 [M2 [M3 M4]]]. rewrite T1, T2, T3, M1, M2, M3, H1, !Nat.eqb_refl. simpl. destruct (Nat.max rx rk) as [|k] eqn:K; [congruence|].
      eexists. split; [reflexivity|]. eapply table_ext.
      + apply like_reduce with (rk := S k) (F := fun i j => if Reqb (ent mk i j) 1 then 0 else ent t i j). unfold like. simpl. auto.
      + intros i j Hi Hj. cbv beta. rewrite M4, T4 by auto. cbv beta. rewrite (bidx_lt nx) by auto. destruct (Rltb _ _).
        * replace (Reqb 1 1) with true; auto. symmetry. now apply Reqb_spec.
        * replace (Reqb 0 1) with false; auto. symmetry. apply Reqb_false. lra.
  Qed.
  (** the scalar functions of Model/Profiles.v in terms of the element functions *)
  Lemma rs_scalar : forall m c, rs_from_m s o m (Some c) None = Ok (rs_el s o m c).
  Proof. intros. unfold rs_from_m, rs_el. destruct (s_moore s); reflexivity. Qed.
  Lemma conc_scalar : forall m c j, match conc_elt c j with None => cm_relation s o (elt m j) | Some v => v end = C_el m c j.
  Proof. intros m [c|] j; reflexivity. Qed.
  Definition xof (coord : string) (r c r_s : R) : R := if (coord =? "r")%string then r / r_s else if (coord =? "x")%string then r else r * c.
  Lemma rho_scalar : forall r m norm c coord j, good_norm norm -> (coord = "r" \/ coord = "x" \/ coord = "s")%string ->
    rho s o r (elt m j) norm (conc_elt c j) coord = Ok (dens norm (xof coord r (C_el m c j) (RS_el m c j)) (C_el m c j) (RS_el m c j)).
  Proof.
    intros r m norm c coord j Hn Hc. unfold rho, get_r_variables. rewrite conc_scalar. rewrite rs_scalar. simpl bind. fold (RS_el m c j).
    destruct Hc as [-> |[-> | ->]]; simpl; rewrite amp_scalar by auto; simpl; unfold dens; destruct (s_inf s); reflexivity.
  Qed.

  (** *** C120 *)
  (** radii in physical units: the table of the densities of each halo at each radius, unless both arguments are
      single numbers (for truncated profiles) *)
  Theorem c120_rho_table : forall r m norm c, good_norm norm -> good_conc m c -> s_inf s = true \/ arg_is_num r && arg_is_num m = false ->
    exists t F, rho_arr s o false (to_arr r) (to_arr m) norm (arr_conc c) "r" = Ok t /\ is_table t (size r) (size m) F /\
      forall i j, (i < size r)%nat -> (j < size m)%nat -> rho s o (elt r i) (elt m j) norm (conc_elt c j) "r" = Ok (F i j).
  Proof.
    intros r m norm c Hn Hc Hx. unfold rho_arr, get_r_arr. destruct (rs_like m c Hc) as [ra [E LR]]. rewrite E. simpl bind. assert (LC := conc_like m c Hc). fold (finish (divide_outer (to_arr r) ra) (conc_of s o (to_arr m) (arr_conc c)) ra norm false).
    set (F := fun i j => dens norm (xof "r" (elt r i) (C_el m c j) (RS_el m c j)) (C_el m c j) (RS_el m c j)).
    assert (K : forall i j, (i < size r)%nat -> (j < size m)%nat -> rho s o (elt r i) (elt m j) norm (conc_elt c j) "r" = Ok (F i j)) by (intros; apply rho_scalar; auto).
    destruct LR as [R1 [R2 [R3 R4]]]. assert (LR : like ra (rank_arg m) 1 (size m) (fun _ j => RS_el m c j)) by (repeat split; auto).
    destruct r as [r|nr fr]; destruct m as [m|nm fm]; unfold divide_outer; simpl to_arr in *; simpl rank in *; simpl size in *; simpl rank_arg in *; try rewrite R1; cbv iota.
    - destruct (finish_ok (mkArr 0 (rows ra) (cols ra) (fun i j => r / ent ra i j)) _ _ norm 0 1 0 1 1 1 _ _ (fun _ _ => r / RS_el (Num m) c 0) Hn LC LR) as [t [Et Lt]].
      + repeat split; simpl; auto. intros i j Hi Hj. rewrite R4 by auto. replace j with 0%nat by lia. reflexivity.
      + reflexivity.
      + destruct Hx as [Hx|Hx]; [auto|discriminate].
      + exists t, F. split; [exact Et|]. split; auto. eapply table_ext; [exact Lt|]. intros i j Hi Hj. replace i with 0%nat by lia. replace j with 0%nat by lia. reflexivity.
    - destruct (finish_ok (mkArr 1 (rows ra) (cols ra) (fun i j => r / ent ra i j)) _ _ norm 1 nm 1 1 nm nm _ _ (fun _ j => r / RS_el (Arr nm fm) c j) Hn LC LR) as [t [Et Lt]].
      + repeat split; simpl; auto. intros i j Hi Hj. rewrite R4 by auto. reflexivity.
      + apply bdim_refl.
      + right. unfold red_rank. destruct (nm =? 1)%nat; split; lia.
      + exists t, F. split; [exact Et|]. split; auto. eapply table_ext; [exact Lt|]. intros i j Hi Hj. cbv beta. rewrite bidx_lt by auto. reflexivity.
    - destruct (finish_ok (mkArr 1 1 nr (fun _ j => fr j / ent ra 0 0)) _ _ norm 0 1 1 1 nr nr _ _ (fun _ j => fr j / RS_el (Num m) c 0) Hn LC LR) as [t [Et Lt]].
      + repeat split; simpl; auto. intros i j Hi Hj. rewrite R4 by lia. reflexivity.
      + apply bdim_1r.
      + right. simpl. lia.
      + exists t, F. split; [exact Et|]. split; auto. eapply table_of_row_num; [exact Lt|]. intros j Hj. cbv beta. rewrite bidx_lt by auto. rewrite bidx_1. reflexivity.
    - destruct (finish_ok (m2 nr (cols ra) (fun i j => fr i / ent ra 0 j)) _ _ norm 1 nm 2 nr nm nm _ _ (fun i j => fr i / RS_el (Arr nm fm) c j) Hn LC LR) as [t [Et Lt]].
      + repeat split; simpl; auto. intros i j Hi Hj. rewrite R4 by lia. reflexivity.
      + apply bdim_refl.
      + right. unfold red_rank. destruct (nm =? 1)%nat; split; lia.
      + exists t, F. split; [exact Et|]. split; auto. eapply table_ext; [exact Lt|]. intros i j Hi Hj. cbv beta. rewrite bidx_lt by auto. reflexivity.
  Qed.
  (** radii in units of the virial radius: always the table, numbers included *)
  Theorem c120_rho_table_virial_units : forall r m norm c, good_norm norm -> good_conc m c ->
    exists t F, rho_arr s o false (to_arr r) (to_arr m) norm (arr_conc c) "s" = Ok t /\ is_table t (size r) (size m) F /\
      forall i j, (i < size r)%nat -> (j < size m)%nat -> rho s o (elt r i) (elt m j) norm (conc_elt c j) "s" = Ok (F i j).
  Proof.
    intros r m norm c Hn Hc. unfold rho_arr, get_r_arr. destruct (rs_like m c Hc) as [ra [E LR]]. rewrite E. simpl bind. assert (LC := conc_like m c Hc). set (ca := conc_of s o (to_arr m) (arr_conc c)) in *.
    fold (finish (np_outer (to_arr r) ca) ca ra norm false).
    set (F := fun i j => dens norm (xof "s" (elt r i) (C_el m c j) (RS_el m c j)) (C_el m c j) (RS_el m c j)).
    destruct (finish_ok (np_outer (to_arr r) ca) ca ra norm (rank_arg m) (size m) 2 (size r) (size m) (size m) _ _ (fun i j => elt r i * C_el m c j) Hn LC LR) as [t [Et Lt]].
    - destruct (like_arg r) as [A1 [A2 [A3 A4]]]. destruct LC as [B1 [B2 [B3 B4]]]. unfold np_outer. rewrite A3, B3. repeat split; auto. intros i j Hi Hj. simpl. rewrite A4, B4 by lia. reflexivity.
    - apply bdim_refl.
    - right. unfold red_rank. destruct m; simpl; [lia|]. destruct (n =? 1)%nat; lia.
    - exists t, F. split; [exact Et|]. split.
      + eapply table_ext; [exact Lt|]. intros i j Hi Hj. cbv beta. rewrite !bidx_lt by auto. reflexivity.
      + intros i j Hi Hj. apply rho_scalar; auto.
  Qed.
  Lemma rho_x : forall cf r m norm c ra, ufunc2 (rs_el s o) (to_arr m) (conc_of s o (to_arr m) (arr_conc c)) = Ok ra ->
    rho_arr s o cf r (to_arr m) norm (arr_conc c) "x" = finish r (conc_of s o (to_arr m) (arr_conc c)) ra norm cf.
  Proof. intros cf r m norm c ra H. unfold rho_arr, get_r_arr. cbv zeta. rewrite H. reflexivity. Qed.
  (** finding: radii in units of the scale radius are paired with the haloes instead of crossed with them *)
  Theorem c120_scaled_radii_are_paired_refuted : forall norm c n f p g, good_norm norm -> good_conc (Arr p g) c ->
    (n <> p -> n <> 1%nat -> p <> 1%nat -> rho_arr s o false (v1 n f) (v1 p g) norm (arr_conc c) "x" = Raise ValueError) /\
    (n = p -> exists t F, rho_arr s o false (v1 n f) (v1 p g) norm (arr_conc c) "x" = Ok t /\ is_table t 1 n (fun _ j => F j) /\
       forall j, (j < n)%nat -> rho s o (f j) (g j) norm (conc_elt c j) "x" = Ok (F j)).
  Proof.
    intros norm c n f p g Hn Hc. change (v1 p g) with (to_arr (Arr p g)). destruct (rs_like (Arr p g) c Hc) as [ra [E LR]]. rewrite (rho_x false (v1 n f) (Arr p g) norm c ra E). assert (LC := conc_like (Arr p g) c Hc). set (ca := conc_of s o (to_arr (Arr p g)) (arr_conc c)) in *. split.
    - intros H1 H2 H3. unfold finish. destruct (amp_arr norm ca ra _ _ _ _ Hn LC LR) as [a [E2 LA]]. rewrite E2. simpl bind. rewrite ufunc2_fails; auto. right. simpl. destruct LA as [_ [_ [LA _]]]. rewrite LA. simpl. apply bdim_none. auto.
    - intros ->. destruct (finish_ok (v1 p f) ca ra norm 1 p 1 1 p p _ _ _ Hn LC LR (like_v1 p f) (bdim_refl p)) as [t [Et Lt]].
      + right. unfold red_rank. destruct (p =? 1)%nat; split; lia.
      + exists t, (fun j => dens norm (f j) (C_el (Arr p g) c j) (RS_el (Arr p g) c j)). split; [exact Et|]. split.
        * eapply table_ext; [exact Lt|]. intros i j Hi Hj. cbv beta. rewrite bidx_lt by auto. reflexivity.
        * intros j Hj. exact (rho_scalar (f j) (Arr p g) norm c "x" j Hn (or_intror (or_introl eq_refl))).
  Qed.

  (** both arguments single numbers: a truncated profile has no density for them *)
  Theorem c120_rho_of_numbers_refuted : forall r m norm c, good_norm norm -> good_conc (Num m) c -> s_inf s = false ->
    (rho_arr s o false (sc r) (sc m) norm (arr_conc c) "r" = Raise TypeError) /\ (rho_arr s o false (sc r) (sc m) norm (arr_conc c) "x" = Raise TypeError).
  Proof.
    intros r m norm c Hn Hc I. change (sc m) with (to_arr (Num m)). destruct (rs_like (Num m) c Hc) as [ra [E LR]]. assert (LC := conc_like (Num m) c Hc).
    assert (K : forall x, like x 0 1 1 (fun _ _ => ent x 0 0) -> finish x (conc_of s o (to_arr (Num m)) (arr_conc c)) ra norm false = Raise TypeError).
    { intros x LX. unfold finish. destruct (amp_arr norm _ ra _ _ _ _ Hn LC LR) as [a [E2 LA]]. rewrite E2. unfold f_arr. cbn [bind].
      destruct (like_ufunc2 Rmult _ _ _ _ _ _ _ _ _ _ _ _ (like_map (s_f s) _ _ _ _ _ LX) LA (bdim_refl 1) (bdim_refl 1)) as [t [E3 LT]]. rewrite E3. cbn [bind]. rewrite I. unfold zero_where.
      destruct (like_ufunc2 (fun u v => if Rltb v u then 1 else 0) _ _ _ _ _ _ _ _ _ _ _ _ LX LC (bdim_refl 1) (bdim_refl 1)) as [mk [E4 LM]]. rewrite E4. cbn [bind]. destruct LT as [T1 _]. rewrite T1. reflexivity. }
    split.
    - unfold rho_arr, get_r_arr. cbv zeta. rewrite E. change (finish (divide_outer (sc r) ra) (conc_of s o (to_arr (Num m)) (arr_conc c)) ra norm false = Raise TypeError). apply K.
      destruct LR as [R1 [R2 [R3 R4]]]. unfold divide_outer. simpl rank. cbv iota. repeat split; auto. intros i j Hi Hj. replace i with 0%nat by lia. replace j with 0%nat by lia. reflexivity.
    - rewrite (rho_x false (sc r) (Num m) norm c ra E). apply K. repeat split; auto.
  Qed.
  (** the Constant profile, whose shape function returns a plain number: in physical radii it has a density for one
      radius and an array of haloes (not exactly one) only, in virial units for nothing *)
  Theorem c120_constant_profile_refuted : forall r m norm c, good_norm norm -> good_conc m c -> s_inf s = false -> (forall x, s_f s x = 1) ->
    (size m = 1%nat -> rho_arr s o true (to_arr r) (to_arr m) norm (arr_conc c) "r" = Raise TypeError /\ rho_arr s o true (to_arr r) (to_arr m) norm (arr_conc c) "s" = Raise TypeError) /\
    (size m <> 1%nat -> rho_arr s o true (to_arr r) (to_arr m) norm (arr_conc c) "s" = Raise IndexError) /\
    (size m <> 1%nat -> arg_is_num r = false -> rho_arr s o true (to_arr r) (to_arr m) norm (arr_conc c) "r" = Raise IndexError) /\
    (size m <> 1%nat -> arg_is_num r = true ->
       exists t F, rho_arr s o true (to_arr r) (to_arr m) norm (arr_conc c) "r" = Ok t /\ is_table t 1 (size m) F /\
         forall j, (j < size m)%nat -> rho s o (elt r 0) (elt m j) norm (conc_elt c j) "r" = Ok (F 0%nat j)).
  Proof.
    intros r m norm c Hn Hc I F1. destruct (rs_like m c Hc) as [ra [E LR]]. assert (LC := conc_like m c Hc). set (ca := conc_of s o (to_arr m) (arr_conc c)) in *.
    assert (E1 : rho_arr s o true (to_arr r) (to_arr m) norm (arr_conc c) "r" = finish (divide_outer (to_arr r) ra) ca ra norm true) by (unfold rho_arr, get_r_arr; cbv zeta; fold ca; rewrite E; reflexivity).
    assert (E2 : rho_arr s o true (to_arr r) (to_arr m) norm (arr_conc c) "s" = finish (np_outer (to_arr r) ca) ca ra norm true) by (unfold rho_arr, get_r_arr; cbv zeta; fold ca; rewrite E; reflexivity).
    rewrite E1, E2. clear E1 E2. destruct (amp_arr norm ca ra _ _ _ _ Hn LC LR) as [a [E2 LA]].
    destruct (like_ufunc2 Rmult _ _ _ _ _ _ _ _ _ _ _ _ (like_sc 1) LA (bdim_refl 1) (bdim_1l (size m))) as [t [E3 LT]]. destruct LT as [T1 [T2 [T3 T4]]].
    (* the common part: x of rank rx, nx rows and size m (or size r) columns *)
    assert (K : forall x rx nx px q X, like x rx nx px X -> bdim px (size m) = Some q ->
      finish x ca ra norm true = match red_rank (size m) with O => Raise TypeError | _ => bind (ufunc2 (fun u v => if Rltb v u then 1 else 0) x ca) (fun mk =>
        if (red_rank (size m) =? Nat.max rx (rank_arg m))%nat && (1 =? nx)%nat && (size m =? q)%nat then rmap reduce (zero_where t x ca) else Raise IndexError) end).
    { intros x rx nx px q X LX B. unfold finish. rewrite E2. cbn [bind]. unfold f_arr. rewrite E3. cbn [bind]. rewrite I. unfold zero_where.
      destruct (like_ufunc2 (fun u v => if Rltb v u then 1 else 0) _ _ _ _ _ _ _ _ _ _ _ _ LX LC (bdim_1r nx) B) as [mk [E4 [M1 [M2 [M3 M4]]]]]. rewrite E4. cbn [bind]. rewrite T1, T2, T3, M1, M2, M3. simpl Nat.max at 1 2.
      destruct (red_rank (size m)); [reflexivity|]. destruct (_ && _ && _); reflexivity. }
    assert (XS : like (np_outer (to_arr r) ca) 2 (size r) (size m) (fun i j => elt r i * C_el m c j)).
    { destruct (like_arg r) as [A1 [A2 [A3 A4]]]. destruct LC as [B1 [B2 [B3 B4]]]. unfold np_outer. rewrite A3, B3. repeat split; auto. intros i j Hi Hj. simpl. rewrite A4, B4 by lia. reflexivity. }
    destruct LR as [R1 [R2 [R3 R4]]].
    assert (XR : exists rx nx px X, like (divide_outer (to_arr r) ra) rx nx px X /\ (exists q, bdim px (size m) = Some q) /\ (arg_is_num r = true -> rx = rank_arg m /\ nx = 1%nat /\ px = size m /\ X = (fun _ j => elt r 0 / RS_el m c j)) /\ (arg_is_num r = false -> rx = S (rank_arg m))).
    { destruct r as [r|nr fr]; simpl to_arr; unfold divide_outer; simpl rank; cbv iota.
      - exists (rank_arg m), 1%nat, (size m), (fun _ j => r / RS_el m c j). split; [|split; [exists (size m); apply bdim_refl|split; [auto|discriminate]]]. repeat split; auto. intros i j Hi Hj. simpl. rewrite R4 by auto. reflexivity.
      - rewrite R1. destruct m as [m|nm fm]; simpl rank_arg; cbv iota.
        + exists 1%nat, 1%nat, nr, (fun _ j => fr j / RS_el (Num m) c 0). split; [|split; [exists nr; apply bdim_1r|split; [discriminate|auto]]]. repeat split; auto. intros i j Hi Hj. simpl. rewrite R4 by (simpl; lia). reflexivity.
        + exists 2%nat, nr, nm, (fun i j => fr i / RS_el (Arr nm fm) c j). split; [|split; [exists nm; apply bdim_refl|split; [discriminate|auto]]]. simpl cols. rewrite R3. repeat split; auto. intros i j Hi Hj. simpl. rewrite R4 by (simpl; lia). reflexivity. }
    destruct XR as [rx [nx [px [X [LX [[q B] [XN XA]]]]]]]. rewrite (K _ _ _ _ _ _ XS (bdim_refl _)). rewrite (K _ _ _ _ _ _ LX B).
    assert (RM : size m <> 1%nat -> red_rank (size m) = 1%nat /\ rank_arg m = 1%nat) by (intros H; unfold red_rank; destruct (Nat.eqb_spec (size m) 1); [tauto|]; split; auto; destruct m; simpl in *; [lia|auto]).
    split; [intros H; unfold red_rank; rewrite H; simpl; auto|]. split; [|split].
    - intros H. destruct (RM H) as [-> ->]. destruct (like_ufunc2 (fun u v => if Rltb v u then 1 else 0) _ _ _ _ _ _ _ _ _ _ _ _ XS LC (bdim_1r _) (bdim_refl _)) as [mk [E4 _]]. rewrite E4. reflexivity.
    - intros H Hr. destruct (RM H) as [-> RM2]. rewrite RM2 in *. rewrite (XA Hr) in *. destruct (like_ufunc2 (fun u v => if Rltb v u then 1 else 0) _ _ _ _ _ _ _ _ _ _ _ _ LX LC (bdim_1r _) B) as [mk [E4 _]]. rewrite E4. reflexivity.
    - intros H Hr. destruct (RM H) as [RM1 RM2]. rewrite RM1 in *. rewrite RM2 in *. destruct (XN Hr) as [-> [-> [-> ->]]]. rewrite bdim_refl in B. injection B as <-.
      destruct (like_ufunc2 (fun u v => if Rltb v u then 1 else 0) _ _ _ _ _ _ _ _ _ _ _ _ LX LC (bdim_1r _) (bdim_refl _)) as [mk [E4 [M1 [M2 [M3 M4]]]]].
      unfold zero_where. rewrite E4. cbn [bind]. rewrite T1, T2, T3, M1, M2, M3. simpl Nat.max. rewrite !Nat.eqb_refl. simpl andb. cbv iota.
      exists (reduce (mkArr 1 1 (size m) (fun i j => if Reqb (ent mk i j) 1 then 0 else ent t i j))), (fun _ j => dens norm (xof "r" (elt r 0) (C_el m c j) (RS_el m c j)) (C_el m c j) (RS_el m c j)). split; [reflexivity|]. split.
      + eapply table_ext; [apply like_reduce with (rk := 1%nat) (n := 1%nat) (p := size m) (F := fun i j => if Reqb (ent mk i j) 1 then 0 else ent t i j); unfold like; simpl; auto|].
        intros i j Hi Hj. cbv beta. rewrite M4, T4 by auto. cbv beta. rewrite !bidx_lt by auto. unfold dens. rewrite I. simpl xof. rewrite F1.
        destruct (Rltb (C_el m c j) _); [replace (Reqb 1 1) with true by (symmetry; now apply Reqb_spec)|replace (Reqb 0 1) with false by (symmetry; apply Reqb_false; lra)]; reflexivity.
      + intros j Hj. apply rho_scalar; auto.
  Qed.

  (** *** the Fourier transform *)
  Variables (quad : R -> R -> R -> R) (argsort : list R -> list nat) (spl : list R -> list R -> R -> R).
  Definition finish_u (numeric : bool) (K c m : arr) (norm : option string) : res arr :=
    bind (if numeric then numeric_p_arr quad argsort spl K c else ufunc2 (s_p s) K c) (fun p => bind (ufunc2 Rdiv p (amap (s_h s) c)) (fun u =>
      match norm with None => rmap reduce (imul u m) | Some n => if (n =? "m")%string then Ok (reduce u) else Raise ValueError end)).
  (** the transform P of one halo, normalised *)
  Definition uval (norm : option string) (P c m : R) : R := match norm with None => P / s_h s c * m | Some _ => P / s_h s c end.
  Lemma finish_u_ok : forall (numeric : bool) K c m norm rk p px q nx pa C M P, norm = None \/ norm = Some "m"%string ->
    like c rk 1 p (fun _ j => C j) -> like m rk 1 p (fun _ j => M j) -> bdim px p = Some q ->
    (if numeric then numeric_p_arr quad argsort spl K c else ufunc2 (s_p s) K c) = Ok pa -> like pa (rank pa) nx q P ->
    exists t, finish_u numeric K c m norm = Ok t /\ is_table t nx q (fun i j => uval norm (P i j) (C (bidx p j)) (M (bidx p j))).
  Proof.
    intros numeric K c m norm rk p px q nx pa C M P Hn LC LM B EP LP. unfold finish_u. rewrite EP. cbn [bind].
    assert (B2 : bdim q p = Some q). { unfold bdim in *. destruct (Nat.eqb_spec px p); [injection B as <-; subst; now rewrite Nat.eqb_refl|]. destruct (Nat.eqb_spec px 1); [injection B as <-; now rewrite Nat.eqb_refl|]. destruct (Nat.eqb_spec p 1); [|discriminate]. injection B as <-. subst. destruct (Nat.eqb_spec px 1); auto; try lia. }
    assert (BI : forall j, (j < q)%nat -> bidx q j = j) by (intros; apply bidx_lt; auto).
    destruct (like_ufunc2 Rdiv _ _ _ _ _ _ _ _ _ _ _ _ LP (like_map (s_h s) _ _ _ _ _ LC) (bdim_1r nx) B2) as [u [E2 LU]]. rewrite E2. cbn [bind]. destruct Hn as [-> | ->].
    - destruct (like_ufunc2 Rmult _ _ _ _ _ _ _ _ _ _ _ _ LU LM (bdim_1r nx) B2) as [w [E3 LW]].
      assert (SH : imul u m = Ok w). { unfold imul. rewrite E3. cbn [bind]. destruct LU as [U1 [U2 [U3 _]]]. destruct LW as [W1 [W2 [W3 _]]]. rewrite W1, W2, W3, U1, U2, U3. replace (Nat.max (Nat.max (rank pa) rk) rk) with (Nat.max (rank pa) rk) by lia. rewrite !Nat.eqb_refl. rewrite orb_true_r. reflexivity. }
      rewrite SH. eexists. split; [reflexivity|].
      eapply table_ext; [exact (like_reduce _ _ _ _ _ LW)|]. intros i j Hi Hj. cbv beta. rewrite !(bidx_lt nx i Hi), !(BI j Hj). reflexivity.
    - eexists. split; [reflexivity|]. eapply table_ext; [exact (like_reduce _ _ _ _ _ LU)|]. intros i j Hi Hj. cbv beta. rewrite !(bidx_lt nx i Hi), !(BI j Hj). reflexivity.
  Qed.
  Lemma u_scalar : forall k m norm c j, norm = None \/ norm = Some "m"%string -> s_inf s = false ->
    u s o k (elt m j) norm (conc_elt c j) "k" = Ok (uval norm (s_p s (k * RS_el m c j) (C_el m c j)) (C_el m c j) (elt m j)).
  Proof. intros k m norm c j Hn I. unfold u. rewrite I. unfold get_k_variables. rewrite conc_scalar, rs_scalar. simpl bind. fold (RS_el m c j). destruct Hn as [-> | ->]; reflexivity. Qed.
  (** the K handed to the transform *)
  Lemma K_like : forall k m c ra, good_conc m c -> ufunc2 (rs_el s o) (to_arr m) (conc_of s o (to_arr m) (arr_conc c)) = Ok ra -> like ra (rank_arg m) 1 (size m) (fun _ j => RS_el m c j) ->
    exists K, get_k_arr s o (to_arr k) (to_arr m) (arr_conc c) "k" = Ok (conc_of s o (to_arr m) (arr_conc c), K) /\
      match k, m with
      | Arr nk fk, Arr nm _ => like K 2 nk nm (fun i j => fk i * RS_el m c j)
      | Arr nk fk, Num _ => like K 1 1 nk (fun _ j => fk j * RS_el m c 0)
      | Num x, _ => like K (rank_arg m) 1 (size m) (fun _ j => x * RS_el m c j)
      end.
  Proof.
    intros k m c ra Hc E LR. unfold get_k_arr. cbv zeta. rewrite E. cbn [bind]. change (("k" =? "k")%string) with true. cbv iota. destruct LR as [R1 [R2 [R3 R4]]]. rewrite R1.
    assert (LR : like ra (rank_arg m) 1 (size m) (fun _ j => RS_el m c j)) by (repeat split; auto).
    destruct k as [k|nk fk].
    - simpl (1 <=? rank _)%nat. cbn [andb]. destruct (like_ufunc2 Rmult _ _ _ _ _ _ _ _ _ _ _ _ (like_sc k) LR (bdim_refl 1) (bdim_1l (size m))) as [K [EK LK]]. simpl to_arr. rewrite EK. exists K. split; [reflexivity|].
      simpl Nat.max in LK. eapply like_ext; [exact LK|]. intros i j Hi Hj. cbv beta. rewrite !bidx_lt by auto. reflexivity.
    - simpl to_arr. simpl (1 <=? rank (v1 nk fk))%nat. cbn [andb]. destruct m as [m|nm fm]; simpl rank_arg in *.
      + change (1 <=? 0)%nat with false. cbv iota. destruct (like_ufunc2 Rmult _ _ _ _ _ _ _ _ _ _ _ _ (like_v1 nk fk) LR (bdim_refl 1) (bdim_1r nk)) as [K [EK LK]]. rewrite EK. exists K. split; [reflexivity|].
        simpl Nat.max in LK. eapply like_ext; [exact LK|]. intros i j Hi Hj. cbv beta. rewrite bidx_lt by auto. reflexivity.
      + change (1 <=? 1)%nat with true. cbv iota. exists (np_outer (v1 nk fk) ra). split; [reflexivity|]. unfold np_outer. rewrite R3. simpl size in *. repeat split; auto. intros i j Hi Hj. simpl. rewrite R4 by lia. reflexivity.
  Qed.
  Lemma u_eq : forall numeric k m norm c K, get_k_arr s o (to_arr k) (to_arr m) (arr_conc c) "k" = Ok (conc_of s o (to_arr m) (arr_conc c), K) ->
    u_arr s o quad argsort spl numeric (to_arr k) (to_arr m) norm (arr_conc c) "k" = finish_u numeric K (conc_of s o (to_arr m) (arr_conc c)) (to_arr m) norm.
  Proof. intros numeric k m norm c K H. unfold u_arr. rewrite H. reflexivity. Qed.
  (** profiles with an analytic transform: the table of transforms, for numbers and arrays alike *)
  Theorem c120_u_table : forall k m norm c, norm = None \/ norm = Some "m"%string -> good_conc m c -> s_inf s = false ->
    exists t F, u_arr s o quad argsort spl false (to_arr k) (to_arr m) norm (arr_conc c) "k" = Ok t /\ is_table t (size k) (size m) F /\
      forall i j, (i < size k)%nat -> (j < size m)%nat -> u s o (elt k i) (elt m j) norm (conc_elt c j) "k" = Ok (F i j).
  Proof.
    intros k m norm c Hn Hc I. destruct (rs_like m c Hc) as [ra [E LR]]. assert (LC := conc_like m c Hc). destruct (K_like k m c ra Hc E LR) as [K [EK LK]].
    rewrite (u_eq false k m norm c K EK). set (ca := conc_of s o (to_arr m) (arr_conc c)) in *.
    set (F := fun i j => uval norm (s_p s (elt k i * RS_el m c j) (C_el m c j)) (C_el m c j) (elt m j)).
    assert (FS : forall i j, (i < size k)%nat -> (j < size m)%nat -> u s o (elt k i) (elt m j) norm (conc_elt c j) "k" = Ok (F i j)) by (intros; now apply u_scalar).
    assert (G : forall rK nx px X q, like K rK nx px X -> bdim px (size m) = Some q -> exists t, finish_u false K ca (to_arr m) norm = Ok t /\ is_table t nx q (fun i j => uval norm (s_p s (X i (bidx px j)) (C_el m c (bidx (size m) j))) (C_el m c (bidx (size m) j)) (elt m (bidx (size m) j)))).
    { intros rK nx px X q L B. destruct (like_ufunc2 (s_p s) _ _ _ _ _ _ _ _ _ _ _ _ L LC (bdim_1r nx) B) as [pa [EP LP]].
      apply (finish_u_ok false K ca (to_arr m) norm (rank_arg m) (size m) px q nx pa (C_el m c) (elt m) (fun i j => s_p s (X i (bidx px j)) (C_el m c (bidx (size m) j))) Hn LC (like_arg m) B EP).
      destruct LP as [P1 [P2 [P3 P4]]]. repeat split; auto. intros i j Hi Hj. rewrite P4 by auto. cbv beta. rewrite (bidx_lt nx) by auto. reflexivity. }
    destruct k as [k|nk fk].
    - destruct (G _ _ _ _ _ LK (bdim_refl _)) as [t [Et Lt]]. exists t, F. split; auto. split; auto. eapply table_ext; [exact Lt|]. intros i j Hi Hj. cbv beta. rewrite !(bidx_lt _ j Hj). reflexivity.
    - destruct m as [m|nm fm].
      + destruct (G _ _ _ _ _ LK (bdim_1r _)) as [t [Et Lt]]. exists t, F. split; auto. split; auto. eapply table_of_row_num; [exact Lt|]. intros j Hj. cbv beta. rewrite (bidx_lt nk j Hj). simpl size. rewrite bidx_1. reflexivity.
      + destruct (G _ _ _ _ _ LK (bdim_refl _)) as [t [Et Lt]]. exists t, F. split; auto. split; auto. eapply table_ext; [exact Lt|]. intros i j Hi Hj. cbv beta. change (size (Arr nm fm)) with nm in *. rewrite !(bidx_lt nm j Hj). reflexivity.
  Qed.

  Lemma aall_spec : forall p a, aall p a = true <-> forall i j, (i < rows a)%nat -> (j < cols a)%nat -> p (ent a i j) = true.
  Proof.
    intros p a. unfold aall. rewrite forallb_forall. split.
    - intros H i j Hi Hj. assert (A : In i (seq 0 (rows a))) by (apply in_seq; lia). specialize (H i A). rewrite forallb_forall in H. apply H. apply in_seq. lia.
    - intros H i Hi. apply in_seq in Hi. apply forallb_forall. intros j Hj. apply in_seq in Hj. apply H; lia.
  Qed.
  (** *** the self-convolution of NFW, whose element masks need care with shapes *)
  Lemma nfw_l_hi_2c : forall c, 0 < c -> nfw_l_hi (2 * c) c = 0.
  Proof.
    intros c Hc. unfold nfw_l_hi. cbv zeta. replace ((1 + 1 / c) / (1 / c + 1 / c * (2 * c) - 1)) with 1 by (field; split; [lra|]; lra).
    rewrite ln_1. replace (2 * c * (1 / c) ^ 2 - 2 * (1 / c)) with 0 by (field; lra). unfold Rdiv. ring.
  Qed.
  Lemma nfw_l_like : forall x ca rk p rx nx px C X, like ca rk 1 p (fun _ j => C j) -> (rk <= 1)%nat -> like x rx nx px X -> bdim px p = Some px ->
    (rx = 2%nat /\ px = p \/ (rx <= 1)%nat /\ nx = 1%nat) -> (forall j, (j < p)%nat -> 0 < C j) ->
    exists t, nfw_l_arr x ca = Ok t /\ like t (Nat.max 1 rx) nx px (fun i j => nfw_l (X i j) (C (bidx p j))).
  Proof.
    intros x ca rk p rx nx px C X [C1 [C2 [C3 C4]]] Hrk [X1 [X2 [X3 X4]]] B Hx Hp. unfold nfw_l_arr. cbv zeta.
    assert (LX : like (atleast_1d x) (Nat.max 1 rx) nx px X) by (unfold atleast_1d; rewrite X1; repeat split; auto).
    assert (LC : like (atleast_1d ca) 1 1 p (fun _ j => C j)). { unfold atleast_1d. rewrite C1. replace (Nat.max 1 rk) with 1%nat by lia. repeat split; auto. }
    assert (BP : forall j, (j < px)%nat -> (bidx p j < p)%nat) by (intros j Hj; apply (bidx_bound px p px j B Hj)).
    set (x1 := atleast_1d x) in *. set (c1 := atleast_1d ca) in *. clearbody x1 c1. clear X1 X2 X3 X4 C1 C2 C3 C4.
    destruct (like_ufunc2 (fun x c => if Rltb (2 * c) x then 1 else 0) _ _ _ _ _ _ _ _ _ _ _ _ LX LC (bdim_1r nx) B) as [far [EF [F1 [F2 [F3 F4]]]]]. rewrite EF. cbn [bind]. clear EF.
    destruct (aall (fun v => Reqb v 1) far) eqn:AF.
    - eexists. split; [reflexivity|]. eapply like_ext; [exact (like_map (fun _ => 0) _ _ _ _ _ LX)|]. intros i j Hi Hj. cbv beta.
      rewrite aall_spec, F2, F3 in AF. specialize (AF i j Hi Hj). rewrite F4 in AF by auto. cbv beta in AF. rewrite (bidx_lt nx i Hi), (bidx_lt px j Hj) in AF. assert (P := Hp _ (BP j Hj)).
      destruct (Rltb (2 * C (bidx p j)) (X i j)) eqn:EL; [|apply Reqb_spec in AF; lra]. apply Rltb_spec in EL. unfold nfw_l.
      replace (Rleb (X i j) (C (bidx p j))) with false by (symmetry; apply Rleb_false; lra). now replace (Rleb (X i j) (2 * C (bidx p j))) with false by (symmetry; apply Rleb_false; lra).
    - assert (EC : exists c2, (if (rank x1 =? 2)%nat then Ok (m2 (rows x1) (cols c1) (fun _ j => ent c1 0 j)) else ufunc2 Rmult (v1 (cols x1) (fun _ => 1)) c1) = Ok c2 /\ like c2 (Nat.max 1 rx) nx px (fun _ j => C (bidx p j))).
      { destruct LX as [X1 [X2 [X3 X4]]]. rewrite X1, X2, X3. destruct Hx as [[-> ->]|[Hr ->]].
        - simpl (Nat.max 1 2 =? 2)%nat. cbv iota. eexists. split; [reflexivity|]. destruct LC as [C1 [C2 [C3 C4]]]. rewrite C3. repeat split; auto. intros i j Hi Hj. simpl. rewrite C4 by lia. now rewrite bidx_lt by auto.
        - replace (Nat.max 1 rx) with 1%nat by lia. change (1 =? 2)%nat with false. cbv iota. destruct (like_ufunc2 Rmult _ _ _ _ _ _ _ _ _ _ _ _ (like_v1 px (fun _ => 1)) LC (bdim_refl 1) B) as [c2 [E2 L2]]. rewrite E2. exists c2. split; auto. eapply like_ext; [exact L2|]. intros i j Hi Hj. cbv beta. ring. }
      destruct EC as [c2 [EC LC2]]. rewrite EC. cbn [bind]. clear EC.
      destruct (like_ufunc2 (fun x c => if Rleb x c then 1 else 0) _ _ _ _ _ _ _ _ _ _ _ _ LX LC2 (bdim_refl nx) (bdim_refl px)) as [lo [E3 [L1 [L2 [L3 L4]]]]]. rewrite E3. cbn [bind].
      destruct (like_ufunc2 (fun x c => if Rltb x (2 * c) && Rltb c x then 1 else 0) _ _ _ _ _ _ _ _ _ _ _ _ LX LC2 (bdim_refl nx) (bdim_refl px)) as [mid [E4 [M1 [M2 [M3 M4]]]]]. rewrite E4. cbn [bind].
      destruct LX as [X1 [X2 [X3 X4]]]. destruct LC2 as [D1 [D2 [D3 D4]]]. rewrite X1, X2, X3, L1, L2, L3, Nat.max_id, !Nat.eqb_refl. cbn [andb negb]. rewrite andb_false_r. eexists. split; [reflexivity|]. repeat split; auto.
      intros i j Hi Hj. cbn [ent]. cbv zeta. unfold bent. rewrite D2, D3, (bidx_lt nx i Hi), (bidx_lt px j Hj). rewrite X4, D4 by auto. unfold nfw_l. destruct (Rleb (X i j) (C (bidx p j))) eqn:E1.
      { destruct (aall (fun v => Reqb v 0) lo) eqn:AL; [|reflexivity]. exfalso. rewrite aall_spec, L2, L3 in AL. specialize (AL i j Hi Hj). rewrite L4 in AL by auto. cbv beta in AL. rewrite (bidx_lt nx i Hi), (bidx_lt px j Hj), E1 in AL. apply Reqb_spec in AL. lra. }
      rewrite andb_false_r. replace (Rltb (C (bidx p j)) (X i j)) with true by (symmetry; apply Rltb_spec; now apply Rleb_false). rewrite andb_true_r.
      destruct (aall (fun v => Reqb v 0) mid) eqn:AM; cbn [negb andb]; auto. destruct (Rleb (X i j) (2 * C (bidx p j))) eqn:E5; auto.
      rewrite aall_spec, M2, M3 in AM. specialize (AM i j Hi Hj). rewrite M4 in AM by auto. cbv beta in AM. rewrite (bidx_lt nx i Hi), (bidx_lt px j Hj) in AM.
      apply Rleb_false in E1. apply Rleb_spec in E5. destruct (Rltb (X i j) (2 * C (bidx p j))) eqn:E6; cbn [andb] in AM.
      + replace (Rltb (C (bidx p j)) (X i j)) with true in AM by (symmetry; now apply Rltb_spec). apply Reqb_spec in AM. lra.
      + apply Rltb_false in E6. replace (X i j) with (2 * C (bidx p j)) by lra. symmetry. apply nfw_l_hi_2c. apply Hp. auto.
  Qed.
  Definition lamval (norm : option string) (x c r_s : R) : R := nfw_l x c * r_s ^ 3 * amp norm c r_s ^ 2.
  Lemma lam_finish : forall x ca ra norm rk p rx nx px C RS X, norm = None \/ norm = Some "m"%string -> like ca rk 1 p (fun _ j => C j) -> like ra rk 1 p (fun _ j => RS j) -> (rk <= 1)%nat -> like x rx nx px X -> bdim px p = Some px ->
    (rx = 2%nat /\ px = p \/ (rx <= 1)%nat /\ nx = 1%nat) -> (forall j, (j < p)%nat -> 0 < C j) ->
    exists t, bind (nfw_l_arr x ca) (fun l => bind (ufunc2 (fun l r_s => l * r_s ^ 3) l ra) (fun lr => bind (rho_s_arr s o ca ra norm) (fun a => rmap reduce (ufunc2 (fun lr a => lr * a ^ 2) lr a)))) = Ok t /\
      is_table t nx px (fun i j => lamval norm (X i j) (C (bidx p j)) (RS (bidx p j))).
  Proof.
    intros x ca ra norm rk p rx nx px C RS X Hn LC LR Hrk LX B Hx Hp. destruct (nfw_l_like x ca rk p rx nx px C X LC Hrk LX B Hx Hp) as [l [El Ll]]. rewrite El. cbn [bind].
    destruct (like_ufunc2 (fun l r_s => l * r_s ^ 3) _ _ _ _ _ _ _ _ _ _ _ _ Ll LR (bdim_1r nx) B) as [lr [E2 L2]]. rewrite E2. cbn [bind].
    assert (Hg : good_norm norm) by (unfold good_norm; tauto). destruct (amp_arr norm ca ra rk p C RS Hg LC LR) as [a [E3 L3]]. rewrite E3. cbn [bind].
    destruct (like_ufunc2 (fun lr a => lr * a ^ 2) _ _ _ _ _ _ _ _ _ _ _ _ L2 L3 (bdim_1r nx) B) as [t [E4 L4]]. rewrite E4. eexists. split; [reflexivity|].
    eapply table_ext; [exact (like_reduce _ _ _ _ _ L4)|]. intros i j Hi Hj. cbv beta. rewrite !(bidx_lt nx i Hi), !(bidx_lt px j Hj). unfold lamval. reflexivity.
  Qed.
  (** the scaled radii handed to the profile function *)
  Lemma x_like : forall r m c ra, good_conc m c -> like ra (rank_arg m) 1 (size m) (fun _ j => RS_el m c j) ->
    exists rx nx px X, like (divide_outer (to_arr r) ra) rx nx px X /\ bdim px (size m) = Some px /\ (rx = 2%nat /\ px = size m \/ (rx <= 1)%nat /\ nx = 1%nat) /\
      forall a F, is_table a nx px (fun i j => F (X i j) (bidx (size m) j)) -> is_table a (size r) (size m) (fun i j => F (elt r i / RS_el m c j) j).
  Proof.
    intros r m c ra Hc [R1 [R2 [R3 R4]]]. destruct r as [r|nr fr]; simpl to_arr; unfold divide_outer; simpl rank; cbv iota.
    - exists (rank_arg m), 1%nat, (size m), (fun _ j => r / RS_el m c j). split; [repeat split; auto; intros i j Hi Hj; simpl; now rewrite R4 by auto|]. split; [apply bdim_refl|]. split; [right; destruct m; simpl; lia|].
      intros a F T. eapply table_ext; [exact T|]. intros i j Hi Hj. cbv beta. now rewrite bidx_lt by auto.
    - rewrite R1. destruct m as [m|nm fm]; simpl rank_arg; cbv iota; simpl size.
      + exists 1%nat, 1%nat, nr, (fun _ j => fr j / RS_el (Num m) c 0). split; [repeat split; auto; intros i j Hi Hj; simpl; rewrite R4 by (simpl; lia); reflexivity|]. split; [apply bdim_1r|]. split; [right; lia|].
        intros a F T. eapply table_of_row_num; [exact T|]. intros j Hj. cbv beta. now rewrite bidx_1.
      + exists 2%nat, nr, nm, (fun i j => fr i / RS_el (Arr nm fm) c j). simpl cols. rewrite R3. split; [repeat split; auto; intros i j Hi Hj; simpl; rewrite R4 by (simpl; lia); reflexivity|]. split; [apply bdim_refl|]. split; [left; auto|].
        intros a F T. eapply table_ext; [exact T|]. intros i j Hi Hj. cbv beta. rewrite (bidx_lt nm j Hj). reflexivity.
  Qed.
  Theorem c120_lam_table : forall r m norm c coord, s_l s = Some nfw_l -> norm = None \/ norm = Some "m"%string -> good_conc m c -> (forall j, (j < size m)%nat -> 0 < C_el m c j) -> (coord = "r" \/ coord = "s")%string ->
    exists t F, nfw_lam_arr s o (to_arr r) (to_arr m) norm (arr_conc c) coord = Ok t /\ is_table t (size r) (size m) F /\
      forall i j, (i < size r)%nat -> (j < size m)%nat -> lam s o (elt r i) (elt m j) norm (conc_elt c j) coord = Ok (F i j).
  Proof.
    intros r m norm c coord HL Hn Hc Hp Hco. destruct (rs_like m c Hc) as [ra [E LR]]. assert (LC := conc_like m c Hc). assert (Hrk : (rank_arg m <= 1)%nat) by (destruct m; simpl; lia).
    assert (SC : forall i j, lam s o (elt r i) (elt m j) norm (conc_elt c j) coord = Ok (lamval norm (xof coord (elt r i) (C_el m c j) (RS_el m c j)) (C_el m c j) (RS_el m c j))).
    { intros i j. unfold lam. rewrite HL. unfold get_r_variables. rewrite conc_scalar, rs_scalar. simpl bind. fold (RS_el m c j). destruct Hco as [-> | ->]; destruct Hn as [-> | ->]; reflexivity. }
    destruct Hco as [-> | ->].
    - destruct (x_like r m c ra Hc LR) as [rx [nx [px [X [LX [B [Hx Hf]]]]]]]. destruct (lam_finish (divide_outer (to_arr r) ra) _ ra norm _ _ rx nx px _ _ X Hn LC LR Hrk LX B Hx Hp) as [t [Et Lt]].
      exists t, (fun i j => lamval norm (elt r i / RS_el m c j) (C_el m c j) (RS_el m c j)). split; [|split].
      + unfold nfw_lam_arr, get_r_arr. cbv zeta. rewrite E. cbn [bind]. change (("r" =? "r")%string) with true. cbv iota. destruct Hn as [-> | ->]; exact Et.
      + exact (Hf t (fun x j => lamval norm x (C_el m c j) (RS_el m c j)) Lt).
      + intros i j Hi Hj. exact (SC i j).
    - set (ca := conc_of s o (to_arr m) (arr_conc c)) in *. destruct (lam_finish (np_outer (to_arr r) ca) ca ra norm _ _ 2 (size r) (size m) _ _ (fun i j => elt r i * C_el m c j) Hn LC LR Hrk) as [t [Et Lt]]; auto.
      + destruct (like_arg r) as [A1 [A2 [A3 A4]]]. destruct LC as [B1 [B2 [B3 B4]]]. unfold np_outer. rewrite A3, B3. repeat split; auto. intros i j Hi Hj. simpl. rewrite A4, B4 by lia. reflexivity.
      + apply bdim_refl.
      + exists t, (fun i j => lamval norm (elt r i * C_el m c j) (C_el m c j) (RS_el m c j)). split; [|split].
        * unfold nfw_lam_arr, get_r_arr. cbv zeta. fold ca. rewrite E. cbn [bind]. change (("s" =? "r")%string) with false. change (("s" =? "x")%string) with false. change (("s" =? "s")%string) with true. cbv iota. destruct Hn as [-> | ->]; exact Et.
        * eapply table_ext; [exact Lt|]. intros i j Hi Hj. cbv beta. now rewrite !(bidx_lt (size m) j Hj).
        * intros i j Hi Hj. exact (SC i j).
  Qed.
  (** finding: one radius in units of the scale radius and several haloes: zeros if the radius is 2c or more for every one of them, an IndexError otherwise *)
  Theorem c120_lam_one_scaled_radius_refuted : forall r x p g norm c, r = Num x \/ r = Arr 1 (fun _ => x) -> norm = None \/ norm = Some "m"%string -> good_conc (Arr p g) c -> (2 <= p)%nat ->
    ((exists j, (j < p)%nat /\ x < 2 * C_el (Arr p g) c j) -> nfw_lam_arr s o (to_arr r) (to_arr (Arr p g)) norm (arr_conc c) "x" = Raise IndexError) /\
    ((forall j, (j < p)%nat -> 0 < C_el (Arr p g) c j /\ 2 * C_el (Arr p g) c j <= x) -> exists t, nfw_lam_arr s o (to_arr r) (to_arr (Arr p g)) norm (arr_conc c) "x" = Ok t /\ is_table t 1 p (fun _ _ => 0)).
  Proof.
    intros r x p g norm c Hr Hn Hc Hp. destruct (rs_like (Arr p g) c Hc) as [ra [E LR]]. assert (LC := conc_like (Arr p g) c Hc).
    assert (EL : nfw_lam_arr s o (to_arr r) (to_arr (Arr p g)) norm (arr_conc c) "x" =
      bind (nfw_l_arr (to_arr r) (conc_of s o (to_arr (Arr p g)) (arr_conc c))) (fun l => bind (ufunc2 (fun l r_s => l * r_s ^ 3) l ra) (fun lr => bind (rho_s_arr s o (conc_of s o (to_arr (Arr p g)) (arr_conc c)) ra norm) (fun a => rmap reduce (ufunc2 (fun lr a => lr * a ^ 2) lr a))))).
    { unfold nfw_lam_arr, get_r_arr. cbv zeta. rewrite E. cbn [bind]. destruct Hn as [-> | ->]; reflexivity. }
    rewrite EL. clear EL. set (ca := conc_of s o (to_arr (Arr p g)) (arr_conc c)) in *. clearbody ca. change (rank_arg (Arr p g)) with 1%nat in *. change (size (Arr p g)) with p in *.
    assert (LX : like (atleast_1d (to_arr r)) 1 1 1 (fun _ _ => x)) by (destruct Hr as [-> | ->]; repeat split; auto).
    assert (LA : like (atleast_1d ca) 1 1 p (fun _ j => C_el (Arr p g) c j)). { destruct LC as [C1 [C2 [C3 C4]]]. unfold atleast_1d. rewrite C1. simpl. repeat split; auto. }
    unfold nfw_l_arr. cbv zeta. set (x1 := atleast_1d (to_arr r)) in *. set (c1 := atleast_1d ca) in *. clearbody x1 c1.
    assert (B1 : bdim 1 p = Some p) by (unfold bdim; destruct (1 =? p)%nat eqn:EP1; [apply Nat.eqb_eq in EP1; lia|reflexivity]).
    destruct (like_ufunc2 (fun x c => if Rltb (2 * c) x then 1 else 0) _ _ _ _ _ _ _ _ _ _ _ _ LX LA (bdim_refl 1) B1) as [far [EF [F1 [F2 [F3 F4]]]]]. rewrite EF. cbn [bind].
    assert (G : forall l, like l 1 1 1 (fun _ _ => 0) -> exists t, bind (Ok l) (fun l => bind (ufunc2 (fun l r_s => l * r_s ^ 3) l ra) (fun lr => bind (rho_s_arr s o ca ra norm) (fun a => rmap reduce (ufunc2 (fun lr a => lr * a ^ 2) lr a)))) = Ok t /\ is_table t 1 p (fun _ _ => 0)).
    { intros l L0. cbn [bind]. destruct (like_ufunc2 (fun l r_s => l * r_s ^ 3) _ _ _ _ _ _ _ _ _ _ _ _ L0 LR (bdim_refl 1) B1) as [lr [E2 L2]]. rewrite E2. cbn [bind].
      assert (Hg : good_norm norm) by (unfold good_norm; tauto). destruct (amp_arr norm ca ra 1 p _ _ Hg LC LR) as [a [E3 L3]]. rewrite E3. cbn [bind].
      destruct (like_ufunc2 (fun lr a => lr * a ^ 2) _ _ _ _ _ _ _ _ _ _ _ _ L2 L3 (bdim_refl 1) (bdim_refl p)) as [t [E4 L4]]. rewrite E4. eexists. split; [reflexivity|].
      eapply table_ext; [exact (like_reduce _ _ _ _ _ L4)|]. intros i j Hi Hj. cbv beta. ring. }
    destruct LX as [X1 [X2 [X3 X4]]]. destruct (like_ufunc2 Rmult _ _ _ _ _ _ _ _ _ _ _ _ (like_v1 1 (fun _ => 1)) LA (bdim_refl 1) B1) as [c2 [E2 L2]].
    destruct (like_ufunc2 (fun x c => if Rleb x c then 1 else 0) _ _ _ _ _ _ _ _ _ _ _ _ (conj X1 (conj X2 (conj X3 X4))) L2 (bdim_refl 1) B1) as [lo [E3 [L1 [L2' [L3 L4]]]]].
    destruct (like_ufunc2 (fun x c => if Rltb x (2 * c) && Rltb c x then 1 else 0) _ _ _ _ _ _ _ _ _ _ _ _ (conj X1 (conj X2 (conj X3 X4))) L2 (bdim_refl 1) B1) as [mid [E4 [M1 [M2 [M3 M4]]]]].
    assert (LO : forall j, (j < p)%nat -> ent lo 0 j = if Rleb x (C_el (Arr p g) c j) then 1 else 0). { intros j Hj. rewrite L4 by (auto; lia). cbv beta. rewrite !(bidx_lt p j Hj), Rmult_1_l. reflexivity. }
    assert (MI : forall j, (j < p)%nat -> ent mid 0 j = if Rltb x (2 * C_el (Arr p g) c j) && Rltb (C_el (Arr p g) c j) x then 1 else 0). { intros j Hj. rewrite M4 by (auto; lia). cbv beta. rewrite !(bidx_lt p j Hj), Rmult_1_l. reflexivity. }
    split; intros H.
    - destruct H as [j [Hj Hx]]. destruct (aall (fun v => Reqb v 1) far) eqn:AF.
      { exfalso. rewrite aall_spec, F2, F3 in AF. specialize (AF 0%nat j ltac:(lia) Hj). rewrite F4 in AF by (auto; lia). cbv beta in AF. rewrite (bidx_lt p j Hj) in AF.
        replace (Rltb (2 * C_el (Arr p g) c j) x) with false in AF by (symmetry; apply Rltb_false; lra). apply Reqb_spec in AF. lra. }
      rewrite X1, X3. change (1 =? 2)%nat with false. cbv iota. rewrite E2. cbn [bind]. rewrite E3. cbn [bind]. rewrite E4. cbn [bind]. rewrite X2, L1, L2', L3.
      replace (1 =? p)%nat with false by (symmetry; apply Nat.eqb_neq; lia). rewrite !andb_false_r. cbn [negb]. rewrite andb_true_r.
      destruct (aall (fun v => Reqb v 0) lo) eqn:AL; [|reflexivity]. destruct (aall (fun v => Reqb v 0) mid) eqn:AM; [|reflexivity]. exfalso.
      rewrite aall_spec, L2', L3 in AL. rewrite aall_spec, M2, M3 in AM. specialize (AL 0%nat j ltac:(lia) Hj). specialize (AM 0%nat j ltac:(lia) Hj). cbv beta in AL, AM. rewrite LO in AL by auto. rewrite MI in AM by auto.
      replace (Rltb x (2 * C_el (Arr p g) c j)) with true in AM by (symmetry; now apply Rltb_spec). destruct (Rleb x (C_el (Arr p g) c j)) eqn:E5; [apply Reqb_spec in AL; lra|]. apply Rleb_false in E5.
      replace (Rltb (C_el (Arr p g) c j) x) with true in AM by (symmetry; now apply Rltb_spec). cbn [andb] in AM. apply Reqb_spec in AM. lra.
    - destruct (aall (fun v => Reqb v 1) far) eqn:AF.
      { apply G. repeat split; auto. }
      assert (NL : forall j, (j < p)%nat -> Rleb x (C_el (Arr p g) c j) = false) by (intros j Hj; apply Rleb_false; destruct (H j Hj); lra).
      assert (NM : forall j, (j < p)%nat -> Rltb x (2 * C_el (Arr p g) c j) = false) by (intros j Hj; apply Rltb_false; destruct (H j Hj); lra).
      rewrite X1, X3. change (1 =? 2)%nat with false. cbv iota. rewrite E2. cbn [bind]. rewrite E3. cbn [bind]. rewrite E4. cbn [bind].
      replace (aall (fun v => Reqb v 0) lo) with true. 2:{ symmetry. apply aall_spec. rewrite L2', L3. intros i j Hi Hj. replace i with 0%nat by lia. rewrite LO, NL by auto. now apply Reqb_spec. }
      replace (aall (fun v => Reqb v 0) mid) with true. 2:{ symmetry. apply aall_spec. rewrite M2, M3. intros i j Hi Hj. replace i with 0%nat by lia. rewrite MI, NM by auto. now apply Reqb_spec. }
      cbn [negb orb andb]. apply G. repeat split; auto.
  Qed.
  (** cdf in physical radii is the same table, but returned unsqueezed: its rank is the sum of the ranks *)
  Theorem c120_cdf_table : forall r m c, good_conc m c ->
    exists t F, cdf_arr s o (to_arr r) (arr_conc c) (to_arr m) "r" = Ok t /\ rank t = ((if arg_is_num r then 0 else 1) + (if arg_is_num m then 0 else 1))%nat /\ is_table (reduce t) (size r) (size m) F /\
      forall i j, (i < size r)%nat -> (j < size m)%nat -> cdf s o (elt r i) (conc_elt c j) (elt m j) "r" = Ok (F i j).
  Proof.
    intros r m c Hc. destruct (rs_like m c Hc) as [ra [E LR]]. assert (LC := conc_like m c Hc). destruct (x_like r m c ra Hc LR) as [rx [nx [px [X [LX [B [Hx Hf]]]]]]].
    destruct (like_ufunc2 Rdiv _ _ _ _ _ _ _ _ _ _ _ _ (like_map (s_h s) _ _ _ _ _ LX) (like_map (s_h s) _ _ _ _ _ LC) (bdim_1r nx) B) as [t [Et Lt]].
    exists t, (fun i j => s_h s (elt r i / RS_el m c j) / s_h s (C_el m c j)). split; [|split; [|split]].
    - unfold cdf_arr, get_r_arr. cbv zeta. rewrite E. cbn [bind]. exact Et.
    - destruct Lt as [T1 _]. rewrite T1. destruct LX as [X1 _]. rewrite <- X1. destruct LR as [R1 _]. destruct r as [r|nr fr]; destruct m as [m|nm fm]; unfold divide_outer; simpl in *; rewrite ?R1; reflexivity.
    - apply (Hf (reduce t) (fun x j => s_h s x / s_h s (C_el m c j))). eapply table_ext; [exact (like_reduce _ _ _ _ _ Lt)|]. intros i j Hi Hj. cbv beta. rewrite (bidx_lt nx i Hi), (bidx_lt px j Hj). reflexivity.
    - intros i j Hi Hj. unfold cdf, get_r_variables. rewrite conc_scalar, rs_scalar. reflexivity.
  Qed.

  (** finding: wavenumbers in units of the scale radius are paired with the haloes too *)
  Theorem c120_scaled_wavenumbers_are_paired_refuted : forall norm c n f p g, norm = None \/ norm = Some "m"%string -> good_conc (Arr p g) c -> s_inf s = false ->
    (n <> p -> n <> 1%nat -> p <> 1%nat -> u_arr s o quad argsort spl false (v1 n f) (v1 p g) norm (arr_conc c) "kappa" = Raise ValueError) /\
    (n = p -> exists t F, u_arr s o quad argsort spl false (v1 n f) (v1 p g) norm (arr_conc c) "kappa" = Ok t /\ is_table t 1 n (fun _ j => F j) /\
       forall j, (j < n)%nat -> u s o (f j) (g j) norm (conc_elt c j) "kappa" = Ok (F j)).
  Proof.
    intros norm c n f p g Hn Hc I. change (v1 p g) with (to_arr (Arr p g)). destruct (rs_like (Arr p g) c Hc) as [ra [E LR]]. assert (LC := conc_like (Arr p g) c Hc).
    assert (EU : u_arr s o quad argsort spl false (v1 n f) (to_arr (Arr p g)) norm (arr_conc c) "kappa" = finish_u false (v1 n f) (conc_of s o (to_arr (Arr p g)) (arr_conc c)) (to_arr (Arr p g)) norm).
    { unfold u_arr, get_k_arr. cbv zeta. rewrite E. reflexivity. }
    rewrite EU. set (ca := conc_of s o (to_arr (Arr p g)) (arr_conc c)) in *. split.
    - intros H1 H2 H3. unfold finish_u. rewrite ufunc2_fails; auto. right. destruct LC as [_ [_ [LC _]]]. rewrite LC. simpl. apply bdim_none. auto.
    - intros ->. destruct (like_ufunc2 (s_p s) _ _ _ _ _ _ _ _ _ _ _ _ (like_v1 p f) LC (bdim_refl 1) (bdim_refl p)) as [pa [EP LP]].
      destruct (finish_u_ok false (v1 p f) ca (to_arr (Arr p g)) norm 1 p p p 1 pa (C_el (Arr p g) c) (elt (Arr p g)) (fun _ j => s_p s (f j) (C_el (Arr p g) c j)) Hn LC (like_arg (Arr p g)) (bdim_refl p) EP) as [t [Et Lt]].
      { destruct LP as [P1 [P2 [P3 P4]]]. repeat split; auto. intros i j Hi Hj. rewrite P4 by auto. cbv beta. change (size (Arr p g)) with p. rewrite !(bidx_lt p j Hj). reflexivity. }
      exists t, (fun j => uval norm (s_p s (f j) (C_el (Arr p g) c j)) (C_el (Arr p g) c j) (g j)). split; [exact Et|]. split.
      + eapply table_ext; [exact Lt|]. intros i j Hi Hj. cbv beta. rewrite !(bidx_lt p j Hj). reflexivity.
      + intros j Hj. change (g j) with (elt (Arr p g) j) at 1. unfold u. rewrite I. unfold get_k_variables. rewrite conc_scalar, rs_scalar. simpl bind. destruct Hn as [-> | ->]; reflexivity.
  Qed.

  (** finding: wavenumbers in units of the scale radius with one concentration for several haloes: the value normalised to one does not depend on the
      masses, so the mass-weighted one is that value times each mass; but the multiplication is done in place, and fails for any array of wavenumbers of another
      length, a single one included, although it works for a plain number *)
  Theorem c120_one_concentration_refuted : forall n f p g c0 x, p <> 1%nat ->
    (exists t, u_arr s o quad argsort spl false (v1 n f) (v1 p g) (Some "m"%string) (Some (sc c0)) "kappa" = Ok t /\ is_table t 1 n (fun _ i => s_p s (f i) c0 / s_h s c0)) /\
    (n <> p -> u_arr s o quad argsort spl false (v1 n f) (v1 p g) None (Some (sc c0)) "kappa" = Raise ValueError) /\
    (exists t, u_arr s o quad argsort spl false (sc x) (v1 p g) None (Some (sc c0)) "kappa" = Ok t /\ is_table t 1 p (fun _ j => s_p s x c0 / s_h s c0 * g j)).
  Proof.
    intros n f p g c0 x Hp.
    assert (RS : exists ra, ufunc2 (rs_el s o) (v1 p g) (sc c0) = Ok ra) by (destruct (like_ufunc2 (rs_el s o) _ _ _ _ _ _ _ _ _ _ _ _ (like_v1 p g) (like_sc c0) (bdim_refl 1) (bdim_1r p)) as [ra [E _]]; eauto). destruct RS as [ra ER].
    assert (EU : forall k norm, u_arr s o quad argsort spl false k (v1 p g) norm (Some (sc c0)) "kappa" = finish_u false k (sc c0) (v1 p g) norm).
    { intros k norm. unfold u_arr, get_k_arr. cbv zeta. cbn [conc_of]. rewrite ER. reflexivity. }
    rewrite !EU. unfold finish_u.
    destruct (like_ufunc2 (s_p s) _ _ _ _ _ _ _ _ _ _ _ _ (like_v1 n f) (like_sc c0) (bdim_refl 1) (bdim_1r n)) as [pa [EP LP]]. rewrite EP. cbn [bind].
    destruct (like_ufunc2 Rdiv _ _ _ _ _ _ _ _ _ _ _ _ LP (like_map (s_h s) _ _ _ _ _ (like_sc c0)) (bdim_refl 1) (bdim_1r n)) as [u [E2 LU]]. rewrite E2. cbn [bind].
    split; [|split].
    - eexists. split; [reflexivity|]. eapply table_ext; [exact (like_reduce _ _ _ _ _ LU)|]. intros i j Hi Hj. cbv beta. rewrite !(bidx_lt n j Hj). reflexivity.
    - intros Hn. destruct (Nat.eq_dec n 1) as [->|N1].
      + destruct (like_ufunc2 Rmult _ _ _ _ _ _ _ _ _ _ _ _ LU (like_v1 p g) (bdim_refl 1) (bdim_1l p)) as [w [E3 LW]]. unfold imul. rewrite E3. cbn [bind].
        destruct LU as [U1 [U2 [U3 _]]]. destruct LW as [W1 [W2 [W3 _]]]. rewrite W3, U3, U1. replace (p =? 1)%nat with false by (symmetry; now apply Nat.eqb_neq). rewrite andb_false_r. reflexivity.
      + unfold imul. rewrite ufunc2_fails; [reflexivity|]. right. destruct LU as [_ [_ [U3 _]]]. rewrite U3. simpl. apply bdim_none. auto.
    - destruct (like_ufunc2 (s_p s) _ _ _ _ _ _ _ _ _ _ _ _ (like_sc x) (like_sc c0) (bdim_refl 1) (bdim_refl 1)) as [pb [EQ LQ]]. rewrite EQ. cbn [bind].
      destruct (like_ufunc2 Rdiv _ _ _ _ _ _ _ _ _ _ _ _ LQ (like_map (s_h s) _ _ _ _ _ (like_sc c0)) (bdim_refl 1) (bdim_refl 1)) as [v [E4 LV]]. rewrite E4. cbn [bind].
      destruct (like_ufunc2 Rmult _ _ _ _ _ _ _ _ _ _ _ _ LV (like_v1 p g) (bdim_refl 1) (bdim_1l p)) as [w [E5 LW]].
      assert (SH : imul v (v1 p g) = Ok w). { unfold imul. rewrite E5. cbn [bind]. destruct LV as [V1 _]. rewrite V1. reflexivity. }
      rewrite SH. eexists. split; [reflexivity|]. eapply table_ext; [exact (like_reduce _ _ _ _ _ LW)|]. intros i j Hi Hj. cbv beta. rewrite !(bidx_lt p j Hj). reflexivity.
  Qed.

  (** *** C121: profiles without an analytic transform *)
  Lemma flat_spec : forall a x, In x (flat a) <-> exists i j, (i < rows a)%nat /\ (j < cols a)%nat /\ x = ent a i j.
  Proof.
    intros a x. unfold flat. rewrite in_flat_map. split.
    - intros [i [Hi Hx]]. apply in_seq in Hi. apply in_map_iff in Hx. destruct Hx as [j [<- Hj]]. apply in_seq in Hj. exists i, j. repeat split; lia.
    - intros [i [j [Hi [Hj ->]]]]. exists i. split; [apply in_seq; lia|]. apply in_map. apply in_seq. lia.
  Qed.
  (** the smallest and largest of a table of numbers *)
  Definition smallest_of (n p : nat) (K : nat -> nat -> R) (a : R) : Prop := (exists i j, (i < n)%nat /\ (j < p)%nat /\ K i j = a) /\ forall i j, (i < n)%nat -> (j < p)%nat -> a <= K i j.
  Definition largest_of (n p : nat) (K : nat -> nat -> R) (a : R) : Prop := (exists i j, (i < n)%nat /\ (j < p)%nat /\ K i j = a) /\ forall i j, (i < n)%nat -> (j < p)%nat -> K i j <= a.
  (** the transforms quad q 0 c tabulated on the 100 logarithmic steps from a to b, interpolated *)
  Definition interpolated (a b c x : R) : R := let kk := IntegrateCorr.logspace a b 100 in spl kk (map (fun q => quad q 0 c) kk) x.
  Hypothesis quad_additive : forall k a b d, quad k a b + quad k b d = quad k a d.
  Hypothesis argsort_perm : forall l, Permutation (argsort l) (seq 0 (length l)).

  Lemma numeric_2d : forall K c n p X C, like K 2 n p X -> like c 1 1 p (fun _ j => C j) ->
    ((forall i j, (i < n)%nat -> (j < p)%nat -> 0 < X i j) -> (exists i j i2 j2, (i < n)%nat /\ (j < p)%nat /\ (i2 < n)%nat /\ (j2 < p)%nat /\ X i j <> X i2 j2) ->
      exists a b t, smallest_of n p X a /\ largest_of n p X b /\ numeric_p_arr quad argsort spl K c = Ok t /\ like t 2 n p (fun i j => interpolated a b (C j) (X i j))) /\
    (~ ((forall i j, (i < n)%nat -> (j < p)%nat -> 0 < X i j) /\ (exists i j i2 j2, (i < n)%nat /\ (j < p)%nat /\ (i2 < n)%nat /\ (j2 < p)%nat /\ X i j <> X i2 j2)) ->
      numeric_p_arr quad argsort spl K c = Raise ValueError).
  Proof.
    intros K c n p X C [K1 [K2 [K3 K4]]] [C1 [C2 [C3 C4]]].
    assert (E : numeric_p_arr quad argsort spl K c = if negb (aall (Rltb 0) K) || negb (Rltb (lmin (flat K)) (lmax (flat K))) then Raise ValueError
      else Ok (m2 n p (fun i j => let kk := IntegrateCorr.logspace (lmin (flat K)) (lmax (flat K)) 100 in spl kk (map (fun k => numeric_p (quad k) (ent c 0) (argsort (map (ent c 0) (seq 0 p))) j) kk) (ent K i j)))).
    { unfold numeric_p_arr. cbv zeta. rewrite K1. change (2 <? 2)%nat with false. cbv iota. cbn [bind]. unfold atleast_1d. cbn [cols ent]. rewrite K2, K3, C3, Nat.eqb_refl. reflexivity. }
    assert (IN : forall x, In x (flat K) <-> exists i j, (i < n)%nat /\ (j < p)%nat /\ x = X i j).
    { intros x. rewrite flat_spec, K2, K3. split; intros [i [j [Hi [Hj ->]]]]; exists i, j; (split; [auto|split; [auto|]]); first [now apply K4|symmetry; now apply K4]. }
    split.
    - intros Hp [i1 [j1 [i2 [j2 [A1 [A2 [A3 [A4 NE]]]]]]]]. assert (NN : flat K <> []). { intros H0. assert (In (X i1 j1) (flat K)) by (apply IN; eauto). rewrite H0 in H. exact H. }
      exists (lmin (flat K)), (lmax (flat K)).
      assert (SM : smallest_of n p X (lmin (flat K))). { split; [destruct (proj1 (IN _) (lmin_in _ NN)) as [i [j [? [? ?]]]]; exists i, j; auto|intros i j Hi Hj; apply lmin_lb; apply IN; eauto]. }
      assert (LG : largest_of n p X (lmax (flat K))). { split; [destruct (proj1 (IN _) (lmax_in _ NN)) as [i [j [? [? ?]]]]; exists i, j; auto|intros i j Hi Hj; apply lmax_ub; apply IN; eauto]. }
      assert (LT : lmin (flat K) < lmax (flat K)).
      { destruct SM as [_ S]. destruct LG as [_ L]. assert (S1 := S i1 j1 A1 A2). assert (S2 := S i2 j2 A3 A4). assert (L1 := L i1 j1 A1 A2). assert (L2 := L i2 j2 A3 A4). destruct (Rtotal_order (X i1 j1) (X i2 j2)) as [|[|]]; [lra|contradiction|lra]. }
      rewrite E. replace (aall (Rltb 0) K) with true by (symmetry; apply aall_spec; rewrite K2, K3; intros i j Hi Hj; apply Rltb_spec; rewrite K4 by auto; auto).
      replace (Rltb (lmin (flat K)) (lmax (flat K))) with true by (symmetry; now apply Rltb_spec). cbn [negb orb].
      eexists. split; [exact SM|]. split; [exact LG|]. split; [reflexivity|]. split; [reflexivity|]. split; [reflexivity|]. split; [reflexivity|].
      intros i j Hi Hj. cbn [ent m2]. cbv zeta. unfold interpolated. cbv zeta. rewrite K4 by auto. f_equal. apply map_ext. intros q.
      rewrite (c81_cumulative_transform (quad q) (ent c 0) p (argsort (map (ent c 0) (seq 0 p)))); auto; [now rewrite C4 by lia|].
      assert (A := argsort_perm (map (ent c 0) (seq 0 p))). now rewrite map_length, seq_length in A.
    - intros N. rewrite E. destruct (aall (Rltb 0) K) eqn:EA; [|reflexivity]. rewrite aall_spec, K2, K3 in EA. destruct (Rltb (lmin (flat K)) (lmax (flat K))) eqn:EB; [|reflexivity].
      exfalso. apply N. split; [intros i j Hi Hj; rewrite <- K4 by auto; apply Rltb_spec; auto|]. apply Rltb_spec in EB.
      assert (NN : flat K <> []). { intros H0. rewrite H0 in EB. simpl in EB. lra. }
      destruct (proj1 (IN _) (lmin_in _ NN)) as [i [j [? [? ?]]]]. destruct (proj1 (IN _) (lmax_in _ NN)) as [i2 [j2 [? [? ?]]]]. exists i, j, i2, j2. repeat split; auto. lra.
  Qed.

  Theorem c121_numeric_u : forall k m norm c, norm = None \/ norm = Some "m"%string -> good_conc m c ->
    let call := u_arr s o quad argsort spl true (to_arr k) (to_arr m) norm (arr_conc c) "k" in
    let n := size k in let p := size m in let K := fun i j => elt k i * RS_el m c j in
    let usable := (forall i j, (i < n)%nat -> (j < p)%nat -> 0 < K i j) /\ (exists i j i2 j2, (i < n)%nat /\ (j < p)%nat /\ (i2 < n)%nat /\ (j2 < p)%nat /\ K i j <> K i2 j2) in
    (* two arrays: the table, each element interpolated on a grid spanning the K of the whole call *)
    (arg_is_num k = false -> arg_is_num m = false -> usable ->
       exists t a b, call = Ok t /\ smallest_of n p K a /\ largest_of n p K b /\
         is_table t n p (fun i j => uval norm (interpolated a b (C_el m c j) (K i j)) (C_el m c j) (elt m j))) /\
    (* two arrays with a single value (or a non-positive value) of K *)
    (arg_is_num k = false -> arg_is_num m = false -> ~ usable -> call = Raise ValueError) /\
    (* a number against an array *)
    (arg_is_num k <> arg_is_num m -> call = Raise (if (n * p =? 1)%nat then ValueError else AssertionError)) /\
    (* two numbers *)
    (arg_is_num k = true -> arg_is_num m = true -> call = Raise TypeError).
  Proof.
    intros k m norm c Hn Hc call n p K usable. destruct (rs_like m c Hc) as [ra [E LR]]. assert (LC := conc_like m c Hc). destruct (K_like k m c ra Hc E LR) as [Ka [EK LK]].
    unfold call. clear call. rewrite (u_eq true k m norm c Ka EK). set (ca := conc_of s o (to_arr m) (arr_conc c)) in *. assert (LC' := LC). destruct LC' as [C1 [C2 [C3 C4]]].
    assert (FR : forall e, numeric_p_arr quad argsort spl Ka ca = Raise e -> finish_u true Ka ca (to_arr m) norm = Raise e) by (intros e H; unfold finish_u; rewrite H; reflexivity).
    destruct k as [k|nk fk]; destruct m as [m|nm fm]; simpl arg_is_num in *; simpl size in *; simpl rank_arg in *.
    - repeat split; try discriminate; try congruence. intros _ _. apply FR. destruct LK as [K1 _]. unfold numeric_p_arr. cbv zeta. rewrite K1. reflexivity.
    - split; [discriminate|]. split; [discriminate|]. split; [|discriminate]. intros _. apply FR. destruct LK as [K1 [K2 [K3 K4]]]. unfold numeric_p_arr. cbv zeta. rewrite K1. change (1 <? 2)%nat with true. cbv iota. unfold atleast_1d. cbn [cols ent]. rewrite K3, C3, Nat.eqb_refl. cbn [negb]. cbv iota. cbn [bind]. unfold m2 at 1 2. cbn [cols]. unfold n, p.
      destruct (Nat.eqb_spec (1 * nm) 1) as [H|H].
      + assert (H1 : nm = 1%nat) by lia. rewrite H1. change (1 =? 1)%nat with true. cbv iota.
        match goal with |- (if ?A || negb (Rltb (lmin ?l) (lmax ?l2)) then _ else _) = _ => replace (Rltb (lmin l) (lmax l2)) with false by (symmetry; apply Rltb_false; unfold flat; simpl; lra); destruct A; reflexivity end.
      + replace (1 =? nm)%nat with false by (symmetry; apply Nat.eqb_neq; lia). reflexivity.
    - split; [discriminate|]. split; [discriminate|]. split; [|discriminate]. intros _. apply FR. destruct LK as [K1 [K2 [K3 K4]]]. unfold numeric_p_arr. cbv zeta. rewrite K1. change (1 <? 2)%nat with true. cbv iota. unfold atleast_1d. cbn [cols ent]. rewrite K3, C3. unfold n, p.
      destruct (Nat.eqb_spec (nk * 1) 1) as [H|H].
      + assert (H1 : nk = 1%nat) by lia. rewrite H1. change (1 =? 1)%nat with true. cbn [negb]. cbv iota. cbn [bind]. unfold m2 at 1. cbn [cols]. change (1 =? 1)%nat with true. cbv iota.
        match goal with |- (if ?A || negb (Rltb (lmin ?l) (lmax ?l2)) then _ else _) = _ => replace (Rltb (lmin l) (lmax l2)) with false by (symmetry; apply Rltb_false; unfold flat; simpl; lra); destruct A; reflexivity end.
      + replace (nk =? 1)%nat with false by (symmetry; apply Nat.eqb_neq; lia). cbn [negb]. cbv iota. cbn [bind]. unfold m2 at 1. cbn [cols]. replace (nk =? 1)%nat with false by (symmetry; apply Nat.eqb_neq; lia). reflexivity.
    - destruct (numeric_2d Ka ca nk nm K (C_el (Arr nm fm) c) LK LC) as [GA GB]. split; [|split; [|split]].
      + intros _ _ [U1 U2]. destruct (GA U1 U2) as [a [b [t [SM [LG [ET LT]]]]]].
        destruct (finish_u_ok true Ka ca (to_arr (Arr nm fm)) norm 1 nm nm nm nk t (C_el (Arr nm fm) c) (elt (Arr nm fm)) (fun i j => interpolated a b (C_el (Arr nm fm) c j) (K i j)) Hn LC (like_arg (Arr nm fm)) (bdim_refl nm) ET) as [r [Er Lr]].
        { destruct LT as [T1 [T2 [T3 T4]]]. repeat split; auto. }
        exists r, a, b. split; [exact Er|]. split; [exact SM|]. split; [exact LG|]. eapply table_ext; [exact Lr|]. intros i j Hi Hj. cbv beta. rewrite !(bidx_lt nm j Hj). reflexivity.
      + intros _ _ U. apply FR. apply GB. exact U.
      + congruence.
      + discriminate.
  Qed.
  (** the ends of the grid are exact (for a spline through its data), so the elements with the smallest and the
      largest K of the call are the transforms themselves *)
  Theorem c121_extreme_elements_exact : forall a b c, (forall xs ys i, length xs = length ys -> (i < length xs)%nat -> spl xs ys (nth i xs 0) = nth i ys 0) -> 0 < a -> a < b ->
    interpolated a b c a = quad a 0 c /\ interpolated a b c b = quad b 0 c.
  Proof.
    intros a b c SP Ha Hb. unfold interpolated. cbv zeta. set (kk := IntegrateCorr.logspace a b 100).
    assert (L : length kk = 100%nat) by apply IntegrateProofs.logspace_len.
    assert (N0 : nth 0 kk 0 = a) by (unfold kk; rewrite GridProofs.logspace_nth by lia; simpl INR; rewrite Rmult_0_l, Rplus_0_r; now apply exp_ln).
    assert (N1 : nth 99 kk 0 = b). { unfold kk. rewrite GridProofs.logspace_nth by lia. replace (ln a + INR 99 * ((ln b - ln a) / INR (100 - 1))) with (ln b); [apply exp_ln; lra|]. change (100 - 1)%nat with 99%nat. field. apply not_0_INR. lia. }
    split.
    - rewrite <- N0 at 1. rewrite (SP kk (map (fun q => quad q 0 c) kk) 0%nat) by (rewrite ?map_length; lia). rewrite (nth_indep _ 0 (quad 0 0 c)) by (rewrite map_length; lia). rewrite (map_nth (fun q => quad q 0 c)). now rewrite N0.
    - rewrite <- N1 at 1. rewrite (SP kk (map (fun q => quad q 0 c) kk) 99%nat) by (rewrite ?map_length; lia). rewrite (nth_indep _ 0 (quad 0 0 c)) by (rewrite map_length; lia). rewrite (map_nth (fun q => quad q 0 c)). now rewrite N1.
  Qed.
End P.
Print Assumptions c120_rho_table.
Print Assumptions c120_rho_table_virial_units.
Print Assumptions c120_scaled_radii_are_paired_refuted.
Print Assumptions c120_rho_of_numbers_refuted.
Print Assumptions c120_constant_profile_refuted.
Print Assumptions c120_u_table.
Print Assumptions c120_lam_table.
Print Assumptions c120_cdf_table.
Print Assumptions c120_scaled_wavenumbers_are_paired_refuted.
Print Assumptions c120_one_concentration_refuted.
Print Assumptions c121_numeric_u.
Print Assumptions c121_extreme_elements_exact.

(** *** the hypotheses are met: two haloes, three radii, an NFW (s_l given) and a Constant profile, exact additive
    quadrature, an argsort that returns a permutation; and wavenumbers 1, 2 against two haloes give usable K *)
Definition ex_inst : inst := mkInst 200 1 1 0 (fun _ => 1) (fun m => 5 + m).
Definition ex_m : arg := Arr 2 (fun j => INR j + 1).
Definition ex_r : arg := Arr 3 (fun j => INR j + 1).
Example ex_c120_hyps : forall Si Ci, good_norm None /\ good_norm (Some "rho"%string) /\ good_conc ex_m (Some (Arr 2 (fun _ => 3))) /\ s_inf (NFW Si Ci) = false /\ s_l (NFW Si Ci) = Some nfw_l /\
  arg_is_num ex_r && arg_is_num ex_m = false /\ (forall j, (j < size ex_m)%nat -> 0 < C_el (NFW Si Ci) ex_inst ex_m None j) /\ (forall x, s_f ConstantProfile x = 1) /\ size ex_m <> 1%nat.
Proof.
  intros Si Ci. unfold good_norm. repeat split; auto; try discriminate. intros j Hj. unfold C_el, cm_relation. simpl. assert (0 <= INR j) by apply pos_INR. lra.
Qed.
Example ex_c121_hyps : (forall k a b d : R, (fun _ a b => b - a) k a b + (fun _ a b => b - a) k b d = (fun _ a b => b - a) k a d) /\
  (forall l : list R, Permutation ((fun l => seq 0 (length l)) l) (seq 0 (length l))) /\
  (let K := fun i j => elt ex_r i * RS_el (Moore (fun _ _ => 1)) ex_inst ex_m None j in
   (forall i j, (i < 3)%nat -> (j < 2)%nat -> 0 < K i j) /\ exists i j i2 j2, (i < 3)%nat /\ (j < 2)%nat /\ (i2 < 3)%nat /\ (j2 < 2)%nat /\ K i j <> K i2 j2).
Proof.
  split; [intros; simpl; ring|]. split; [intros; apply Permutation_refl|]. cbv zeta.
  assert (P : forall j, 0 < RS_el (Moore (fun _ _ => 1)) ex_inst ex_m None j).
  { intros j. assert (I := pos_INR j). unfold RS_el, rs_el, C_el, cm_relation. simpl s_moore. cbv iota. unfold base_rs, halo_mass_to_radius, bloat. unfold Rdiv. repeat (first [apply Rmult_lt_0_compat|apply Rinv_0_lt_compat]); try apply exp_pos; simpl; try lra. }
  split; [intros i j Hi Hj; apply Rmult_lt_0_compat; auto; simpl; assert (0 <= INR i) by apply pos_INR; lra|].
  exists 0%nat, 0%nat, 1%nat, 0%nat. repeat split; try lia. assert (A := P 0%nat). simpl elt. simpl INR. lra.
Qed.
Print Assumptions c120_lam_one_scaled_radius_refuted.
