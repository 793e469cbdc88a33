(** Which of the two halo models decides the cross spectrum (C144).  Code under study: /repo/src/halomod/cross_correlations.py:191-373. *)
From Coq Require Import Reals List Bool Arith Lia Lra.
From Verif Require Import Model.RBool Model.Quad Model.ExtSpline Model.Exclusion Model.Profiles Model.HOD Model.HaloModel Model.Cross Model.CrossShapes.
From Verif Require Import Spec.HMSpec Proofs.HMProofs Props.HaloModelProps Props.HaloModelProps2 Props.CrossProps Props.FindMminProps Props.HMTotalProps.
Import ListNotations.
Local Open Scope R_scope.

(** the two halo models tabulate the same things at the same places *)
Definition same_masses (h1 h2 : dmhm) : Prop := d_nm h1 = d_nm h2 /\ forall i, (i < d_nm h1)%nat -> d_m h1 i = d_m h2 i.
Definition same_wavenumbers (h1 h2 : dmhm) : Prop := d_nk h1 = d_nk h2 /\ forall i, (i < d_nk h1)%nat -> d_k h1 i = d_k h2 i.
Definition same_scales (h1 h2 : dmhm) : Prop := d_nr h1 = d_nr h2 /\ forall i, (i < d_nr h1)%nat -> d_r h1 i = d_r h2 i.
(** the coefficients for the tracers in the other order *)
Definition other_order (c : cross) : cross := mkCross (x_h2 c) (x_h1 c) (x_Rss c) (x_Rsc c) (x_Rcs c) (x_self c).

Lemma tab_ext : forall n f g, (forall i, (i < n)%nat -> f i = g i) -> tab n f = tab n g.
Proof. intros n f g H. unfold tab. apply map_ext_in. intros i Hi. apply in_seq in Hi. apply H. lia. Qed.

Lemma integ_exchange : forall h1 h2 t1 t2 c ik i, d_m h1 i = d_m h2 i -> 
  exists g, integ1 h1 t1 t2 c ik i = d_dndm h1 i * g /\ integ1 h2 t2 t1 (other_order c) ik i = d_dndm h2 i * g.
Proof.
  intros h1 h2 t1 t2 c ik i M. destruct (c68_exchange c (d_m h2 i)) as (A & B & C). unfold exchange in *. eexists. split; [unfold integ1; reflexivity|].
  unfold integ1, other_order. rewrite A, B, C, M. ring.
Qed.
Lemma kept_exchange : forall h1 h2 c, same_masses h1 h2 -> kept h2 (other_order c) = kept h1 c.
Proof.
  intros h1 h2 c [N M]. unfold kept. rewrite <- N. apply filter_ext_in. intros i Hi. apply in_seq in Hi. unfold okmass. rewrite <- M by lia.
  destruct (c68_exchange c (d_m h1 i)) as (A & B & C). unfold exchange, other_order in *. rewrite A, B, C. destruct (isnum (ss_cross_pairs c (d_m h1 i))), (isnum (cs_cross_pairs c (d_m h1 i))), (isnum (sc_cross_pairs c (d_m h1 i))); reflexivity.
Qed.
Lemma kept_lt : forall h c i, In i (kept h c) -> (i < d_nm h)%nat.
Proof. intros h c i H. unfold kept in H. apply filter_In in H. destruct H as [H _]. apply in_seq in H. lia. Qed.

(** C144: models of the same background - the same masses, mass function, wavenumbers, separations and spectra - give the same cross spectra and correlation in either order *)
Theorem c144_symmetric : forall I sp us hk simp h1 h2 t1 t2 c, same_masses h1 h2 -> same_wavenumbers h1 h2 -> same_scales h1 h2 ->
  (forall i, (i < d_nm h1)%nat -> d_dndm h1 i = d_dndm h2 i) -> d_phc h1 = d_phc h2 -> d_plin h1 = d_plin h2 ->
  power_1h_cross_arrays I sp us simp h2 h1 t2 t1 (other_order c) = power_1h_cross_arrays I sp us simp h1 h2 t1 t2 c /\
  power_2h_cross_arrays I sp us h2 h1 t2 t1 = power_2h_cross_arrays I sp us h1 h2 t1 t2 /\
  power_cross_arrays I sp us simp h2 h1 t2 t1 (other_order c) = power_cross_arrays I sp us simp h1 h2 t1 t2 c /\
  corr_cross_arrays I sp us hk simp h2 h1 t2 t1 (other_order c) = corr_cross_arrays I sp us hk simp h1 h2 t1 t2 c.
Proof.
  intros I sp us hk simp h1 h2 t1 t2 c SM [NK K] [NR SR] D PH PL.
  assert (A : power_1h_cross_arrays I sp us simp h2 h1 t2 t1 (other_order c) = power_1h_cross_arrays I sp us simp h1 h2 t1 t2 c).
  { destruct (SM) as [NM M]. unfold power_1h_cross_arrays. rewrite <- NM, <- NK. destruct (negb (d_nm h1 =? d_nm h1)%nat); auto. destruct (negb (d_nk h1 =? d_nk h1)%nat); auto.
    unfold power_1h_cross. rewrite <- NK. f_equal; [apply tab_ext; intros; symmetry; auto|]. apply tab_ext. intros ik Hk. unfold p1h_cross. rewrite (kept_exchange h1 h2 c SM).
    f_equal; [|ring]. f_equal; apply map_ext_in; intros i Hi; apply kept_lt in Hi; [|symmetry; auto].
    destruct (integ_exchange h1 h2 t1 t2 c ik i (M i Hi)) as (g & E1 & E2). rewrite E1, E2, D by auto. reflexivity. }
  assert (B : power_2h_cross_arrays I sp us h2 h1 t2 t1 = power_2h_cross_arrays I sp us h1 h2 t1 t2).
  { unfold power_2h_cross_arrays. rewrite <- NK. destruct (negb (d_nk h1 =? d_nk h1)%nat); auto. unfold power_2h_cross. rewrite <- NK, PL. f_equal; [apply tab_ext; intros; symmetry; auto|].
    apply tab_ext. intros ik Hk. unfold p2h_cross. rewrite PH, <- K by auto. f_equal; ring. }
  split; [exact A|]. split; [exact B|]. split; [unfold power_cross_arrays; rewrite A, B; reflexivity|].
  unfold corr_cross_arrays. rewrite A, B. unfold to_corr, rspline. rewrite <- NR. rewrite (tab_ext (d_nr h1) (d_r h2) (d_r h1)) by (intros; symmetry; auto).
  assert (T : forall md p, tab (d_nr h1) (fun ir => hk md p (d_r h2 ir)) = tab (d_nr h1) (fun ir => hk md p (d_r h1 ir))) by (intros; apply tab_ext; intros; rewrite SR; auto).
  destruct (power_1h_cross_arrays I sp us simp h1 h2 t1 t2 c) as [a|]; [|reflexivity]. cbv beta iota delta [bind]. rewrite T.
  destruct (power_2h_cross_arrays I sp us h1 h2 t1 t2) as [b|]; [rewrite T|]; reflexivity.
Qed.
Print Assumptions c144_symmetric.

(** otherwise the first model decides.  2-halo: the spectrum is in proportion to the halo-centre power of the first model alone, so (where it does not vanish) the order does not matter
    exactly where the two halo-centre spectra agree *)
Theorem c144_two_halo_order : forall I sp us h1 h2 t1 t2 P12 P21 i, interpolates (sp 3%nat) -> grid (d_nk h1) (d_k h1) -> same_wavenumbers h1 h2 -> (i < d_nk h1)%nat ->
  power_2h_cross_arrays I sp us h1 h2 t1 t2 = Ok P12 -> power_2h_cross_arrays I sp us h2 h1 t2 t1 = Ok P21 -> let k := d_k h1 i in
  P12 k * d_phc h2 k = P21 k * d_phc h1 k /\ (P12 k <> 0 -> (P12 k = P21 k <-> d_phc h1 k = d_phc h2 k)).
Proof.
  intros I sp us h1 h2 t1 t2 P12 P21 i Hs G [NK K] Hi H1 H2 k. unfold power_2h_cross_arrays in *. rewrite <- NK, Nat.eqb_refl in *. cbv beta iota delta [negb] in *.
  assert (G2 : grid (d_nk h2) (d_k h2)). { rewrite <- NK. destruct G as (A & B & C). split; auto. split; [intros; rewrite <- K; auto|intros a b L; rewrite <- !K by lia; auto]. }
  assert (E1 : P12 k = p2h_cross I h1 h2 t1 t2 i) by (unfold k; exact (efun_node _ _ _ _ _ _ _ _ _ _ Hs G Hi H1)).
  assert (E2 : P21 k = p2h_cross I h2 h1 t2 t1 i) by (unfold k; rewrite K by auto; apply (efun_node _ _ _ _ _ _ _ _ _ _ Hs G2 ltac:(rewrite <- NK; exact Hi) H2)).
  assert (F : P12 k * d_phc h2 k = P21 k * d_phc h1 k).
  { rewrite E1, E2. unfold p2h_cross. rewrite <- K by auto. fold k. rewrite (Rmult_comm (mean_tracer_den I h2 t2)). unfold Rdiv. ring. }
  split; [exact F|]. intros NZ. split; intros Q.
  - rewrite Q in F. apply Rmult_eq_reg_l in F; [auto|]. now rewrite <- Q.
  - rewrite Q in F. apply Rmult_eq_reg_r in F; auto. intros Z. apply NZ. rewrite E1. unfold p2h_cross. fold k. rewrite Q, Z. unfold Rdiv. ring.
Qed.
Print Assumptions c144_two_halo_order.

(** 1-halo: the mass function of the first model alone counts: if that of the second is q times it, the spectrum in the other order is q times as large *)
Definition homogeneous (simp : list R -> list R -> R) : Prop := forall q y x, simp (map (Rmult q) y) x = q * simp y x.
Theorem c144_one_halo_order : forall I sp us simp h1 h2 t1 t2 c P12 P21 i q, interpolates (sp 3%nat) -> homogeneous simp -> grid (d_nk h1) (d_k h1) -> same_wavenumbers h1 h2 -> same_masses h1 h2 -> (i < d_nk h1)%nat ->
  (forall im, (im < d_nm h1)%nat -> d_dndm h2 im = q * d_dndm h1 im) ->
  power_1h_cross_arrays I sp us simp h1 h2 t1 t2 c = Ok P12 -> power_1h_cross_arrays I sp us simp h2 h1 t2 t1 (other_order c) = Ok P21 -> P21 (d_k h1 i) = q * P12 (d_k h1 i).
Proof.
  intros I sp us simp h1 h2 t1 t2 c P12 P21 i q Hs HL G [NK K] SM Hi D H1 H2. destruct (SM) as [NM M]. unfold power_1h_cross_arrays in *. rewrite <- NK, <- NM, !Nat.eqb_refl in *. cbv beta iota delta [negb] in *.
  assert (G2 : grid (d_nk h2) (d_k h2)). { rewrite <- NK. destruct G as (A & B & C). split; auto. split; [intros; rewrite <- K; auto|intros a b L; rewrite <- !K by lia; auto]. }
  assert (E1 : P12 (d_k h1 i) = p1h_cross I simp h1 h2 t1 t2 c i) by exact (efun_node _ _ _ _ _ _ _ _ _ _ Hs G Hi H1).
  assert (E2 : P21 (d_k h1 i) = p1h_cross I simp h2 h1 t2 t1 (other_order c) i) by (rewrite K by auto; apply (efun_node _ _ _ _ _ _ _ _ _ _ Hs G2 ltac:(rewrite <- NK; exact Hi) H2)).
  rewrite E1, E2. unfold p1h_cross. rewrite (kept_exchange h1 h2 c SM), (Rmult_comm (mean_tracer_den I h2 t2)). unfold Rdiv. rewrite <- Rmult_assoc. f_equal. rewrite <- HL, map_map. f_equal; apply map_ext_in; intros j Hj; apply kept_lt in Hj.
  - destruct (integ_exchange h1 h2 t1 t2 c i j (M j Hj)) as (g & -> & ->). rewrite D by auto. ring.
  - symmetry; auto.
Qed.
Print Assumptions c144_one_halo_order.

(** what the grids must share: the 1-halo term needs as many masses and as many wavenumbers in both models, the 2-halo term as many wavenumbers; otherwise they raise *)
Theorem c144_grids : forall I sp us hk simp h1 h2 t1 t2 c, grid (d_nk h1) (d_k h1) -> grid (d_nr h1) (d_r h1) ->
  ((exists P, power_1h_cross_arrays I sp us simp h1 h2 t1 t2 c = Ok P) <-> d_nm h1 = d_nm h2 /\ d_nk h1 = d_nk h2) /\
  ((exists P, power_2h_cross_arrays I sp us h1 h2 t1 t2 = Ok P) <-> d_nk h1 = d_nk h2) /\
  ((exists P, corr_cross_arrays I sp us hk simp h1 h2 t1 t2 c = Ok P) <-> d_nm h1 = d_nm h2 /\ d_nk h1 = d_nk h2).
Proof.
  intros I sp us hk simp h1 h2 t1 t2 c GK GR. destruct (c98_cross_total I sp us hk simp h1 h2 t1 t2 c GK GR) as [[P HP] [xi Hx]].
  unfold power_cross in HP. apply bind_ok in HP. destruct HP as [a [Ha HP]]. apply bind_ok in HP. destruct HP as [b [Hb _]].
  unfold corr_cross_arrays, power_1h_cross_arrays, power_2h_cross_arrays. destruct (Nat.eqb_spec (d_nm h1) (d_nm h2)) as [E|E]; destruct (Nat.eqb_spec (d_nk h1) (d_nk h2)) as [F|F]; cbv beta iota delta [negb].
  - split; [|split]; split; intros _; auto; [exists a; exact Ha|exists b; exact Hb|]. exists xi. exact Hx.
  - split; [|split]; split; try (intros [x X]; discriminate); try (intros [X Y]; contradiction); intros; contradiction.
  - split; [|split]; split; try (intros [x X]; discriminate); try (intros [X Y]; contradiction); auto. intros _. exists b. exact Hb.
  - split; [|split]; split; try (intros [x X]; discriminate); try (intros [X Y]; contradiction); intros; contradiction.
Qed.
Print Assumptions c144_grids.

(** two models on grids of the same length: the spectra and correlations are those of C69, C96 and C97 *)
Theorem c144_same_grids : forall I sp us hk simp h1 h2 t1 t2 c, d_nm h1 = d_nm h2 -> d_nk h1 = d_nk h2 ->
  power_1h_cross_arrays I sp us simp h1 h2 t1 t2 c = power_1h_cross I sp us simp h1 h2 t1 t2 c /\ power_2h_cross_arrays I sp us h1 h2 t1 t2 = power_2h_cross I sp us h1 h2 t1 t2 /\
  power_cross_arrays I sp us simp h1 h2 t1 t2 c = power_cross I sp us simp h1 h2 t1 t2 c /\ corr_cross_arrays I sp us hk simp h1 h2 t1 t2 c = corr_cross I sp us hk simp h1 h2 t1 t2 c.
Proof.
  intros I sp us hk simp h1 h2 t1 t2 c E F. unfold power_cross_arrays, corr_cross_arrays, power_1h_cross_arrays, power_2h_cross_arrays. rewrite E, F, !Nat.eqb_refl. cbv beta iota delta [negb]. repeat split; reflexivity.
Qed.
Print Assumptions c144_same_grids.
(** with as many wavenumbers, their values in the second model are not looked at: rows are paired by position *)
Definition with_wavenumbers (h : dmhm) (k : nat -> R) : dmhm :=
  mkDM (d_nm h) (d_m h) (d_dndm h) (d_bias h) (d_dlog10m h) (d_nk h) k (d_khm h) (d_power h) (d_phc h) (d_plin h) (d_hc h) (d_nr h) (d_r h) (d_ukm h) (d_lam h) (d_rho0 h) (d_rhoh h) (d_delta h)
       (d_turnover h) (d_unity h) (d_noexcl h) (d_sd h).
Theorem c144_paired_by_position : forall I sp us hk simp h1 h2 t1 t2 c k',
  power_cross_arrays I sp us simp h1 (with_wavenumbers h2 k') t1 t2 c = power_cross_arrays I sp us simp h1 h2 t1 t2 c /\
  corr_cross_arrays I sp us hk simp h1 (with_wavenumbers h2 k') t1 t2 c = corr_cross_arrays I sp us hk simp h1 h2 t1 t2 c.
Proof. intros. split; reflexivity. Qed.
Print Assumptions c144_paired_by_position.

(** *** two concrete models of the same tracer; the second halo-centre spectrum is twice the first: the spectrum depends on the order *)
Definition h2_ex : dmhm := mkDM 3 (d_m h0) (d_dndm h0) (d_bias h0) 1 4 (fun i => INR (S i)) [1] (fun _ => 1) (fun k => 2 / k) (fun _ => 1) Linear 5 (fun i => INR (S i)) (fun _ _ => 1) None 1 1 200 false false true None.
Example c144_order_matters : forall us, exists P12 P21, power_2h_cross_arrays step_quad (fun _ => linterp) us h1_ex h2_ex t0 t0 = Ok P12 /\ power_2h_cross_arrays step_quad (fun _ => linterp) us h2_ex h1_ex t0 t0 = Ok P21 /\
  P12 1 <> 0 /\ P12 1 <> P21 1.
Proof.
  intros us. assert (GK : grid 4 (fun i => INR (S i))) by (apply grid_INR; lia).
  assert (A : exists P, power_2h_cross step_quad (fun _ => linterp) us h1_ex h2_ex t0 t0 = Ok P) by (apply efun_total; auto; discriminate).
  assert (B : exists P, power_2h_cross step_quad (fun _ => linterp) us h2_ex h1_ex t0 t0 = Ok P) by (apply efun_total; auto; discriminate).
  destruct A as [P12 A], B as [P21 B]. exists P12, P21. split; [exact A|]. split; [exact B|].
  destruct (c58_nonvacuous) as (X & D & BE).
  assert (E12 : Rpower 10 12 = 10 ^ 12) by (rewrite <- p10; f_equal; simpl; lra).
  assert (X0 : d_m h0 0%nat < Rpower 10 12). { rewrite E12. change (10 ^ 11 < 10 ^ 12). apply Rlt_pow; [lra|lia]. }
  assert (V : P12 1 = bias_effective_tracer step_quad h0 t0 * bias_effective_tracer step_quad h0 t0 * / 1).
  { assert (E := efun_node (fun _ => linterp) us _ _ _ _ _ _ _ 0%nat interpolates_linterp GK ltac:(lia) A). change (P12 1) with (P12 (INR 1)). etransitivity; [exact E|].
    exact (c69_large_scale step_quad h1_ex h2_ex t0 t0 0%nat h0_grid h0_grid eq_refl eq_refl X0 X0 ltac:(apply Rgt_not_eq; exact D) ltac:(apply Rgt_not_eq; exact D) (fun _ _ => eq_refl) (fun _ _ => eq_refl)). }
  assert (NZ : P12 1 <> 0) by (rewrite V; nra). split; [exact NZ|].
  assert (SW : same_wavenumbers h1_ex h2_ex) by (split; [reflexivity|intros; reflexivity]).
  destruct (c144_two_halo_order step_quad (fun _ => linterp) us h1_ex h2_ex t0 t0 P12 P21 0%nat interpolates_linterp GK SW ltac:(simpl; lia) A B) as [_ Q]. simpl in Q. intros Z. apply (Q NZ) in Z. lra.
Qed.
(** a rule of integration with the property assumed of Simpson's *)
Example homogeneous_met : homogeneous (fun y x => lsum y).
Proof. intros q y x. induction y; simpl; [ring|]. unfold lsum in *. simpl. rewrite IHy. ring. Qed.
