(** C122: the nonlinear mass, concentration.py:109-173. *)
From Coq Require Import Reals List Bool Lra.
From Coquelicot Require Import Coquelicot.
From Verif Require Import Model.RBool Model.HODFloat Model.Profiles Model.Concentration Model.MassNonlinear Spec.MassNonlinearSpec Props.ConcProps.
Import ListNotations.
Local Open Scope R_scope.

Lemma objective_derive : forall i z x d, is_derive (ci_sigma i) (exp x) d ->
  is_derive (mnl_objective i z) x (2 * (ci_sigma i (exp x) * ci_growth i z - ci_delta_c i) * (d * exp x * ci_growth i z)).
Proof.
  intros i z x d D. unfold mnl_objective. auto_derive; [exists d; exact D|]. replace (Derive (fun x0 : R => ci_sigma i x0) (exp x)) with d by (symmetry; exact (is_derive_unique _ _ _ D)). ring.
Qed.

(** wherever the minimiser stops with a vanishing gradient, the mass returned is that of the collapse radius *)
Theorem c122_nonlinear_mass : forall minimize i z x, minimize (mnl_objective i z) 1 = Some x -> stationary (mnl_objective i z) x ->
  (exists d, is_derive (ci_sigma i) (exp x) d /\ d <> 0) -> ci_growth i z <> 0 ->
  exists r, collapse_radius (ci_sigma i) (ci_growth i) (ci_delta_c i) z r /\ mass_nonlinear minimize i z = ci_r2m i r.
Proof.
  intros minimize i z x E S [d [D N]] G. exists (exp x). split; [|unfold mass_nonlinear; now rewrite E]. split; [apply exp_pos|].
  assert (U := objective_derive i z x d D). apply is_derive_unique in U. apply is_derive_unique in S. rewrite S in U. assert (P := exp_pos x).
  assert (Q : (ci_sigma i (exp x) * ci_growth i z - ci_delta_c i) * (d * exp x * ci_growth i z) = 0) by lra.
  apply Rmult_integral in Q. destruct Q as [Q|Q]; [lra|]. exfalso. apply Rmult_integral in Q. destruct Q as [Q|Q]; [|contradiction]. apply Rmult_integral in Q. destruct Q; [contradiction|lra].
Qed.
(** with a strictly falling rms the collapse radius is unique, and the nonlinear mass strictly falls with a falling growth *)
Theorem c122_collapse_radius_unique : forall sigma D dc z r1 r2, (forall a b, 0 < a < b -> sigma b < sigma a) -> 0 < D z ->
  collapse_radius sigma D dc z r1 -> collapse_radius sigma D dc z r2 -> r1 = r2.
Proof.
  intros sigma D dc z r1 r2 M P [A B] [A2 B2]. destruct (Rtotal_order r1 r2) as [L|[L|L]]; auto; exfalso.
  - assert (H := M r1 r2 (conj A L)). assert (sigma r2 * D z < sigma r1 * D z) by (apply Rmult_lt_compat_r; auto). lra.
  - assert (H := M r2 r1 (conj A2 L)). assert (sigma r1 * D z < sigma r2 * D z) by (apply Rmult_lt_compat_r; auto). lra.
Qed.
Theorem c122_nonlinear_mass_falls_with_redshift : forall minimize i z1 z2 x1 x2,
  minimize (mnl_objective i z1) 1 = Some x1 -> stationary (mnl_objective i z1) x1 -> minimize (mnl_objective i z2) 1 = Some x2 -> stationary (mnl_objective i z2) x2 ->
  (forall r, 0 < r -> exists d, is_derive (ci_sigma i) r d /\ d < 0) -> (forall r, 0 < r -> 0 < ci_sigma i r) -> (forall a b, 0 < a < b -> ci_sigma i b < ci_sigma i a) ->
  (forall a b, 0 < a < b -> ci_r2m i a < ci_r2m i b) -> 0 < ci_growth i z2 < ci_growth i z1 ->
  mass_nonlinear minimize i z2 < mass_nonlinear minimize i z1.
Proof.
  intros minimize i z1 z2 x1 x2 E1 S1 E2 S2 D P M R G.
  assert (DD : forall x, exists d, is_derive (ci_sigma i) (exp x) d /\ d <> 0) by (intros x; destruct (D (exp x) (exp_pos x)) as [d [A B]]; exists d; split; auto; lra).
  destruct (c122_nonlinear_mass minimize i z1 x1 E1 S1 (DD x1)) as [r1 [[P1 C1] V1]]; [lra|]. destruct (c122_nonlinear_mass minimize i z2 x2 E2 S2 (DD x2)) as [r2 [[P2 C2] V2]]; [lra|].
  rewrite V1, V2. apply R. split; auto. destruct (Rlt_le_dec r2 r1) as [|L]; auto. exfalso.
  assert (ci_sigma i r2 <= ci_sigma i r1) by (destruct L as [L|L]; [left; apply M; split; auto|rewrite L; lra]). assert (Q := P r2 P2).
  assert (ci_sigma i r2 * ci_growth i z2 < ci_sigma i r2 * ci_growth i z1) by (apply Rmult_lt_compat_l; lra).
  assert (ci_sigma i r2 * ci_growth i z1 <= ci_sigma i r1 * ci_growth i z1) by (apply Rmult_le_compat_r; lra). lra.
Qed.
(** finding: when no radius collapses (the rms of the smallest scales is below delta_c, as at high redshift) there is
    nothing for the minimiser to converge to: a minimiser that reports success only at a vanishing gradient fails, the
    nonlinear mass is 0 and every concentration of the power-law relations with a falling slope is 0 *)
Theorem c122_nothing_collapses_refuted : forall minimize i z, (forall x, minimize (mnl_objective i z) 1 = Some x -> stationary (mnl_objective i z) x) ->
  (forall r, 0 < r -> exists d, is_derive (ci_sigma i) r d /\ d <> 0) -> ci_growth i z <> 0 -> (forall r, 0 < r -> ci_sigma i r * ci_growth i z < ci_delta_c i) ->
  mass_nonlinear minimize i z = 0 /\
  forall norm a b c m, b < 0 -> bullock01power norm a b c None (mass_nonlinear minimize i) m z = Fin 0.
Proof.
  intros minimize i z S D G L. assert (Z : mass_nonlinear minimize i z = 0).
  { destruct (minimize (mnl_objective i z) 1) as [x|] eqn:E; [|unfold mass_nonlinear; now rewrite E]. exfalso.
    destruct (c122_nonlinear_mass minimize i z x E (S x eq_refl) (D (exp x) (exp_pos x)) G) as [r [[P C] _]]. assert (Q := L r P). lra. }
  split; auto. intros norm a b c m B. unfold bullock01power. cbn [truthy]. rewrite Z. unfold power_cm. replace (Reqb 0 0) with true by (symmetry; now apply Reqb_spec).
  replace (Rltb b 0) with true by (symmetry; now apply Rltb_spec). unfold scale_f, np_mul. cbn. f_equal. ring.
Qed.

(** the mass definition of a relation: a class without native definitions needs one; the default never warns, a given
    one warns exactly when it is not native *)
Theorem c122_mass_definition : forall (A : Type) (eqb : A -> A -> bool) native, (forall a b, eqb a b = true <-> a = b) ->
  (cm_mdef eqb native None = Raise IndexError <-> native = []) /\
  (forall d l, native = d :: l -> cm_mdef eqb native None = Ok (d, false)) /\
  (forall d, exists w, cm_mdef eqb native (Some d) = Ok (d, w) /\ (w = true <-> ~ In d native)).
Proof.
  intros A eqb native E. split; [|split].
  - destruct native; simpl; split; auto; discriminate.
  - intros d l ->. unfold cm_mdef. cbn. replace (eqb d d) with true by (symmetry; now apply E). reflexivity.
  - intros d. eexists. split; [reflexivity|]. rewrite negb_true_iff. split.
    + intros H I. assert (T : existsb (eqb d) native = true) by (apply existsb_exists; exists d; split; auto; now apply E). congruence.
    + intros N. destruct (existsb (eqb d) native) eqn:X; auto. apply existsb_exists in X. destruct X as [y [Iy Ey]]. apply E in Ey. subst. contradiction.
Qed.

(** *** the hypotheses are met: sigma(r) = 2/r, D(z) = 1/(1+z), delta_c = 1 and a minimiser that finds the root
    ln(2 D); and, for the last theorem, sigma(r) = 1/(1+r) with delta_c = 2 *)
Definition ex_mnl : cm_inputs := mkCmInputs (fun r => 2 / r) (fun z => / (1 + z)) 1 (fun r => r ^ 3).
Lemma ex_mnl_stationary : forall z, 0 <= z -> stationary (mnl_objective ex_mnl z) (ln (2 / (1 + z))).
Proof.
  intros z Hz. unfold stationary. assert (P : 0 < 2 / (1 + z)) by (apply Rdiv_lt_0_compat; lra).
  replace 0 with (2 * (ci_sigma ex_mnl (exp (ln (2 / (1 + z)))) * ci_growth ex_mnl z - ci_delta_c ex_mnl) * ((- 2 / exp (ln (2 / (1 + z))) ^ 2) * exp (ln (2 / (1 + z))) * ci_growth ex_mnl z)).
  - apply objective_derive. unfold ex_mnl, ci_sigma. assert (Q := exp_pos (ln (2 / (1 + z)))). auto_derive; [lra|]. field. lra.
  - rewrite exp_ln by auto. simpl. field. lra.
Qed.
Example ex_c122 : exists minimize, (forall z, 0 <= z -> exists x, minimize (mnl_objective ex_mnl z) 1 = Some x /\ stationary (mnl_objective ex_mnl z) x) /\
  (forall r, 0 < r -> exists d, is_derive (ci_sigma ex_mnl) r d /\ d < 0) /\ (forall r, 0 < r -> 0 < ci_sigma ex_mnl r) /\ (forall a b, 0 < a < b -> ci_sigma ex_mnl b < ci_sigma ex_mnl a) /\
  (forall a b, 0 < a < b -> ci_r2m ex_mnl a < ci_r2m ex_mnl b) /\ 0 < ci_growth ex_mnl 1 < ci_growth ex_mnl 0.
Proof.
  (* recover z from the value of the objective far out: f(ln 2) = (D - 1)^2 with D <= 1 *)
  exists (fun f _ => Some (ln (2 * (1 - sqrt (f (ln 2)))))). split; [|split; [|split; [|split; [|split]]]].
  - intros z Hz. exists (ln (2 / (1 + z))). split; [|now apply ex_mnl_stationary]. f_equal. f_equal. unfold mnl_objective, ex_mnl. simpl ci_sigma. simpl ci_growth. simpl ci_delta_c. rewrite exp_ln by lra.
    replace (2 / 2 * / (1 + z) - 1) with (- (1 - / (1 + z))) by (field; lra). rewrite <- Rsqr_pow2, <- Rsqr_neg, sqrt_Rsqr; [field; lra|]. assert (/ (1 + z) <= / 1) by (apply Rinv_le_contravar; lra). lra.
  - intros r Hr. exists (- 2 / r ^ 2). split; [unfold ex_mnl; simpl ci_sigma; auto_derive; [lra|]; field; lra|]. assert (0 < 2 / r ^ 2) by (apply Rdiv_lt_0_compat; [lra|apply pow_lt; lra]). unfold Rdiv in *. lra.
  - intros r Hr. simpl. apply Rdiv_lt_0_compat; lra.
  - intros a b H. simpl. apply Rmult_lt_compat_l; [lra|]. apply Rinv_lt_contravar; [apply Rmult_lt_0_compat|]; lra.
  - intros a b H. simpl. assert (A : a * a < b * b) by nra. rewrite !Rmult_1_r. nra.
  - simpl. lra.
Qed.
Example ex_c122_nothing : let i := mkCmInputs (fun r => / (1 + r)) (fun _ => 1) 2 (fun r => r ^ 3) in
  (forall r, 0 < r -> exists d, is_derive (ci_sigma i) r d /\ d <> 0) /\ ci_growth i 0 <> 0 /\ (forall r, 0 < r -> ci_sigma i r * ci_growth i 0 < ci_delta_c i).
Proof.
  cbv zeta. simpl. split; [|split].
  - intros r Hr. exists (- / (1 + r) ^ 2). split; [auto_derive; [lra|]; field; lra|]. assert (0 < / (1 + r) ^ 2) by (apply Rinv_0_lt_compat; apply pow_lt; lra). lra.
  - lra.
  - intros r Hr. assert (/ (1 + r) < / 1) by (apply Rinv_lt_contravar; lra). lra.
Qed.
Print Assumptions c122_nonlinear_mass.
Print Assumptions c122_collapse_radius_unique.
Print Assumptions c122_nonlinear_mass_falls_with_redshift.
Print Assumptions c122_nothing_collapses_refuted.
Print Assumptions c122_mass_definition.
