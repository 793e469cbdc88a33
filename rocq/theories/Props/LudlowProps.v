(** Ludlow16 returns a solution of the equations of Spec/LudlowSpec.v (C87); normalisations of Maccio07 and Ludlow16 (C51, C87).
    Code under study: /repo/src/halomod/concentration.py:357-383, 520-605. *)
From Coq Require Import Reals List Bool Arith Lia Lra.
From Verif Require Import Model.RBool Model.SpecialFn Model.HOD Model.Profiles Model.Concentration Spec.LudlowSpec Props.ConcProps.
Import ListNotations.
Local Open Scope R_scope.

Lemma root_expansion : forall zf, 0 <= zf -> forall b, b = Rpower (1 + zf) (/ 0.33333) -> 0 < b /\ Rpower b 0.33333 - 1 = zf.
Proof.
  intros zf Hz b ->. split; [apply exp_pos|]. rewrite Rpower_mult. replace (/ 0.33333 * 0.33333) with 1 by lra. rewrite Rpower_1; lra.
Qed.
Lemma cand_in : forall c, In c lud_cvec <-> candidate c.
Proof.
  intros c. unfold lud_cvec, candidate, pow10. rewrite in_map_iff. split.
  - intros [i [<- Hi]]. apply in_seq in Hi. exists i. split; [lia|]. f_equal. unfold Rdiv. ring.
  - intros [i [Hi ->]]. exists i. split; [f_equal; unfold Rdiv; ring|apply in_seq; lia].
Qed.
Lemma formed_iff : forall E C z c zf, 0 < lu_Om0 E -> 0 < C -> 0 <= z -> formed_at E C z c zf <-> 0 < lud_brackets E C z c /\ zf = lud_zf E C z c /\ 0 <= zf.
Proof.
  intros E C z c zf O HC Hz. unfold formed_at, expansion, lud_zf.
  assert (T : Rpower (1 + z) 3 = (1 + z) ^ 3) by (replace 3 with (INR 3) by (simpl; lra); apply Rpower_pow; lra). rewrite T.
  assert (B : lud_brackets E C z c = (lu_delta E z * c ^ 3 * inner_fraction E c * (lu_Om0 E * (1 + z) ^ 3 + lu_Ode0 E) / C - lu_Ode0 E) / lu_Om0 E) by (unfold lud_brackets, inner_fraction, Rdiv; ring).
  rewrite B. clear B T. set (A := lu_delta E z * c ^ 3 * inner_fraction E c * (lu_Om0 E * (1 + z) ^ 3 + lu_Ode0 E)). clearbody A. split.
  - intros [H0 H]. destruct (root_expansion zf H0 ((A / C - lu_Ode0 E) / lu_Om0 E)) as [P Q]; [rewrite H; field; lra|]. auto.
  - intros [P [-> H0]]. split; auto. replace (1 + (Rpower ((A / C - lu_Ode0 E) / lu_Om0 E) 0.33333 - 1)) with (Rpower ((A / C - lu_Ode0 E) / lu_Om0 E) 0.33333) by ring.
    rewrite Rpower_mult. replace (0.33333 * / 0.33333) with 1 by lra. rewrite Rpower_1 by auto. field. lra.
Qed.
Lemma cs_iff : forall E C z c, 0 < lu_Om0 E -> 0 < C -> 0 <= z -> In c (lud_cs E C z) <-> candidate c /\ exists zf, formed_at E C z c zf.
Proof.
  intros E C z c O HC Hz. rewrite cs_in, cand_in. split.
  - intros [H1 [H2 H3]]. split; auto. exists (lud_zf E C z c). apply formed_iff; auto. apply Rltb_spec in H2. split; auto. split; auto. apply Rltb_false. now destruct (Rltb (lud_zf E C z c) 0).
  - intros [H1 [zf H]]. apply formed_iff in H; auto. destruct H as [A [B D]]. subst zf. split; auto. split; [now apply Rltb_spec|]. apply Rltb_false in D. now rewrite D.
Qed.
Lemma arg_eq : forall E f C m z c, lud_arg E f C m z c = inner_fraction E c - collapsed_fraction E f m z (lud_zf E C z c).
Proof. intros. unfold lud_arg, inner_fraction, collapsed_fraction, erf. cbv zeta. replace (lu_delta_c E * (1 / lu_growth E (lud_zf E C z c) - 1 / lu_growth E z) * (1 / sqrt (2 * (lu_sigma2 E (f * m) - lu_sigma2 E m)))) with
  (lu_delta_c E * (/ lu_growth E (lud_zf E C z c) - / lu_growth E z) / sqrt (2 * (lu_sigma2 E (f * m) - lu_sigma2 E m))) by (unfold Rdiv; ring). reflexivity. Qed.
(** the relation returns [norm] times a solution of the two equations *)
Theorem c87_solves_the_equations : forall E norm f C m z c, 0 < lu_Om0 E -> 0 < C -> 0 <= z -> ludlow16 E norm f C m z = Ok c ->
  exists c0, ludlow_solution E f C m z c0 /\ c = norm * c0.
Proof.
  intros E norm f C m z c O HC Hz H. unfold ludlow16, rmap in H. destruct (lud_eq7 E f C m z) as [c0|e] eqn:Q; [|discriminate]. injection H as <-.
  exists c0. split; auto. unfold ludlow_solution. cbv zeta.
  assert (K : forall c', In c' (lud_cs E C z) -> candidate c' /\ formed_at E C z c' (lud_zf E C z c')).
  { intros c' H'. apply cs_iff in H'; auto. destruct H' as [H1 [zf H2]]. split; auto. assert (H3 := H2). apply formed_iff in H3; auto. destruct H3 as [_ [<- _]]. exact H2. }
  assert (U : forall c' zf, candidate c' -> formed_at E C z c' zf -> In c' (lud_cs E C z) /\ zf = lud_zf E C z c').
  { intros c' zf H1 H2. split; [apply cs_iff; eauto|]. apply formed_iff in H2; tauto. }
  destruct (c87_brackets_the_root _ _ _ _ _ _ Q) as [[c1 [c2 [I1 [I2 [S B]]]]]|[[S [I B]]|[S [I B]]]].
  - left. exists c1, (lud_zf E C z c1), c2, (lud_zf E C z c2). rewrite !arg_eq in S. repeat split; try (apply K; auto); try lra; apply B.
  - right. split; [exists (lud_zf E C z c0); now apply K|]. left. intros c' zf [H1 H2]. destruct (U c' zf H1 H2) as [I' ->]. specialize (S c' I'). rewrite arg_eq in S. split; [lra|auto].
  - right. split; [exists (lud_zf E C z c0); now apply K|]. right. intros c' zf [H1 H2]. destruct (U c' zf H1 H2) as [I' ->]. specialize (S c' I'). rewrite arg_eq in S. split; [lra|auto].
Qed.
Print Assumptions c87_solves_the_equations.
(** it has no answer (ValueError) exactly when no candidate has a formation redshift *)
Theorem c87_no_answer_iff : forall E norm f C m z, 0 < lu_Om0 E -> 0 < C -> 0 <= z ->
  (exists e, ludlow16 E norm f C m z = Raise e) <-> ~ exists c zf, candidate c /\ formed_at E C z c zf.
Proof.
  intros E norm f C m z O HC Hz. unfold ludlow16. split.
  - intros [e H] [c [zf [H1 H2]]]. destruct (lud_eq7 E f C m z) as [c0|e'] eqn:Q; [discriminate|]. assert (e' = ValueError). { unfold lud_eq7 in Q. cbv zeta in Q. exact (pick_exn (lud_arg E f C m z) _ e' Q). }
    subst e'. apply c87_fails_iff_no_candidate in Q. assert (I : In c (lud_cs E C z)) by (apply cs_iff; eauto). rewrite Q in I. destruct I.
  - intros H. exists ValueError. replace (lud_eq7 E f C m z) with (@Raise R ValueError); auto. symmetry. apply c87_fails_iff_no_candidate. destruct (lud_cs E C z) as [|c l] eqn:Q; auto. exfalso. apply H.
    assert (I : In c (lud_cs E C z)) by (rewrite Q; now left). apply cs_iff in I; auto. destruct I as [I [zf F]]. eauto.
Qed.
(** finding: the exponent 0.33333 is not a cube root, so the formation redshift of a halo with known inner density is underestimated
    at every zf > 0: the physical (1 + zf)^3 exceeds the value used *)
Theorem c87_cube_root_is_approximate_refuted : forall E C z c zf, 0 < lu_Om0 E -> 0 < C -> 0 < zf -> formed_at E C z c zf ->
  C * expansion E 3 zf < lu_delta E z * c ^ 3 * inner_fraction E c * expansion E 3 z.
Proof.
  intros E C z c zf O HC Hz [_ H]. rewrite H. apply Rmult_lt_compat_l; auto. unfold expansion. apply Rplus_lt_compat_r, Rmult_lt_compat_l; auto. apply Rpower_lt; lra.
Qed.
(** Maccio07 at its pivot mass 10^11 and redshift 0 is 4 c0 times the normalisation, and it is proportional to the normalisation *)
Theorem c51_maccio07_normalisation : forall norm c0 gamma m z a, maccio07 norm c0 gamma (Rpower 10 11) 0 = 4 * norm * c0 /\ maccio07 (a * norm) c0 gamma m z = a * maccio07 norm c0 gamma m z.
Proof.
  intros. split; [|unfold maccio07, Rdiv; ring]. unfold maccio07. rewrite <- Rpower_plus. replace (11 + -11) with 0 by ring. rewrite Rpower_O by lra. rewrite Rplus_0_r.
  replace (Rpower 1 (-0.109)) with 1 by (unfold Rpower; rewrite ln_1, Rmult_0_r, exp_0; reflexivity). replace (Rpower 1 gamma) with 1 by (unfold Rpower; rewrite ln_1, Rmult_0_r, exp_0; reflexivity). field.
Qed.
Print Assumptions c87_no_answer_iff.
(** non-vacuity: an Einstein-de Sitter environment in which c = 1 formed at redshift 0, and the relation answers for every mass *)
Example c87_solution_exists : exists E, 0 < lu_Om0 E /\ formed_at E 650 0 1 0 /\ forall f m norm, exists c, ludlow16 E norm f 650 m 0 = Ok c.
Proof.
  set (E := mkLud (fun _ => 1) (fun _ => 650) 1 0 (fun z => 1 / (1 + z)) 1.686 (fun m => / m)). exists E.
  assert (F : formed_at E 650 0 1 0). { split; [lra|]. unfold inner_fraction, expansion, E; simpl lu_h; simpl lu_delta; simpl lu_Om0; simpl lu_Ode0. replace (1 + 0) with 1 by ring. replace (Rpower 1 3) with 1 by (unfold Rpower; rewrite ln_1, Rmult_0_r, exp_0; reflexivity). replace (Rpower 1 (/ 0.33333)) with 1 by (unfold Rpower; rewrite ln_1, Rmult_0_r, exp_0; reflexivity). lra. }
  split; [simpl; lra|]. split; auto. intros f m norm. destruct (ludlow16 E norm f 650 m 0) as [c|e] eqn:Q; eauto. exfalso.
  assert (X : exists e, ludlow16 E norm f 650 m 0 = Raise e) by eauto. apply c87_no_answer_iff in X; [|simpl; lra|lra|lra]. apply X. exists 1, 0. split; auto. exists 0%nat. split; [lia|]. simpl. rewrite Rmult_0_r. unfold Rdiv. rewrite Rmult_0_l, Rpower_O; lra.
Qed.
