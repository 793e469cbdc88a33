(** Components backed by colossus (C129). *)
From Coq Require Import Reals List String Lra Lia.
From Verif Require Import Model.Colossus Spec.ColossusSpec.
Import ListNotations.
Local Open Scope R_scope.

Section P.
  Variables Cosmo Params : Type.
  Variable lib_conc : Cosmo -> R -> string -> R -> string -> Params -> R.
  Variable lib_bias : Cosmo -> R -> R -> string -> string -> Params -> R.
  Notation run := (run Cosmo Params lib_conc lib_bias). Notation step := (step Cosmo Params lib_conc lib_bias).
  Notation op := (op Cosmo Params).

  Fixpoint after (s : process Cosmo Params) (l : list op) : process Cosmo Params := match l with [] => s | o :: l' => after (fst (step s o)) l' end.
  Lemma run_app : forall l l' s, run s (l ++ l') = run s l ++ run (after s l) l'.
  Proof. induction l; intros; simpl; auto. rewrite IHl. reflexivity. Qed.
  Lemma objects_after : forall l s, objects _ _ (after s l) = objects _ _ s ++ constructed _ _ l.
  Proof.
    induction l as [|o l IH]; intros s; simpl; [rewrite app_nil_r; auto|]. rewrite IH. destruct o; simpl; auto. rewrite <- app_assoc. reflexivity.
  Qed.
  Lemma current_after : forall l s, current _ _ (after s l) = match rev (constructed _ _ l) with k :: _ => Some (cosmo_of _ _ k) | [] => current _ _ s end.
  Proof.
    induction l as [|o l IH]; intros s; simpl; auto. rewrite IH. destruct o; simpl; auto.
    destruct (rev (constructed Cosmo Params l)); reflexivity.
  Qed.
  Lemma current_last : forall l c, last_cosmo _ _ l c -> current _ _ (after (start _ _) l) = Some c.
  Proof. intros l c (b & k & E & <-). rewrite current_after, E, rev_app_distr. reflexivity. Qed.
  Lemma answer_last : forall l o, last (answers _ _ lib_conc lib_bias (l ++ [o])) None = snd (step (after (start _ _) l) o).
  Proof. intros. unfold answers. rewrite run_app. simpl. apply last_last. Qed.
End P.

(** C129: after any history, a component answers with the cosmology of the component constructed last, whichever kind that was *)
Theorem c129_last_constructed_wins : forall Cosmo Params lib_conc lib_bias l i c cur m z, nth_error (constructed Cosmo Params l) i = Some c -> last_cosmo _ _ l cur ->
  (forall cosmo norm mdef model p, c = ColossusCM _ _ cosmo norm mdef model p ->
     last (answers _ _ lib_conc lib_bias (l ++ [CallCM _ _ i m z])) None = Some [norm * lib_conc cur m mdef z model p]) /\
  (forall cosmo nu z' mdef model p, c = ColossusBias _ _ cosmo nu z' mdef model p ->
     last (answers _ _ lib_conc lib_bias (l ++ [CallBias _ _ i])) None = Some (map (fun v => lib_bias cur (sqrt v) z' mdef model p) nu)).
Proof.
  intros Cosmo Params lib_conc lib_bias l i c cur m z H L. 
  assert (O : nth_error (objects _ _ (after _ _ lib_conc lib_bias (start _ _) l)) i = Some c) by (rewrite objects_after; exact H).
  split; intros; subst c; rewrite answer_last; cbn [step snd]; rewrite (current_last _ _ lib_conc lib_bias _ _ L), O; reflexivity.
Qed.
Print Assumptions c129_last_constructed_wins.

(** hence a component answers for its own cosmology if nothing with another cosmology was constructed after it - or, as happens
    within one framework, everything constructed has that cosmology *)
Theorem c129_own_cosmology : forall Cosmo Params lib_conc lib_bias l i cosmo norm mdef model p m z,
  nth_error (constructed Cosmo Params l) i = Some (ColossusCM _ _ cosmo norm mdef model p) ->
  (forall j c, (i < j)%nat -> nth_error (constructed _ _ l) j = Some c -> cosmo_of _ _ c = cosmo) ->
  last (answers _ _ lib_conc lib_bias (l ++ [CallCM _ _ i m z])) None = Some [norm * lib_conc cosmo m mdef z model p].
Proof.
  intros Cosmo Params lib_conc lib_bias l i cosmo norm mdef model p m z H A.
  assert (N : constructed _ _ l <> []) by (destruct (constructed _ _ l); [destruct i; discriminate|discriminate]).
  destruct (exists_last N) as (b & k & E).
  assert (L : last_cosmo _ _ l cosmo).
  { exists b, k. split; auto. assert (I : (i < List.length (constructed _ _ l))%nat) by (apply nth_error_Some; congruence). rewrite E, app_length in I. simpl in I.
    assert (X : nth_error (constructed _ _ l) (List.length b) = Some k) by (rewrite E, nth_error_app2, Nat.sub_diag by lia; reflexivity).
    destruct (Nat.eq_dec i (List.length b)) as [->|J]; [rewrite H in X; inversion X; reflexivity|]. apply (A (List.length b) k); [lia|auto]. }
  destruct (c129_last_constructed_wins _ _ lib_conc lib_bias l i _ cosmo m z H L) as [B _]. apply (B cosmo). reflexivity.
Qed.
Print Assumptions c129_own_cosmology.

(** refuted: an object's answer is not its own.  Constructing any component with another cosmology - even a bias - in between
    changes the answer of the same call on the same object, wherever the library's answer depends on the cosmology *)
Theorem c129_answers_are_stable_refuted : forall Cosmo Params lib_conc lib_bias a b norm mdef model p other m z,
  cosmo_of Cosmo Params other = b -> norm <> 0 -> lib_conc a m mdef z model p <> lib_conc b m mdef z model p ->
  exists v w, answers _ _ lib_conc lib_bias [New _ _ (ColossusCM _ _ a norm mdef model p); CallCM _ _ 0%nat m z; New _ _ other; CallCM _ _ 0%nat m z] = [None; Some [v]; None; Some [w]] /\
    v = norm * lib_conc a m mdef z model p /\ w <> v.
Proof.
  intros Cosmo Params lib_conc lib_bias a b norm mdef model p other m z O N D. eexists. eexists. split; [reflexivity|]. split; [reflexivity|]. cbn. rewrite O. intros E. apply D.
  apply Rmult_eq_reg_l in E; auto.
Qed.
Print Assumptions c129_answers_are_stable_refuted.

(** *** a concrete case *)
Example two_cosmologies : exists v w, answers R unit (fun c m _ _ _ _ => c * m) (fun c nu _ _ _ _ => c + nu)
  [New _ _ (ColossusCM _ _ 1 2 "200m" "diemer15" tt); CallCM _ _ 0%nat 3 0; New _ _ (ColossusBias _ _ 5 [1] 0 "200m" "comparat17" tt); CallCM _ _ 0%nat 3 0] = [None; Some [v]; None; Some [w]] /\ v = 2 * (1 * 3) /\ w <> v.
Proof.
  apply (c129_answers_are_stable_refuted R unit (fun c m _ _ _ _ => c * m) (fun c nu _ _ _ _ => c + nu) 1 5 2 "200m"%string "diemer15"%string tt
           (ColossusBias _ _ 5 [1] 0 "200m"%string "comparat17"%string tt) 3 0); [reflexivity|lra|lra].
Qed.
