From Coq Require Import Reals Ascii String List Bool ZArith Lra Lia.
From Verif Require Import Model.RBool Model.NumpyList Model.Hankel Spec.HankelSpec
  Proofs.ExtSplineProofs.
Import ListNotations.
Local Open Scope R_scope.

Lemma isclose_spec : forall atol rtol a b, isclose atol rtol a b = true <-> close atol rtol a b.
Proof. intros; unfold isclose, close; apply Rleb_spec. Qed.

Lemma lsum_app : forall l1 l2, lsum (l1 ++ l2) = lsum l1 + lsum l2.
Proof. unfold lsum; induction l1 as [|x l IH]; intros; simpl; [ring|]. rewrite IH; ring. Qed.

Lemma chunk_step : forall term c j,
  chunk_sum term c (S j) = chunk_sum term c j + lsum (map term (seq (1 + j * c) c)).
Proof.
  intros term c j. unfold chunk_sum, partial_sum.
  replace (S j * c)%nat with (j * c + c)%nat by (simpl; lia).
  rewrite seq_app, map_app. fold lsum. apply lsum_app.
Qed.

Lemma nat_max_exists : forall n m, (n < m)%nat \/ (m <= n)%nat. Proof. intros; lia. Qed.

Section Loop.
  Variables (h atol rtol : R) (c : nat) (p : R -> option R) (rr : R).
  Let term := og_term h p rr.
  Let nmax := og_nmax h.

  Lemma loop_cond : forall j,
    negb (isclose atol rtol (previous_sum term c j) (chunk_sum term c j))
      && Nat.ltb (1 + j * c) nmax = true
    <-> ~ stops atol rtol nmax c term j.
  Proof.
    intros j. rewrite andb_true_iff, negb_true_iff, Nat.ltb_lt.
    unfold stops. rewrite <- isclose_spec. split.
    - intros [H1 H2] [K|K]; [congruence|lia].
    - intros K. split.
      + destruct (isclose _ _ _ _); [exfalso; apply K; left; reflexivity|reflexivity].
      + destruct (Nat.lt_ge_cases (1 + j * c) nmax); [assumption|exfalso; apply K; right; lia].
  Qed.

  Lemma loop_spec : forall fuel j res,
    hankel_loop h atol rtol c p rr fuel (1 + j * c) (previous_sum term c j) (chunk_sum term c j)
      = Some res ->
    exists j', (j <= j')%nat /\ res = chunk_sum term c j' /\ stops atol rtol nmax c term j' /\
      forall i, (j <= i < j')%nat -> ~ stops atol rtol nmax c term i.
  Proof.
    induction fuel as [|fuel IH]; intros j res H; cbn [hankel_loop] in H.
    - destruct (_ && _) eqn:E; [discriminate|]. inversion H; subst.
      exists j. split; [lia|]. split; [reflexivity|]. split; [|intros; lia].
      destruct (nat_max_exists (1 + j*c) nmax) as [K|K]; [|right; exact K].
      left. apply isclose_spec. apply andb_false_iff in E. destruct E as [E|E].
      + destruct (isclose _ _ _ _); [reflexivity|discriminate].
      + fold nmax in E. apply Nat.ltb_ge in E. lia.
    - destruct (_ && _) eqn:E.
      + assert (Hs : ~ stops atol rtol nmax c term j) by (apply loop_cond; exact E).
        fold term in H.
        replace (1 + j * c + c)%nat with (1 + S j * c)%nat in H by (simpl; lia).
        rewrite <- chunk_step in H.
        change (chunk_sum term c j) with (previous_sum term c (S j)) in H at 1.
        destruct (IH _ _ H) as (j' & A & B & C & D).
        exists j'. split; [lia|]. split; [exact B|]. split; [exact C|].
        intros i Hi. destruct (Nat.eq_dec i j) as [->|]; [exact Hs|]. apply D; lia.
      + inversion H; subst. exists j. split; [lia|]. split; [reflexivity|].
        split; [|intros; lia].
        destruct (nat_max_exists (1 + j*c) nmax) as [K|K]; [|right; exact K].
        left. apply isclose_spec. apply andb_false_iff in E. destruct E as [E|E].
        * destruct (isclose _ _ _ _); [reflexivity|discriminate].
        * fold nmax in E. apply Nat.ltb_ge in E. lia.
  Qed.

  (* enough fuel: nmax iterations at most, for c >= 1 *)
  Lemma loop_terminates : (1 <= c)%nat -> forall fuel j, (nmax <= fuel + 1 + j)%nat ->
    exists res, hankel_loop h atol rtol c p rr fuel (1 + j * c) (previous_sum term c j)
                  (chunk_sum term c j) = Some res.
  Proof.
    intros Hc. induction fuel as [|fuel IH]; intros j Hf; cbn [hankel_loop].
    - destruct (_ && _) eqn:E; [|eauto]. exfalso.
      apply andb_true_iff in E. destruct E as [_ E]. apply Nat.ltb_lt in E. fold nmax in E. nia.
    - destruct (_ && _) eqn:E; [|eauto]. fold term.
      replace (1 + j * c + c)%nat with (1 + S j * c)%nat by (simpl; lia).
      rewrite <- chunk_step.
      change (chunk_sum term c j) with (previous_sum term c (S j)) at 1.
      apply IH. lia.
  Qed.

  (* chunksize 0 stops after one (empty) chunk *)
  Lemma loop_zero_chunk : 0 <= atol -> 0 <= rtol -> c = 0%nat -> forall fuel, (1 <= fuel)%nat ->
    hankel_loop h atol rtol c p rr fuel 1 100 0 = Some 0.
  Proof.
    intros Ha Hr -> [|fuel] Hf; [lia|]. cbn [hankel_loop].
    destruct (_ && _); [|reflexivity].
    cbn [seq map lsum fold_right]. rewrite Rplus_0_r.
    assert (E : isclose atol rtol 0 0 = true).
    { apply isclose_spec. unfold close. rewrite Rminus_0_r, Rabs_R0. lra. }
    destruct fuel; cbn [hankel_loop]; rewrite E; reflexivity.
  Qed.

  Lemma loop_first_stop : (1 <= c)%nat -> forall fuel, (nmax <= fuel + 1)%nat ->
    exists j, first_stop atol rtol nmax c term j /\
      hankel_loop h atol rtol c p rr fuel 1 100 0 = Some (partial_sum term (j * c)) /\
      (j = 0%nat \/ ((j - 1) * c + 1 < nmax)%nat).
  Proof.
    intros Hc fuel Hf.
    destruct (loop_terminates Hc fuel 0 ltac:(lia)) as [res H].
    assert (E0 : hankel_loop h atol rtol c p rr fuel 1 100 0 = Some res) by exact H.
    destruct (loop_spec fuel 0 res H) as (j & A & B & C & D).
    exists j. split; [split; [exact C|intros i Hi; apply D; lia]|].
    split; [rewrite E0, B; reflexivity|].
    destruct j as [|j]; [left; reflexivity|right].
    assert (K : ~ stops atol rtol nmax c term j) by (apply D; lia).
    simpl. rewrite Nat.sub_0_r.
    destruct (Nat.lt_ge_cases (j * c + 1) nmax); [assumption|].
    exfalso; apply K; right; lia.
  Qed.
End Loop.

Lemma first_stop_unique : forall atol rtol nmax c term i j,
  first_stop atol rtol nmax c term i -> first_stop atol rtol nmax c term j -> i = j.
Proof.
  intros atol rtol nmax c term i j [A B] [C D].
  destruct (Nat.lt_trichotomy i j) as [H|[H|H]]; auto; exfalso.
  - exact (D i H A). - exact (B j H C).
Qed.

(** ** direction argument *)
Lemma py_in_kr : forall s, py_in s "kr" = true <->
  s = ""%string \/ s = "k"%string \/ s = "r"%string \/ s = "kr"%string.
Proof.
  intros s; split.
  - intros H. destruct s as [|a s]; [auto|].
    cbn [py_in prefix] in H.
    destruct (Ascii.ascii_dec a "k"%char) as [->|N].
    + destruct s as [|b s]; [auto|]. cbn [prefix] in H.
      destruct (Ascii.ascii_dec b "r"%char) as [->|N2].
      * destruct s as [|e s]; [auto|]. cbn in H. discriminate H.
      * cbn in H. discriminate H.
    + destruct (Ascii.ascii_dec a "r"%char) as [->|N2].
      * destruct s as [|e s]; [auto|]. cbn in H. discriminate H.
      * cbn in H. discriminate H.
  - intros [->|[->|[->| ->]]]; reflexivity.
Qed.

Lemma all_some_map : forall {A} (f : A -> option R) (g : A -> R) l,
  (forall x, In x l -> f x = Some (g x)) -> all_some (map f l) = Some (map g l).
Proof.
  intros A f g l; induction l as [|x l IH]; intros H; simpl; auto.
  rewrite H by (left; reflexivity). rewrite IH by (intros; apply H; right; assumption).
  reflexivity.
Qed.

Lemma combine_map_l : forall {A B C} (g : A -> B) (l : list A) (m : list C),
  combine (map g l) m = map (fun q => (g (fst q), snd q)) (combine l m).
Proof. induction l as [|x l IH]; intros [|y m]; simpl; auto. rewrite IH; reflexivity. Qed.

Lemma combine_combine_r : forall {A B} (l : list A) (m : list B),
  combine (combine l m) m = map (fun q => (q, snd q)) (combine l m).
Proof. induction l as [|x l IH]; intros [|y m]; simpl; auto. rewrite IH; reflexivity. Qed.

Lemma map_combine_seq : forall {B} (F : nat -> R -> B) l a,
  map (fun q => F (fst q) (snd q)) (combine (seq a (List.length l)) l)
  = map (fun i => F i (nth (i - a) l 0)) (seq a (List.length l)).
Proof.
  intros B F l; induction l as [|x l IH]; intros a; simpl; auto.
  rewrite Nat.sub_diag. f_equal. rewrite IH. apply map_ext_in. intros i Hi.
  apply in_seq in Hi. replace (i - a)%nat with (S (i - S a)) by lia. reflexivity.
Qed.

Lemma hankel_transform_spec : forall f trns name h chunk atol rtol fuel,
  py_in name "kr" = true -> (1 <= chunk)%nat -> (og_nmax h <= fuel + 1)%nat ->
  exists js : nat -> nat,
    hankel_transform fuel f trns name h chunk atol rtol
    = HankelOk (map (fun i =>
        let rr := nth i trns 0 in
        let S := partial_sum (og_term h (f i) rr) (js i * chunk) in
        if String.eqb name "r" then S / (2 * PI ^ 2 * rr ^ 3) else S * 4 * PI / rr ^ 3)
        (seq 0 (List.length trns))) /\
    forall i, (i < List.length trns)%nat ->
      first_stop atol rtol (og_nmax h) chunk (og_term h (f i) (nth i trns 0)) (js i) /\
      (js i = 0%nat \/ ((js i - 1) * chunk + 1 < og_nmax h)%nat).
Proof.
  intros f trns name h chunk atol rtol fuel Hn Hc Hf.
  assert (X : forall i, exists j,
    first_stop atol rtol (og_nmax h) chunk (og_term h (f i) (nth i trns 0)) j /\
    hankel_loop h atol rtol chunk (f i) (nth i trns 0) fuel 1 100 0
      = Some (partial_sum (og_term h (f i) (nth i trns 0)) (j * chunk)) /\
    (j = 0%nat \/ ((j - 1) * chunk + 1 < og_nmax h)%nat)).
  { intros i. apply loop_first_stop; assumption. }
  (* constructive choice: iterate over the finite list *)
  assert (Y : forall n, exists js : nat -> nat, forall i, (i < n)%nat ->
    first_stop atol rtol (og_nmax h) chunk (og_term h (f i) (nth i trns 0)) (js i) /\
    hankel_loop h atol rtol chunk (f i) (nth i trns 0) fuel 1 100 0
      = Some (partial_sum (og_term h (f i) (nth i trns 0)) (js i * chunk)) /\
    (js i = 0%nat \/ ((js i - 1) * chunk + 1 < og_nmax h)%nat)).
  { induction n as [|n [js IH]]; [exists (fun _ => 0%nat); intros; lia|].
    destruct (X n) as [j Hj].
    exists (fun i => if Nat.eq_dec i n then j else js i).
    intros i Hi. destruct (Nat.eq_dec i n) as [->|]; [exact Hj|apply IH; lia]. }
  destruct (Y (List.length trns)) as [js Hjs]. exists js. split.
  - unfold hankel_transform. rewrite Hn. cbn [negb].
    rewrite (map_combine_seq (fun i r => hankel_loop h atol rtol chunk (f i) r fuel 1 100 0)).
    rewrite (all_some_map _ (fun i => partial_sum (og_term h (f i) (nth i trns 0)) (js i * chunk))).
    2:{ intros i Hi. apply in_seq in Hi. rewrite Nat.sub_0_r. apply Hjs; lia. }
    f_equal. rewrite combine_map_l, map_map. cbn [fst snd].
    rewrite (map_combine_seq (fun i r =>
      if String.eqb name "r"
      then partial_sum (og_term h (f i) (nth i trns 0)) (js i * chunk) / (2 * PI ^ 2 * r ^ 3)
      else partial_sum (og_term h (f i) (nth i trns 0)) (js i * chunk) * 4 * PI / r ^ 3)).
    apply map_ext. intros i. rewrite Nat.sub_0_r. reflexivity.
  - intros i Hi. destruct (Hjs i Hi) as (A & _ & B). split; assumption.
Qed.

Lemma hankel_bad_name : forall f trns name h chunk atol rtol fuel,
  hankel_transform fuel f trns name h chunk atol rtol = HankelValueError
  <-> ~ (name = "" \/ name = "k" \/ name = "r" \/ name = "kr")%string.
Proof.
  intros. rewrite <- py_in_kr. unfold hankel_transform.
  destruct (py_in name "kr"); simpl.
  - split; [|intros K; exfalso; apply K; reflexivity].
    destruct (all_some _); discriminate.
  - split; auto; intros _ K; discriminate.
Qed.

(** the two directions differ by 8 pi^3 *)
Lemma hankel_k_vs_r : forall f trns h chunk atol rtol fuel,
  (1 <= chunk)%nat -> (og_nmax h <= fuel + 1)%nat ->
  exists outr, hankel_transform fuel f trns "r" h chunk atol rtol = HankelOk outr /\
    forall name, (name = "" \/ name = "k" \/ name = "kr")%string ->
    hankel_transform fuel f trns name h chunk atol rtol
    = HankelOk (map (fun v => 8 * PI ^ 3 * v) outr).
Proof.
  intros f trns h chunk atol rtol fuel Hc Hf.
  destruct (hankel_transform_spec f trns "r" h chunk atol rtol fuel eq_refl Hc Hf)
    as (js & E & F).
  eexists. split; [exact E|]. intros name Hn.
  assert (Hin : py_in name "kr" = true) by (apply py_in_kr; intuition).
  destruct (hankel_transform_spec f trns name h chunk atol rtol fuel Hin Hc Hf)
    as (js' & E' & F').
  rewrite E'. f_equal. rewrite map_map. apply map_ext_in. intros i Hi. apply in_seq in Hi.
  cbv zeta.
  replace (js' i) with (js i)
    by (eapply first_stop_unique; [apply F; lia|apply F'; lia]).
  replace (String.eqb name "r") with false.
  2:{ destruct Hn as [->|[->| ->]]; reflexivity. }
  cbn [String.eqb Ascii.eqb Bool.eqb andb].
  generalize (partial_sum (og_term h (f i) (nth i trns 0)) (js i * chunk)). intros S.
  generalize (nth i trns 0). intros r.
  destruct (Req_dec r 0) as [->|Hr].
  - replace (0 ^ 3) with 0 by ring. unfold Rdiv. rewrite Rmult_0_r, Rinv_0. ring.
  - field. split; [exact Hr|]. apply PI_neq0.
Qed.
