(** power_to_corr_ogata: one row per separation, and what the warnings mean (C126, C127). *)
From Coq Require Import Reals String List Bool Arith Lra Lia.
From Coquelicot Require Import Coquelicot.
From Verif Require Import Model.RBool Model.Hankel Model.Profiles Model.Ogata2 Spec.HankelSpec Spec.OgataSpec
  Proofs.ExtSplineProofs Proofs.HankelProofs Proofs.HankelProofs2 Proofs.OgataProofs.
Import ListNotations.
Local Open Scope R_scope.

(** *** the loop *)
Lemma og_loop_ok : forall pts f wl wu wc,
  (forall i, (i < List.length pts)%nat -> fst (nth i pts (Raise ValueError, 0)) = Ok (f i)) ->
  exists ws, og_loop pts wl wu wc = Ok (map (fun i => og_v (f i) / (2 * PI ^ 2 * snd (nth i pts (Raise ValueError, 0)) ^ 3)) (seq 0 (List.length pts)), ws).
Proof.
  induction pts as [|[x rr] pts IH]; intros f wl wu wc H; [eexists; reflexivity|].
  pose proof (H 0%nat ltac:(simpl; lia)) as H0. simpl in H0. subst x. cbn [og_loop bind].
  destruct (IH (fun i => f (S i)) (wl && negb (og_low (f 0%nat))) (wu && negb (og_up (f 0%nat))) (wc && negb (og_conv (f 0%nat)))) as [ws E].
  { intros i Hi. apply (H (S i)). simpl. lia. }
  rewrite E. eexists. cbn [bind]. f_equal. f_equal. cbn [List.length seq map]. f_equal. rewrite <- seq_shift, map_map. reflexivity.
Qed.
(** the first point that raises ends the loop *)
Lemma og_loop_raise : forall pts f n e wl wu wc, (n < List.length pts)%nat ->
  (forall i, (i < n)%nat -> fst (nth i pts (Raise ValueError, 0)) = Ok (f i)) -> fst (nth n pts (Raise ValueError, 0)) = Raise e ->
  og_loop pts wl wu wc = Raise e.
Proof.
  induction pts as [|[x rr] pts IH]; intros f n e wl wu wc L H E; simpl in L; [lia|].
  destruct n as [|n]; [simpl in E; subst x; reflexivity|].
  pose proof (H 0%nat ltac:(lia)) as H0. simpl in H0. subst x. cbn [og_loop bind].
  rewrite (IH (fun i => f (S i)) n e); auto; try lia. intros i Hi. apply (H (S i)). lia.
Qed.

(** the three flags work alike *)
Definition flag_of (w : warning) (o : og_out) : bool := match w with ExtrapolatedBelow => og_low o | ExtrapolatedAbove => og_up o | NotConverged => og_conv o end.
Lemma warned_app : forall a b w, warned (a ++ b) w = warned a w ++ warned b w.
Proof. intros. unfold warned. rewrite filter_app, map_app. reflexivity. Qed.
Lemma warned_say : forall fl he v w rr, warned (say fl he v rr) w = if fl && he && is_kind w v then [rr] else [].
Proof. intros. unfold say, warned. destruct (fl && he); simpl; auto. destruct (is_kind w v); reflexivity. Qed.
Lemma og_loop_warned : forall pts f wl wu wc vs ws w, og_loop pts wl wu wc = Ok (vs, ws) ->
  (forall i, (i < List.length pts)%nat -> fst (nth i pts (Raise ValueError, 0)) = Ok (f i)) ->
  let flag := match w with ExtrapolatedBelow => wl | ExtrapolatedAbove => wu | NotConverged => wc end in
  (flag = false -> warned ws w = []) /\
  (flag = true -> names_first (fun i _ => flag_of w (f i) = true) (map snd pts) (warned ws w)).
Proof.
  induction pts as [|[x rr] pts IH]; intros f wl wu wc vs ws w E H flag.
  - inversion E. subst. split; intros _; [reflexivity|]. left. split; [reflexivity|]. simpl. intros; lia.
  - pose proof (H 0%nat ltac:(simpl; lia)) as H0. simpl in H0. subst x. cbn [og_loop bind] in E.
    destruct (og_loop pts _ _ _) as [[vs' ws']|] eqn:L in E; cbn [bind] in E; [|discriminate].
    assert (Ew : ws = say wl (og_low (f 0%nat)) ExtrapolatedBelow rr ++ say wu (og_up (f 0%nat)) ExtrapolatedAbove rr ++ say wc (og_conv (f 0%nat)) NotConverged rr ++ ws') by congruence.
    assert (W : warned ws w = (if flag && flag_of w (f 0%nat) then [rr] else []) ++ warned ws' w).
    { rewrite Ew, !warned_app, !warned_say. unfold flag. destruct w; cbn [is_kind flag_of]; rewrite ?andb_false_r, ?andb_true_r; reflexivity. }
    destruct (IH (fun i => f (S i)) _ _ _ _ _ w L (fun i Hi => H (S i) ltac:(simpl; lia))) as [A B].
    assert (Q : (match w with ExtrapolatedBelow => wl && negb (og_low (f 0%nat)) | ExtrapolatedAbove => wu && negb (og_up (f 0%nat)) | NotConverged => wc && negb (og_conv (f 0%nat)) end) = flag && negb (flag_of w (f 0%nat))).
    { unfold flag. destruct w; reflexivity. }
    cbv zeta in A, B. rewrite Q in A, B. clear Q. rewrite W. destruct flag; cbn [andb] in *.
    + split; [discriminate|]. intros _. destruct (flag_of w (f 0%nat)) eqn:F; cbn [negb] in *.
      * right. exists 0%nat. simpl. rewrite (A eq_refl). split; [lia|]. split; [reflexivity|]. split; [exact F|]. intros; lia.
      * destruct (B eq_refl) as [[B1 B2]|(i & I1 & I2 & I3 & I4)].
        -- left. split; [rewrite B1; reflexivity|]. intros [|i] Hi; [rewrite F; discriminate|]. simpl in Hi. apply (B2 i). lia.
        -- right. exists (S i). simpl. split; [lia|]. split; [exact I2|]. split; [exact I3|]. intros [|j] Hj; [rewrite F; discriminate|]. apply (I4 j). lia.
    + split; [|discriminate]. intros _. simpl. apply A. reflexivity.
Qed.

Lemma nth_map_seq : forall (G : nat -> R) n i, (i < n)%nat -> nth i (map G (seq 0 n)) 0 = G i.
Proof. intros G n i H. rewrite (nth_indep _ 0 (G 0%nat)) by (rewrite map_length, seq_length; auto). rewrite map_nth, seq_nth by auto. reflexivity. Qed.

(** *** the whole call *)
Definition rectangular (P : power_arg) : Prop := List.Forall (fun p => (2 <= List.length p)%nat) (power_rows P).
(** the row used for the separation number i *)
Definition the_row (P : power_arg) (i : nat) : list R := match P with P1D p => p | P2D rows => nth i rows [] end.
Definition has_row (P : power_arg) (i : nat) : Prop := match P with P1D _ => True | P2D rows => (i < List.length rows)%nat end.

Lemma the_row_in : forall P i, has_row P i -> In (the_row P i) (power_rows P) /\ power_row P i = Ok (the_row P i).
Proof.
  intros [p|rows] i H; simpl in *; [auto|]. split; [apply nth_In; auto|]. rewrite (nth_error_nth' rows [] H). reflexivity.
Qed.
Lemma pts_nth : forall (g : nat -> R -> res og_out) r i, (i < List.length r)%nat ->
  nth i (map (fun q => (g (fst q) (snd q), snd q)) (combine (seq 0 (List.length r)) r)) (Raise ValueError, 0) = (g i (nth i r 0), nth i r 0).
Proof.
  intros g r i H. set (F := fun q : nat * R => (g (fst q) (snd q), snd q)).
  rewrite (nth_indep _ _ (F (0%nat, 0))) by (rewrite map_length, combine_length, seq_length; lia). rewrite (map_nth F).
  rewrite combine_nth by (rewrite seq_length; auto). rewrite seq_nth by auto. reflexivity.
Qed.
Lemma pts_snd : forall (g : nat -> R -> res og_out) r, map snd (map (fun q => (g (fst q) (snd q), snd q)) (combine (seq 0 (List.length r)) r)) = r.
Proof.
  intros g r. rewrite map_map. cbn [snd]. generalize 0%nat. induction r as [|x r IH]; intros a; simpl; auto. rewrite IH. reflexivity.
Qed.
Lemma pts_len : forall (g : nat -> R -> res og_out) r, List.length (map (fun q => (g (fst q) (snd q), snd q)) (combine (seq 0 (List.length r)) r)) = List.length r.
Proof. intros. rewrite map_length, combine_length, seq_length. lia. Qed.

Section Call.
  Variables (spline3 : list R -> list R -> R -> R) (P : power_arg) (k r : list R) (h : R) (pp : bool * bool) (rtol atol : R).
  Hypotheses (Hh : 0 < h <= 32/10) (Ha : 0 <= atol) (Hb : 0 <= rtol) (Hr : List.Forall (fun x => 0 < x) r) (HP : rectangular P).
  Let flags := downgrade pp (power_rows P).
  Let sums (i n : nat) : R := ogata_sum spline3 flags k (the_row P i) h (nth i r 0) n.
  Let g (i : nat) (rr : R) : res og_out := bind (power_row P i) (fun p => og_step spline3 h atol rtol flags k p rr).
  Let N := og_nmax h.

  Lemma g_spec : forall i, (i < List.length r)%nat -> has_row P i -> exists o, g i (nth i r 0) = Ok o /\
    (og_low o = true <-> abscissa h 1 (nth i r 0) < lmin k) /\
    (og_up o = true <-> exists j, first_beyond (og_nmax h) h k (nth i r 0) j /\ ~ settled atol rtol N (sums i) j) /\
    (og_conv o = true <-> (exists j, first_beyond (og_nmax h) h k (nth i r 0) j /\ ~ settled atol rtol N (sums i) j) /\ ~ close atol rtol (sums i N) (sums i (N - 1)%nat)) /\
    ((forall j, first_beyond (og_nmax h) h k (nth i r 0) j -> ~ settled atol rtol N (sums i) j) -> og_v o = sums i N) /\
    (forall j, first_beyond (og_nmax h) h k (nth i r 0) j -> settled atol rtol N (sums i) j -> og_v o = sums i j).
  Proof.
    intros i Hi HR. destruct (the_row_in P i HR) as [I E]. unfold g. rewrite E. cbn [bind].
    apply og_step_spec; auto. rewrite List.Forall_forall in Hr. apply Hr. apply nth_In; auto.
    apply all_ok_shared; auto. unfold rectangular in HP. rewrite List.Forall_forall in HP. auto.
  Qed.
  Lemma g_fun : (forall i, (i < List.length r)%nat -> has_row P i) -> exists f : nat -> og_out, forall i, (i < List.length r)%nat -> g i (nth i r 0) = Ok (f i).
  Proof.
    intros H. exists (fun i => match g i (nth i r 0) with Ok o => o | Raise _ => mkOg 0 false false false end).
    intros i Hi. destruct (g_spec i Hi (H i Hi)) as (o & -> & _). reflexivity.
  Qed.

  Lemma full_ok : (forall i, (i < List.length r)%nat -> has_row P i) -> exists (f : nat -> og_out) ws,
    (forall i, (i < List.length r)%nat -> g i (nth i r 0) = Ok (f i)) /\
    ogata_full spline3 P k r h pp rtol atol = Ok (map (fun i => og_v (f i) / (2 * PI ^ 2 * nth i r 0 ^ 3)) (seq 0 (List.length r)), ws) /\
    forall w, names_first (fun i _ => flag_of w (f i) = true) r (warned ws w).
  Proof.
    intros H. destruct (g_fun H) as [f F]. exists f. unfold ogata_full. fold flags. 
    destruct (og_loop_ok (map (fun q => (g (fst q) (snd q), snd q)) (combine (seq 0 (List.length r)) r)) f true true true) as [ws E].
    { rewrite pts_len. intros i Hi. rewrite pts_nth by auto. apply F. auto. }
    exists ws. split; [exact F|]. rewrite pts_len in E. assert (E' := E). split.
    - unfold g in E. rewrite E. f_equal. f_equal. apply map_ext_in. intros i Hi. apply in_seq in Hi. change (fun q : nat * R => (bind (power_row P (fst q)) (fun p => og_step spline3 h atol rtol flags k p (snd q)), snd q)) with (fun q : nat * R => (g (fst q) (snd q), snd q)). rewrite pts_nth by lia. reflexivity.
    - intros w. destruct (og_loop_warned _ f _ _ _ _ _ w E') as [_ B].
      { rewrite pts_len. intros i Hi. rewrite pts_nth by auto. apply F. auto. }
      rewrite pts_snd in B. apply B. destruct w; reflexivity.
  Qed.

  (** the call succeeds exactly when there is a row for every separation; otherwise IndexError *)
  Lemma returns_or_index : (exists out ws, ogata_full spline3 P k r h pp rtol atol = Ok (out, ws) /\ List.length out = List.length r /\ (forall i, (i < List.length r)%nat -> has_row P i))
    \/ (ogata_full spline3 P k r h pp rtol atol = Raise IndexError /\ exists i, (i < List.length r)%nat /\ ~ has_row P i).
  Proof.
    assert (D : (forall i, (i < List.length r)%nat -> has_row P i) \/ exists rows, P = P2D rows /\ (List.length rows < List.length r)%nat).
    { clear. destruct P as [p|rows]; [left; simpl; auto|]. destruct (le_lt_dec (List.length r) (List.length rows)); [left; simpl; lia|right; eauto]. }
    destruct D as [D|(rows & EP & L)].
    - left. destruct (full_ok D) as (f & ws & _ & E & _). eexists. eexists. split; [exact E|]. rewrite map_length, seq_length. auto.
    - right. split; [|exists (List.length rows); rewrite EP; simpl; lia].
      unfold ogata_full. fold flags.
      change (fun q : nat * R => (bind (power_row P (fst q)) (fun p => og_step spline3 h atol rtol flags k p (snd q)), snd q)) with (fun q : nat * R => (g (fst q) (snd q), snd q)).
      apply (og_loop_raise _ (fun i => match g i (nth i r 0) with Ok o => o | Raise _ => mkOg 0 false false false end) (List.length rows)).
      * rewrite pts_len. auto.
      * intros i Hi. rewrite pts_nth by lia. cbn [fst]. destruct (g_spec i ltac:(lia)) as (o & -> & _); [rewrite EP; simpl; auto|reflexivity].
      * rewrite pts_nth by lia. cbn [fst]. unfold g. rewrite EP. cbn [power_row]. rewrite (proj2 (nth_error_None rows (List.length rows))) by lia. reflexivity.
  Qed.
End Call.

(** C126: a 2-D power array gives a result exactly when it has a row for every separation (IndexError otherwise); it never
    raises the internal ValueError *)
Theorem c126_returns_iff_enough_rows : forall spline3 rows k r h pp rtol atol, 0 < h <= 32/10 -> 0 <= atol -> 0 <= rtol ->
  List.Forall (fun x => 0 < x) r -> List.Forall (fun p => (2 <= List.length p)%nat) rows ->
  ((exists out ws, ogata_full spline3 (P2D rows) k r h pp rtol atol = Ok (out, ws) /\ List.length out = List.length r) <-> (List.length r <= List.length rows)%nat) /\
  (ogata_full spline3 (P2D rows) k r h pp rtol atol = Raise IndexError <-> (List.length rows < List.length r)%nat).
Proof.
  intros spline3 rows k r h pp rtol atol Hh Ha Hb Hr HP.
  destruct (returns_or_index spline3 (P2D rows) k r h pp rtol atol Hh Ha Hb Hr HP) as [(out & ws & E & L & R)|(E & i & I & J)].
  - assert (Q : (List.length r <= List.length rows)%nat). { destruct r as [|x r']; [simpl; lia|]. specialize (R (List.length r') ltac:(simpl; lia)). simpl in *. lia. }
    split; split; intros X; eauto; try lia. rewrite E in X. discriminate.
  - simpl in J. split; split; intros X; auto; try lia. destruct X as (out & ws & X & _). rewrite E in X. discriminate.
Qed.
Print Assumptions c126_returns_iff_enough_rows.

(** each separation gets the transform of its own row, made as a 1-D call with [power_pos] true at an end only if every row is
    positive there (the first, and the last, two samples) *)
Definition ends_positive (rows : list (list R)) (first last_ : bool) : Prop :=
  (first = true <-> forall p i, In p rows -> (i < 2)%nat -> 0 < nth i p 0) /\
  (last_ = true <-> forall p i, In p rows -> (i < 2)%nat -> 0 < nth (List.length p - 1 - i) p 0).

Lemma first2_iff : forall p, (2 <= List.length p)%nat -> (first2_pos p = true <-> forall i, (i < 2)%nat -> 0 < nth i p 0).
Proof.
  intros [|a [|b p]] L; simpl in L; try lia. unfold first2_pos. simpl. rewrite !andb_true_iff, !Rltb_spec. split.
  - intros (A & B & _) [|[|i]] H; simpl; auto; lia.
  - intros H. split; [apply (H 0%nat); lia|]. split; auto. apply (H 1%nat); lia.
Qed.
Lemma skipn_last2 : forall p : list R, (2 <= List.length p)%nat -> skipn (List.length p - 2) p = [nth (List.length p - 2) p 0; nth (List.length p - 1) p 0].
Proof.
  induction p as [|a p IH]; intros L; simpl in L; [lia|]. destruct p as [|b [|c p]]; [simpl in L; lia|reflexivity|].
  replace (List.length (a :: b :: c :: p) - 2)%nat with (S (List.length (b :: c :: p) - 2)) by (simpl; lia).
  replace (List.length (a :: b :: c :: p) - 1)%nat with (S (List.length (b :: c :: p) - 1)) by (simpl; lia).
  cbn [skipn nth]. apply IH. simpl. lia.
Qed.
Lemma last2_iff : forall p, (2 <= List.length p)%nat -> (last2_pos p = true <-> forall i, (i < 2)%nat -> 0 < nth (List.length p - 1 - i) p 0).
Proof.
  intros p L. unfold last2_pos. rewrite skipn_last2 by auto. simpl. rewrite !andb_true_iff, !Rltb_spec. split.
  - intros (A & B & _) [|[|i]] H; try lia; [rewrite Nat.sub_0_r; auto|]. replace (List.length p - 1 - 1)%nat with (List.length p - 2)%nat by lia. auto.
  - intros H. split; [|split; auto]. replace (List.length p - 2)%nat with (List.length p - 1 - 1)%nat by lia. apply H. lia. rewrite <- (Nat.sub_0_r (List.length p - 1)). apply H. lia.
Qed.
Lemma downgrade_shared : forall pp rows, List.Forall (fun p => (2 <= List.length p)%nat) rows -> exists f l, ends_positive rows f l /\ downgrade pp rows = (fst pp && f, snd pp && l).
Proof.
  intros [a b] rows F. exists (forallb first2_pos rows), (forallb last2_pos rows). rewrite List.Forall_forall in F. split.
  - split; rewrite forallb_forall; split.
    + intros H p i Hp Hi. apply first2_iff; auto. + intros H p Hp. apply first2_iff; auto.
    + intros H p i Hp Hi. apply last2_iff; auto. + intros H p Hp. apply last2_iff; auto.
  - unfold downgrade. cbn [fst snd]. destruct a, b, (forallb first2_pos rows), (forallb last2_pos rows); reflexivity.
Qed.
Lemma downgrade_idem : forall pp rows p, In p rows -> downgrade (downgrade pp rows) [p] = downgrade pp rows.
Proof.
  intros [x y] rows p I. unfold downgrade. cbn [fst snd forallb]. rewrite !andb_true_r.
  assert (A : forallb first2_pos rows = true -> first2_pos p = true) by (intros G; rewrite forallb_forall in G; auto).
  assert (B : forallb last2_pos rows = true -> last2_pos p = true) by (intros G; rewrite forallb_forall in G; auto).
  destruct (forallb first2_pos rows), (forallb last2_pos rows); rewrite ?A, ?B by auto; destruct x, y; reflexivity.
Qed.

(** the value of a 1-D call does not depend on the other separations *)
Lemma og_step_point : forall spline3 h atol rtol pp k p rr o, 0 <= atol -> 0 <= rtol -> og_step spline3 h atol rtol pp k p rr = Ok o ->
  ogata_point spline3 h atol rtol pp k p rr = Some (og_v o).
Proof.
  intros spline3 h atol rtol pp k p rr o Ha Hb E. unfold og_step in E. unfold ogata_point.
  destruct (forallb pf_ok _); cbn [negb] in E; [|discriminate]. destruct (Nat.eqb (og_nmax h) 0); cbn [negb andb]; [discriminate|]. unfold ogata_select.
  destruct (Rleb _ _); [inversion E; reflexivity|]. destruct (first_where _ _ _); [|discriminate].
  destruct (isclose _ _ _ _); [inversion E; reflexivity|]. destruct (Nat.eqb _ _); [discriminate|]. inversion E; reflexivity.
Qed.

Theorem c126_each_row_alone : forall spline3 rows k r h pp rtol atol out ws, 0 < h <= 32/10 -> 0 <= atol -> 0 <= rtol ->
  List.Forall (fun x => 0 < x) r -> List.Forall (fun p => (2 <= List.length p)%nat) rows ->
  ogata_full spline3 (P2D rows) k r h pp rtol atol = Ok (out, ws) ->
  exists f l, ends_positive rows f l /\
  forall i, (i < List.length r)%nat -> 
    power_to_corr_ogata spline3 (nth i rows []) k [nth i r 0] h (fst pp && f, snd pp && l) rtol atol = Some [nth i out 0].
Proof.
  intros spline3 rows k r h pp rtol atol out ws Hh Ha Hb Hr HP E. destruct (downgrade_shared pp rows HP) as (f & l & EP & D). exists f, l. split; auto. intros i Hi.
  destruct (returns_or_index spline3 (P2D rows) k r h pp rtol atol Hh Ha Hb Hr HP) as [(_ & _ & _ & _ & R)|(E2 & _)]; [|rewrite E in E2; discriminate].
  destruct (full_ok spline3 (P2D rows) k r h pp rtol atol Hh Ha Hb Hr HP R) as (fo & ws' & F & E' & _). rewrite E in E'. injection E' as E1 _.
  specialize (F i Hi). cbn [power_row power_rows] in F. specialize (R i Hi). simpl in R. rewrite (nth_error_nth' rows [] R) in F. cbn [bind] in F.
  apply og_step_point in F; auto. unfold power_to_corr_ogata. rewrite <- D. rewrite downgrade_idem by (apply nth_In; auto). cbn [map]. cbn [all_some]. rewrite F. cbn [map combine fst snd]. f_equal. f_equal.
  rewrite E1. rewrite nth_map_seq by auto. reflexivity.
Qed.
Print Assumptions c126_each_row_alone.

(** the 1-D model of C24 is this function on a 1-D array *)
Theorem c126_one_row_agrees : forall spline3 p k r h pp rtol atol, 0 < h <= 32/10 -> 0 <= atol -> 0 <= rtol ->
  List.Forall (fun x => 0 < x) r -> (2 <= List.length p)%nat ->
  exists out ws ws', ogata_full spline3 (P1D p) k r h pp rtol atol = Ok (out, ws) /\ power_to_corr_ogata spline3 p k r h pp rtol atol = Some out /\
    ogata_full spline3 (P2D (map (fun _ => p) r)) k r h pp rtol atol = Ok (out, ws').
Proof.
  intros spline3 p k r h pp rtol atol Hh Ha Hb Hr Hp.
  assert (R1 : rectangular (P1D p)) by (repeat constructor; auto).
  destruct (full_ok spline3 (P1D p) k r h pp rtol atol Hh Ha Hb Hr R1 ltac:(simpl; auto)) as (f & ws & F & E & _).
  assert (R2 : rectangular (P2D (map (fun _ => p) r))). { unfold rectangular. simpl. apply List.Forall_forall. intros q I. apply in_map_iff in I. destruct I as (_ & <- & _). auto. }
  destruct (full_ok spline3 (P2D (map (fun _ => p) r)) k r h pp rtol atol Hh Ha Hb Hr R2) as (f' & ws' & F' & E' & _); [simpl; rewrite map_length; auto|].
  eexists. exists ws, ws'. split; [exact E|]. split.
  - unfold power_to_corr_ogata. rewrite (all_some_map _ (fun rr => match ogata_point spline3 h atol rtol (downgrade pp [p]) k p rr with Some v => v | None => 0 end)).
    2:{ intros x I. apply (In_nth _ _ 0) in I. destruct I as (i & Hi & <-). specialize (F i Hi). cbn [power_row bind power_rows] in F. apply og_step_point in F; auto. rewrite F. reflexivity. }
    f_equal. assert (G : forall a, (forall i, (i < List.length r)%nat -> ogata_point spline3 h atol rtol (downgrade pp [p]) k p (nth i r 0) = Some (og_v (f (a + i)%nat))) ->
       map (fun q => fst q / (2 * PI ^ 2 * snd q ^ 3)) (combine (map (fun rr => match ogata_point spline3 h atol rtol (downgrade pp [p]) k p rr with Some v => v | None => 0 end) r) r)
       = map (fun i => og_v (f i) / (2 * PI ^ 2 * nth (i - a) r 0 ^ 3)) (seq a (List.length r))).
    { clear. induction r as [|x r IH]; intros a H; [reflexivity|]. cbn [map combine List.length seq fst snd]. pose proof (H 0%nat ltac:(simpl; lia)) as H0. cbn [nth] in H0. rewrite H0, Nat.add_0_r, Nat.sub_diag. cbn [nth]. f_equal. rewrite (IH (S a)).
      - apply map_ext_in. intros i Hi. apply in_seq in Hi. replace (i - a)%nat with (S (i - S a)) by lia. reflexivity.
      - intros i Hi. pose proof (H (S i) ltac:(simpl; lia)) as H1. cbn [nth] in H1. rewrite H1. do 2 f_equal. f_equal. lia. }
    rewrite (G 0%nat). apply map_ext. intros i. rewrite Nat.sub_0_r. reflexivity.
    intros i Hi. specialize (F i Hi). cbn [power_row bind power_rows] in F. apply og_step_point in F; auto.
  - rewrite E'. f_equal. f_equal. apply map_ext_in. intros i Hi. apply in_seq in Hi. f_equal.
    specialize (F i ltac:(lia)). specialize (F' i ltac:(lia)). cbn [power_row bind power_rows] in F, F'.
    assert (X : nth_error (map (fun _ : R => p) r) i = Some p). { rewrite (nth_error_nth' _ p) by (rewrite map_length; lia). f_equal. exact (map_nth (fun _ : R => p) r 0 i). }
    rewrite X in F'. cbn [bind] in F'. 
    assert (Y : downgrade pp (map (fun _ : R => p) r) = downgrade pp [p]).
    { destruct r as [|x r']; [simpl in Hi; lia|]. unfold downgrade. f_equal.
      - replace (forallb first2_pos (map (fun _ : R => p) (x :: r'))) with (forallb first2_pos [p]); auto. simpl. destruct (first2_pos p) eqn:Q; simpl; auto. clear - Q. induction r'; simpl; auto. rewrite Q. auto.
      - replace (forallb last2_pos (map (fun _ : R => p) (x :: r'))) with (forallb last2_pos [p]); auto. simpl. destruct (last2_pos p) eqn:Q; simpl; auto. clear - Q. induction r'; simpl; auto. rewrite Q. auto. }
    rewrite Y in F'. rewrite F in F'. injection F'. congruence.
Qed.
Print Assumptions c126_one_row_agrees.

(** refuted: rows are not transformed independently.  Adding or changing another row with a non-positive end changes the answer
    for a row that is itself positive: its extrapolation turns from a power law into a straight line *)
Lemma bernoulli_strict : forall a t, 0 < a -> a <> 1 -> t < 0 -> 1 + (a - 1) * t < exp (t * ln a).
Proof.
  intros a t Ha H1 Ht. set (u := ln a). assert (U : u <> 0). { unfold u. intros E. apply H1. rewrite <- ln_1 in E. apply ln_inv in E; lra. }
  replace a with (exp u) by (apply exp_ln; auto).
  (* exp u - 1 > u strictly, and exp (tu) >= 1 + tu *)
  assert (A : forall x, x <> 0 -> 1 + x < exp x) by apply exp_ineq1.
  pose proof (A u U). pose proof (A (t * u) ltac:(apply Rmult_integral_contrapositive_currified; lra)). nra.
Qed.
Theorem c126_rows_independent_refuted : forall spline3 p q k0 k1 ks r h pp1 rtol atol, 
  16/10 < h <= 32/10 -> 0 <= atol -> 0 <= rtol -> 0 < r -> 0 < k0 < k1 -> List.Forall (fun x => k1 <= x) ks ->
  abscissa h 1 r < k0 -> (2 <= List.length p)%nat -> (2 <= List.length q)%nat -> 0 < nth 0 p 0 -> 0 < nth 1 p 0 -> nth 0 p 0 <> nth 1 p 0 ->
  nth 0 q 0 <= 0 ->
  exists v w w' ws ws', power_to_corr_ogata spline3 p (k0 :: k1 :: ks) [r] h (true, pp1) rtol atol = Some [v] /\
    ogata_full spline3 (P2D [p; q]) (k0 :: k1 :: ks) [r; r] h (true, pp1) rtol atol = Ok ([w; w'], ws) /\ w < v /\
    ogata_full spline3 (P2D [p; p]) (k0 :: k1 :: ks) [r; r] h (true, pp1) rtol atol = Ok ([v; v], ws').
Proof.
  intros spline3 p q k0 k1 ks r h pp1 rtol atol Hh Ha Hb Hr Hk Hks Hx Lp Lq P0 P1 Pn Q0. set (k := k0 :: k1 :: ks) in *.
  assert (N : og_nmax h = 1%nat).
  { unfold og_nmax. destruct (base_Int_part (32 / 10 / h)) as [A B]. set (z := Int_part (32 / 10 / h)) in *.
    assert (1 <= 32 / 10 / h). { apply Rmult_le_reg_r with h; [lra|]. replace (32 / 10 / h * h) with (32 / 10) by (field; lra). lra. }
    assert (32 / 10 / h < 2). { apply Rmult_lt_reg_r with h; [lra|]. replace (32 / 10 / h * h) with (32 / 10) by (field; lra). lra. }
    assert (0 < IZR z) by lra. assert (IZR z < 2) by lra. apply lt_IZR in H1, H2. lia. }
  assert (Kin : forall x, In x k -> k0 <= x). { intros x [<-|[<-|I]]; try lra. rewrite List.Forall_forall in Hks. specialize (Hks x I). lra. }
  assert (Kmin : lmin k = k0). { apply Rle_antisym. apply lmin_lb; left; auto. apply Kin. apply lmin_in. discriminate. }
  assert (Kmax : k0 <= lmax k) by (apply lmax_ub; left; auto).
  assert (Lmin : lmin (map ln k) = ln k0).
  { apply Rle_antisym; [apply lmin_lb; left; auto|]. assert (I : In (lmin (map ln k)) (map ln k)) by (apply lmin_in; discriminate). apply in_map_iff in I. destruct I as (x & <- & I).
    specialize (Kin x I). destruct Kin as [L| ->]; [|lra]. left. apply ln_increasing; lra. }
  assert (X0 : 0 < abscissa h 1 r). { rewrite <- og_x_abscissa. apply Rdiv_lt_0_compat; auto. apply og_x_bounds; [lra|lia]. }
  assert (LX : ln (abscissa h 1 r) < ln k0) by (apply ln_increasing; auto).
  (* the value for given flags *)
  set (d := 2 * PI ^ 2 * r ^ 3). assert (D : 0 < d). { unfold d. pose proof PI_RGT_0. apply Rmult_lt_0_compat; [|apply pow_lt; auto]. apply Rmult_lt_0_compat; [lra|apply pow_lt; auto]. }
  assert (ST : forall flags pr, forallb pf_ok (map (fun v => pfunc flags (map ln k) pr (spline3 (map ln k) pr) (ln v)) (map (fun n => og_x h n / r) (seq 1 (og_nmax h)))) = true ->
     exists o, og_step spline3 h atol rtol flags k pr r = Ok o /\ og_v o = weight h 1 * sample spline3 flags k pr (abscissa h 1 r)).
  { intros flags pr OK. destruct (og_step_spec spline3 h atol rtol flags k pr r ltac:(lra) Hr Ha Hb OK) as (o & E & _ & _ & _ & V & _). exists o. split; auto. rewrite V.
    - rewrite N. unfold ogata_sum, partial_sum. simpl. ring.
    - intros j (J1 & J2 & _). assert (j = 1)%nat by lia. subst j. lra. }
  assert (SP : forall f2, pf_ok (pfunc (true, f2) (map ln k) p (spline3 (map ln k) p) (ln (abscissa h 1 r))) = true ->
    sample spline3 (true, f2) k p (abscissa h 1 r) = exp ((ln (nth 1 p 0) - ln (nth 0 p 0)) * (ln (abscissa h 1 r) - ln k0) / (ln k1 - ln k0) + ln (nth 0 p 0))).
  { intros f2 O. rewrite <- pfunc_sample by exact O. unfold pfunc in *. cbn [fst snd] in *. destruct (f2 && _); [discriminate|]. rewrite Lmin in *. rewrite (proj2 (Rltb_spec _ _) LX). reflexivity. }
  assert (SL : forall f2 pr, pf_ok (pfunc (false, f2) (map ln k) pr (spline3 (map ln k) pr) (ln (abscissa h 1 r))) = true ->
    sample spline3 (false, f2) k pr (abscissa h 1 r) = (nth 1 pr 0 - nth 0 pr 0) * (ln (abscissa h 1 r) - ln k0) / (ln k1 - ln k0) + nth 0 pr 0).
  { intros f2 pr O. rewrite <- pfunc_sample by exact O. unfold pfunc in *. cbn [fst snd] in *. destruct (f2 && _); [discriminate|]. rewrite Lmin in *. rewrite (proj2 (Rltb_spec _ _) LX). reflexivity. }
  assert (F1 : fst (downgrade (true, pp1) [p; p]) = true /\ downgrade (true, pp1) [p] = downgrade (true, pp1) [p; p]).
  { unfold downgrade. cbn [fst snd andb forallb]. replace (first2_pos p) with true. 2:{ symmetry. apply first2_iff; auto. intros [|[|i]] Hi; auto; lia. } cbn [andb negb]. split; auto. f_equal. destruct (last2_pos p); reflexivity. }
  assert (F2 : fst (downgrade (true, pp1) [p; q]) = false).
  { unfold downgrade. cbn [fst snd andb forallb]. replace (first2_pos q) with false; [rewrite andb_false_r; reflexivity|]. symmetry. destruct (first2_pos q) eqn:Z; auto. pose proof (proj1 (first2_iff q Lq) Z 0%nat ltac:(lia)). lra. }
  assert (RP : forall pr, In pr [p; q] -> (2 <= List.length pr)%nat) by (intros pr [<-|[<-|[]]]; auto).
  destruct (ST (downgrade (true, pp1) [p; p]) p (all_ok_shared _ (true, pp1) _ _ _ _ _ (in_eq _ _) Lp)) as (o1 & E1 & V1).
  destruct (ST (downgrade (true, pp1) [p; q]) p (all_ok_shared _ (true, pp1) _ _ _ _ _ (in_eq _ _) Lp)) as (o2 & E2 & V2).
  destruct (ST (downgrade (true, pp1) [p; q]) q (all_ok_shared _ (true, pp1) _ _ _ _ _ (in_cons p q [q] (in_eq q [])) Lq)) as (o3 & E3 & V3).
  destruct (downgrade (true, pp1) [p; p]) as [a1 b1] eqn:D1. destruct (downgrade (true, pp1) [p; q]) as [a2 b2] eqn:D2. cbn [fst] in F1, F2. destruct F1 as [-> F1]. subst a2.
  rewrite SP in V1. 2:{ pose proof (pfunc_ok_shared (true, pp1) [p; p] (map ln k) p (spline3 (map ln k) p) (ln (abscissa h 1 r)) (in_eq _ _) Lp) as Z. rewrite D1 in Z. exact Z. }
  rewrite SL in V2. 2:{ pose proof (pfunc_ok_shared (true, pp1) [p; q] (map ln k) p (spline3 (map ln k) p) (ln (abscissa h 1 r)) (in_eq _ _) Lp) as Z. rewrite D2 in Z. exact Z. }
  exists (og_v o1 / d), (og_v o2 / d), (og_v o3 / d). eexists. eexists. split; [|split; [|split]].
  - unfold power_to_corr_ogata. rewrite F1. cbn [map]. rewrite (og_step_point _ _ _ _ _ _ _ _ _ Ha Hb E1). reflexivity.
  - unfold ogata_full. cbn [power_rows]. rewrite D2. cbn [List.length seq combine map fst snd power_row nth_error bind]. rewrite E2, E3. cbn [og_loop bind]. reflexivity.
  - unfold Rdiv. apply Rmult_lt_compat_r; [apply Rinv_0_lt_compat; auto|]. rewrite V1, V2. apply Rmult_lt_compat_l; [rewrite <- weight_sumpart; apply og_w1_pos; lra|].
    assert (KK : ln k0 < ln k1) by (apply ln_increasing; lra).
    set (t := (ln (abscissa h 1 r) - ln k0) / (ln k1 - ln k0)). assert (T : t < 0).
    { unfold t. apply Rmult_lt_reg_r with (ln k1 - ln k0); [lra|]. unfold Rdiv. rewrite Rmult_assoc, Rinv_l by lra. lra. }
    replace ((ln (nth 1 p 0) - ln (nth 0 p 0)) * (ln (abscissa h 1 r) - ln k0) / (ln k1 - ln k0)) with (t * ln (nth 1 p 0 / nth 0 p 0)).
    2:{ unfold t, Rdiv at 2. rewrite ln_mult by (auto; apply Rinv_0_lt_compat; auto). rewrite ln_Rinv by auto. field. lra. }
    rewrite exp_plus, exp_ln by auto.
    assert (B : 1 + (nth 1 p 0 / nth 0 p 0 - 1) * t < exp (t * ln (nth 1 p 0 / nth 0 p 0))).
    { apply bernoulli_strict; auto. apply Rdiv_lt_0_compat; auto. intros Z. apply Pn. apply (f_equal (fun z => z * nth 0 p 0)) in Z. unfold Rdiv in Z. rewrite Rmult_assoc, Rinv_l in Z by lra. lra. }
    apply (Rmult_lt_compat_r (nth 0 p 0)) in B; auto.
    replace ((nth 1 p 0 - nth 0 p 0) * (ln (abscissa h 1 r) - ln k0) / (ln k1 - ln k0) + nth 0 p 0) with ((1 + (nth 1 p 0 / nth 0 p 0 - 1) * t) * nth 0 p 0) by (unfold t; field; lra). exact B.
  - unfold ogata_full. cbn [power_rows]. rewrite D1. cbn [List.length seq combine map fst snd power_row nth_error bind]. rewrite E1. cbn [og_loop bind]. reflexivity.
Qed.
Print Assumptions c126_rows_independent_refuted.

(** C127: the warnings.  Each kind is given at most once, for the first separation that calls for it:
    below - the first abscissa lies under the table; above - some abscissa lies beyond it and the sums have not settled where
    the table ends; not converged - moreover the last two sums differ *)
Lemma warnings_nmax : forall spline3 P k r h pp rtol atol out ws, 0 < h <= 32/10 -> 0 <= atol -> 0 <= rtol ->
  List.Forall (fun x => 0 < x) r -> rectangular P -> ogata_full spline3 P k r h pp rtol atol = Ok (out, ws) ->
  let sums i := ogata_sum spline3 (downgrade pp (power_rows P)) k (the_row P i) h (nth i r 0) in
  let unsettled i x := exists j, first_beyond (og_nmax h) h k x j /\ ~ settled atol rtol (og_nmax h) (sums i) j in
  names_first (fun _ x => abscissa h 1 x < lmin k) r (warned ws ExtrapolatedBelow) /\
  names_first unsettled r (warned ws ExtrapolatedAbove) /\
  names_first (fun i x => unsettled i x /\ ~ close atol rtol (sums i (og_nmax h)) (sums i (og_nmax h - 1)%nat)) r (warned ws NotConverged).
Proof.
  intros spline3 P k r h pp rtol atol out ws Hh Ha Hb Hr HP E sums unsettled.
  destruct (returns_or_index spline3 P k r h pp rtol atol Hh Ha Hb Hr HP) as [(_ & _ & _ & _ & HR)|(E2 & _)]; [|rewrite E in E2; discriminate].
  destruct (full_ok spline3 P k r h pp rtol atol Hh Ha Hb Hr HP HR) as (f & ws' & F & E' & W). rewrite E in E'. injection E' as _ <-.
  assert (TR : forall (Q Q' : nat -> R -> Prop) l, (forall i, (i < List.length r)%nat -> (Q i (nth i r 0) <-> Q' i (nth i r 0))) -> names_first Q r l -> names_first Q' r l).
  { intros Q Q' l H [[A B]|(i & I1 & I2 & I3 & I4)].
    - left. split; auto. intros i Hi Z. apply H in Z; auto. apply (B i Hi Z).
    - right. exists i. split; auto. split; auto. split; [apply H; auto|]. intros j Hj Z. apply H in Z; [|lia]. apply (I4 j Hj Z). }
  pose proof (fun i Hi => g_spec spline3 P k r h pp rtol atol Hh Ha Hb Hr HP i Hi (HR i Hi)) as S.
  split; [|split].
  - apply (TR (fun i _ => flag_of ExtrapolatedBelow (f i) = true)); [|apply W]. intros i Hi. destruct (S i Hi) as (o & Eo & A & _). cbv beta in Eo. rewrite (F i Hi) in Eo. injection Eo as <-. exact A.
  - apply (TR (fun i _ => flag_of ExtrapolatedAbove (f i) = true)); [|apply W]. intros i Hi. destruct (S i Hi) as (o & Eo & _ & A & _). cbv beta in Eo. rewrite (F i Hi) in Eo. injection Eo as <-. exact A.
  - apply (TR (fun i _ => flag_of NotConverged (f i) = true)); [|apply W]. intros i Hi. destruct (S i Hi) as (o & Eo & _ & _ & A & _). cbv beta in Eo. rewrite (F i Hi) in Eo. injection Eo as <-. exact A.
Qed.
Theorem c127_warnings : forall spline3 P k r h N pp rtol atol out ws, 0 < h <= 32/10 -> 0 <= atol -> 0 <= rtol -> terms h N ->
  List.Forall (fun x => 0 < x) r -> rectangular P -> ogata_full spline3 P k r h pp rtol atol = Ok (out, ws) ->
  let sums i := ogata_sum spline3 (downgrade pp (power_rows P)) k (the_row P i) h (nth i r 0) in
  let unsettled i x := exists j, first_beyond N h k x j /\ ~ settled atol rtol N (sums i) j in
  names_first (fun _ x => abscissa h 1 x < lmin k) r (warned ws ExtrapolatedBelow) /\
  names_first unsettled r (warned ws ExtrapolatedAbove) /\
  names_first (fun i x => unsettled i x /\ ~ close atol rtol (sums i N) (sums i (N - 1)%nat)) r (warned ws NotConverged).
Proof.
  intros spline3 P k r h N pp rtol atol out ws Hh Ha Hb HN. apply nmax_terms in HN; [|lra]. subst N. exact (warnings_nmax spline3 P k r h pp rtol atol out ws Hh Ha Hb).
Qed.
Print Assumptions c127_warnings.

(** a call without warnings has used at most one sample outside the table per separation: the value is a sum of the first J
    terms, all sampled inside the table but possibly the last, J = nmax unless the J-th is the first beyond *)
Lemma silence_nmax : forall spline3 P k r h pp rtol atol out, 0 < h <= 32/10 -> 0 <= atol -> 0 <= rtol ->
  List.Forall (fun x => 0 < x) r -> rectangular P -> ogata_full spline3 P k r h pp rtol atol = Ok (out, []) ->
  forall i, (i < List.length r)%nat -> let x := nth i r 0 in
  exists J, (1 <= J <= og_nmax h)%nat /\
    nth i out 0 = ogata_sum spline3 (downgrade pp (power_rows P)) k (the_row P i) h x J / (2 * PI ^ 2 * x ^ 3) /\
    (forall n, (1 <= n < J)%nat -> lmin k <= abscissa h n x <= lmax k) /\
    (first_beyond (og_nmax h) h k x J \/ J = og_nmax h /\ lmin k <= abscissa h J x <= lmax k).
Proof.
  intros spline3 P k r h pp rtol atol out Hh Ha Hb Hr HP E i Hi x.
  destruct (warnings_nmax spline3 P k r h pp rtol atol out [] Hh Ha Hb Hr HP E) as (W1 & W2 & _).
  destruct W1 as [[_ W1]|(? & _ & Z & _)]; [|discriminate]. destruct W2 as [[_ W2]|(? & _ & Z & _)]; [|discriminate].
  specialize (W1 i Hi). specialize (W2 i Hi). cbv beta in W1, W2. fold x in W1, W2. apply Rnot_lt_le in W1.
  destruct (returns_or_index spline3 P k r h pp rtol atol Hh Ha Hb Hr HP) as [(_ & _ & _ & _ & HR)|(E2 & _)]; [|rewrite E in E2; discriminate].
  destruct (full_ok spline3 P k r h pp rtol atol Hh Ha Hb Hr HP HR) as (f & ws' & F & E' & _). rewrite E in E'. injection E' as E1 _.
  assert (V : nth i out 0 = og_v (f i) / (2 * PI ^ 2 * x ^ 3)).
  { rewrite E1. rewrite nth_map_seq by auto. reflexivity. }
  destruct (g_spec spline3 P k r h pp rtol atol Hh Ha Hb Hr HP i Hi (HR i Hi)) as (o & Eo & _ & _ & _ & V1 & V2). cbv beta in Eo. rewrite (F i Hi) in Eo. injection Eo as <-. fold x in V1, V2.
  assert (N1 : (1 <= og_nmax h)%nat) by (apply og_nmax_pos; lra).
  assert (X : 0 < x) by (rewrite List.Forall_forall in Hr; apply Hr; apply nth_In; auto).
  assert (LO : forall n, (1 <= n)%nat -> lmin k <= abscissa h n x) by (intros n Hn; pose proof (abscissa_incr h 1 n x ltac:(lra) X Hn); lra).
  destruct (Rle_lt_dec (abscissa h (og_nmax h) x) (lmax k)) as [L|L].
  - exists (og_nmax h). split; [lia|]. assert (NB : forall j, ~ first_beyond (og_nmax h) h k x j). { intros j (A & B & _). pose proof (abscissa_incr h j (og_nmax h) x ltac:(lra) X ltac:(lia)). lra. }
    split; [rewrite V, V1; [reflexivity|]; intros j Fj; destruct (NB j Fj)|]. split; [|right; split; auto].
    intros n Hn. split; [apply LO; lia|]. pose proof (abscissa_incr h n (og_nmax h) x ltac:(lra) X ltac:(lia)). lra.
  - assert (EX : exists j, first_beyond (og_nmax h) h k x j).
    { assert (B : forall m, (1 <= m <= og_nmax h)%nat -> (forall q, (1 <= q < m)%nat -> abscissa h q x <= lmax k) \/ exists j, first_beyond (og_nmax h) h k x j).
      { induction m as [|m IH]; intros Hm; [lia|]. destruct (Nat.eq_dec m 0) as [->|M]; [left; intros; lia|].
        destruct (IH ltac:(lia)) as [A|A]; auto. destruct (Rle_lt_dec (abscissa h m x) (lmax k)) as [Q|Q].
        - left. intros q Hq. destruct (Nat.eq_dec q m) as [->|]; auto. apply A. lia.
        - right. exists m. split; [lia|]. auto. }
      destruct (B (og_nmax h) ltac:(lia)) as [A|A]; auto. exists (og_nmax h). split; [lia|]. auto. }
    destruct EX as [j Fj]. exists j. split; [apply Fj|]. split.
    + rewrite V, (V2 j Fj); [reflexivity|]. destruct (Rle_lt_dec (Rabs (ogata_sum spline3 (downgrade pp (power_rows P)) k (the_row P i) h x j - (if Nat.eqb j 1 then ogata_sum spline3 (downgrade pp (power_rows P)) k (the_row P i) h x (og_nmax h) else ogata_sum spline3 (downgrade pp (power_rows P)) k (the_row P i) h x (j - 1)%nat))) (atol + rtol * Rabs (if Nat.eqb j 1 then ogata_sum spline3 (downgrade pp (power_rows P)) k (the_row P i) h x (og_nmax h) else ogata_sum spline3 (downgrade pp (power_rows P)) k (the_row P i) h x (j - 1)%nat))) as [Q|Q]; [exact Q|].
      exfalso. apply W2. exists j. split; auto. unfold settled, close. apply Rlt_not_le. exact Q.
    + split; [|left; auto]. intros n Hn. split; [apply LO; lia|]. apply Fj. lia.
Qed.
Theorem c127_silence : forall spline3 P k r h N pp rtol atol out, 0 < h <= 32/10 -> 0 <= atol -> 0 <= rtol -> terms h N ->
  List.Forall (fun x => 0 < x) r -> rectangular P -> ogata_full spline3 P k r h pp rtol atol = Ok (out, []) ->
  forall i, (i < List.length r)%nat -> let x := nth i r 0 in
  exists J, (1 <= J <= N)%nat /\
    nth i out 0 = ogata_sum spline3 (downgrade pp (power_rows P)) k (the_row P i) h x J / (2 * PI ^ 2 * x ^ 3) /\
    (forall n, (1 <= n < J)%nat -> lmin k <= abscissa h n x <= lmax k) /\
    (first_beyond N h k x J \/ J = N /\ lmin k <= abscissa h J x <= lmax k).
Proof.
  intros spline3 P k r h N pp rtol atol out Hh Ha Hb HN. apply nmax_terms in HN; [|lra]. subst N. exact (silence_nmax spline3 P k r h pp rtol atol out Hh Ha Hb).
Qed.
Print Assumptions c127_silence.
(** such an N exists for every step *)
Example terms_exist : forall h, 0 < h -> exists N, terms h N.
Proof. intros h H. exists (og_nmax h). apply nmax_terms; auto. Qed.

(** *** the hypotheses are met *)
Example refuted_case : exists v w w' ws ws', power_to_corr_ogata (fun _ _ _ => 0) [1; 2] [1; 2; 3; 4] [4] 2 (true, true) (1/1000) 0 = Some [v] /\
  ogata_full (fun _ _ _ => 0) (P2D [[1; 2]; [0; 1]]) [1; 2; 3; 4] [4; 4] 2 (true, true) (1/1000) 0 = Ok ([w; w'], ws) /\ w < v /\
  ogata_full (fun _ _ _ => 0) (P2D [[1; 2]; [1; 2]]) [1; 2; 3; 4] [4; 4] 2 (true, true) (1/1000) 0 = Ok ([v; v], ws').
Proof.
  apply c126_rows_independent_refuted; simpl; try lra; try lia.
  - repeat constructor; lra.
  - rewrite <- og_x_abscissa. destruct (og_x_bounds 2 1 ltac:(lra) ltac:(lia)) as [A B]. simpl in B. pose proof PI_4. apply Rmult_lt_reg_r with 4; [lra|].
    replace (og_x 2 1 / 4 * 4) with (og_x 2 1) by field. lra.
Qed.
Lemma warned_nil : forall ws, (forall w, warned ws w = []) -> ws = [].
Proof. intros [|[w x] ws] H; auto. specialize (H w). unfold warned in H. destruct w; simpl in H; discriminate. Qed.
(** a call in which every sample lies in the table: no warning *)
Example silent_case : exists v, ogata_full (fun _ _ _ => 1) (P1D [1; 1; 1; 1]) [1; 2; 3; 4] [1] 2 (true, true) (1/1000) 0 = Ok ([v], []).
Proof.
  assert (HP : rectangular (P1D [1; 1; 1; 1])) by (repeat constructor; simpl; lia).
  assert (Hr : List.Forall (fun x => 0 < x) [1]) by (repeat constructor; lra).
  destruct (returns_or_index (fun _ _ _ => 1) (P1D [1; 1; 1; 1]) [1; 2; 3; 4] [1] 2 (true, true) (1/1000) 0 ltac:(lra) ltac:(lra) ltac:(lra) Hr HP) as [(out & ws & E & L & _)|(_ & i & _ & J)]; [|destruct (J I)].
  destruct out as [|v [|? ?]]; simpl in L; try lia. exists v. rewrite E. do 2 f_equal.
  destruct (warnings_nmax _ _ _ _ 2 _ (1/1000) 0 _ _ ltac:(lra) ltac:(lra) ltac:(lra) Hr HP E) as (W1 & W2 & W3).
  assert (N : og_nmax 2 = 1%nat).
  { assert (A : (1 <= og_nmax 2)%nat) by (apply og_nmax_pos; lra). unfold og_nmax in *. destruct (base_Int_part (32 / 10 / 2)) as [B _]. set (z := Int_part _) in *.
    assert (IZR z < 2) by lra. apply lt_IZR in H. lia. }
  assert (X : 1 < abscissa 2 1 1 < 4).
  { rewrite <- og_x_abscissa. destruct (og_x_bounds 2 1 ltac:(lra) ltac:(lia)) as [A B]. simpl in B. pose proof PI_4. split; [|lra]. unfold og_x, og_s, og_t. simpl INR.
    assert (T : 1 / 2 < tanh (PI * sinh (2 * 1) / 2)). { apply tanh_gt_half. pose proof (sinh_ge (2 * 1) ltac:(lra)). pose proof PI2_1. nra. }
    pose proof PI2_1. replace (PI * 1 * tanh (PI * sinh (2 * 1) / 2) / 1) with (PI * tanh (PI * sinh (2 * 1) / 2)) by field. unfold PI2 in *. nra. }
  assert (M : lmin [1; 2; 3; 4] = 1 /\ lmax [1; 2; 3; 4] = 4). { unfold lmin, lmax. simpl. unfold Rmin, Rmax. repeat destruct Rle_dec; lra. }
  destruct M as [M1 M2].
  assert (NB : forall x j, x = 1 -> ~ first_beyond (og_nmax 2) 2 [1; 2; 3; 4] x j). { intros x j -> (J1 & J2 & _). rewrite N in J1. assert (j = 1)%nat by lia. subst j. lra. }
  apply warned_nil. intros [| |].
  - destruct W1 as [[W _]|(i & I1 & _ & I3 & _)]; auto. exfalso. assert (i = 0)%nat by (simpl in I1; lia). subst i. simpl nth in I3. lra.
  - destruct W2 as [[W _]|(i & I1 & _ & I3 & _)]; auto. exfalso. assert (i = 0)%nat by (simpl in I1; lia). subst i. destruct I3 as (j & I3 & _). exact (NB _ j eq_refl I3).
  - destruct W3 as [[W _]|(i & I1 & _ & I3 & _)]; auto. exfalso. assert (i = 0)%nat by (simpl in I1; lia). subst i. destruct I3 as [(j & I3 & _) _]. exact (NB _ j eq_refl I3).
Qed.

(** a step h above 3.2 leaves no roots, and the call fails for want of a minimum *)
Theorem c126_step_too_large : forall spline3 p k r h pp rtol atol, 32/10 < h -> (2 <= List.length p)%nat -> r <> [] ->
  ogata_full spline3 (P1D p) k r h pp rtol atol = Raise ValueError.
Proof.
  intros spline3 p k r h pp rtol atol Hh L Hr. destruct r as [|x r]; [congruence|]. unfold ogata_full. cbn [List.length seq combine map og_loop fst snd power_row bind].
  assert (N : og_nmax h = 0%nat). { destruct (og_nmax h) eqn:E; auto. assert (Q : (1 <= og_nmax h)%nat) by lia. apply og_nmax_pos in Q; lra. }
  unfold og_step. rewrite N. destruct (negb _); reflexivity.
Qed.
Print Assumptions c126_step_too_large.

(** the quadrature rule of hankel_transform (C22) is the same one *)
Theorem c126_quadrature_rule : forall h, 0 < h ->
  (forall N, N = og_nmax h <-> INR N * h <= 32 / 10 < (INR N + 1) * h) /\
  forall (p : R -> option R) rr n, og_term h p rr n
    = PI * sin (abscissa h n 1) * abscissa h n 1 * Derive psi (h * INR n)
      * match p (abscissa h n rr) with Some y => y | None => 0 end.
Proof.
  intros h Hh. split; [intros N; symmetry; apply (nmax_terms h Hh)|].
  intros p rr n. unfold og_term. rewrite weight_sumpart, og_x_abscissa. reflexivity.
Qed.
Print Assumptions c126_quadrature_rule.
