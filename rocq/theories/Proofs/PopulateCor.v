Set Warnings "-variable-collision".
From Coq Require Import List Arith Lia Bool Reals Lra Sorted.
From Verif Require Import Model.RBool Model.NumpyList Model.Populate Spec.PopulateSpec
  Spec.WrapSpec Proofs.PopulateProofs.
Import ListNotations.

(** ** Wrapping *)
Lemma wrap_axis_map : forall lo hi l j,
    wrap_axis lo hi l j
    = map (fun p => setc j (wrap1 (getc j lo) (getc j hi) (getc j p)) p) l.
Proof.
  intros lo hi l j. unfold wrap_axis, set_col_where. rewrite map_map.
  apply map_ext. intros [[x y] z].
  assert (G : forall a b v : R,
    wrap1 a b v = (if Rltb (v - a) 0 then b + (v - a)
       else if Rltb 0 (v - b) then a + (v - b) else v)%R).
  { intros a b v. unfold wrap1, Rltb.
    repeat match goal with |- context [Rlt_dec ?u ?w] => destruct (Rlt_dec u w) end; lra. }
  rewrite G.
  destruct j as [|[|j]]; cbn [getc setc];
  (match goal with |- context [Rltb (?v - ?a) 0] => destruct (Rltb (v - a) 0) eqn:E1 end;
   cbn [getc setc];
   match goal with |- context [Rltb 0 (?v - ?b)] => destruct (Rltb 0 (v - b)) eqn:E2 end;
   cbn [getc setc]; auto;
   apply Rltb_spec in E1; apply Rltb_spec in E2; exfalso; lra).
Qed.

Lemma wrap_map : forall edges l, wrap edges l = map (wrap_point edges) l.
Proof.
  intros [e|] l; simpl.
  - rewrite !wrap_axis_map, !map_map. apply map_ext. intros [[x y] z].
    destruct e as [a|a b|[[xl yl] zl] [[xh yh] zh]]; reflexivity.
  - symmetry. rewrite <- map_id. apply map_ext. intros [[x y] z]. reflexivity.
Qed.

Lemma wrap1_range : forall lo hi x, (lo <= hi)%R ->
  ((lo <= wrap1 lo hi x <= hi) <-> (lo - (hi - lo) <= x <= hi + (hi - lo)))%R.
Proof.
  intros lo hi x H. unfold wrap1.
  repeat match goal with |- context [Rlt_dec ?u ?w] => destruct (Rlt_dec u w) end; lra.
Qed.

Lemma wrap1_inside : forall lo hi x, (lo <= x <= hi)%R -> wrap1 lo hi x = x.
Proof.
  intros lo hi x H. unfold wrap1.
  repeat match goal with |- context [Rlt_dec ?u ?w] => destruct (Rlt_dec u w) end; lra.
Qed.

Lemma wrap1_shift : forall lo hi x,
  (wrap1 lo hi x = x \/ wrap1 lo hi x = x + (hi - lo) \/ wrap1 lo hi x = x - (hi - lo))%R.
Proof.
  intros lo hi x. unfold wrap1.
  repeat match goal with |- context [Rlt_dec ?u ?w] => destruct (Rlt_dec u w) end; lra.
Qed.

Lemma wrap_point_in_box : forall e p,
  (forall j, j < 3 -> (getc j (edges_lo e) <= getc j (edges_hi e))%R) ->
  ((forall j, j < 3 -> (getc j (edges_lo e) <= getc j (wrap_point (Some e) p)
                        <= getc j (edges_hi e))%R)
   <-> (forall j, j < 3 ->
        (getc j (edges_lo e) - (getc j (edges_hi e) - getc j (edges_lo e)) <= getc j p
         <= getc j (edges_hi e) + (getc j (edges_hi e) - getc j (edges_lo e)))%R)).
Proof.
  intros e [[x y] z] H.
  destruct e as [a|a b|[[xl yl] zl] [[xh yh] zh]]; cbn [wrap_point edges_lo edges_hi] in *;
  split; intros K j Hj; specialize (H j Hj); specialize (K j Hj);
    destruct j as [|[|[|j]]]; try lia; cbn [getc] in *; apply wrap1_range; assumption.
Qed.

(** ** Catalogue facts *)
  Lemma sorted_filter_seq : forall (f : nat -> bool) n a,
    StronglySorted lt (filter f (seq a n)).
  Proof.
    intros f n; induction n as [|n IH]; intros a; simpl; [constructor|].
    destruct (f a); [|apply IH]. constructor; [apply IH|].
    apply Forall_forall. intros x Hx. apply filter_In in Hx. destruct Hx as [Hx _].
    apply in_seq in Hx. lia.
  Qed.

  Lemma count_occ_app_nat : forall (l1 l2 : list nat) x,
    count_occ Nat.eq_dec (l1 ++ l2) x = count_occ Nat.eq_dec l1 x + count_occ Nat.eq_dec l2 x.
  Proof. intros; apply count_occ_app. Qed.

  Lemma count_occ_repeat_nat : forall i n x,
    count_occ Nat.eq_dec (repeat i n) x = if Nat.eq_dec i x then n else 0.
  Proof.
    intros i n x; induction n as [|n IH]; simpl.
    - destruct (Nat.eq_dec i x); reflexivity.
    - rewrite IH. destruct (Nat.eq_dec i x); reflexivity.
  Qed.

  Lemma count_filter_seq : forall (f : nat -> bool) n a x,
    count_occ Nat.eq_dec (filter f (seq a n)) x
    = if (a <=? x) && (x <? a + n) && f x then 1 else 0.
  Proof.
    intros f n; induction n as [|n IH]; intros a x; simpl.
    - destruct (Nat.leb_spec a x), (Nat.ltb_spec x (a + 0)); simpl; auto; lia.
    - destruct (f a) eqn:Hf; simpl; rewrite ?IH.
      + destruct (Nat.eq_dec a x) as [->|Hne].
        * rewrite Hf. destruct (Nat.leb_spec (S x) x); [lia|]. simpl.
          destruct (Nat.leb_spec x x); [|lia]. destruct (Nat.ltb_spec x (x + S n)); [|lia].
          reflexivity.
        * destruct (Nat.leb_spec (S a) x), (Nat.leb_spec a x),
            (Nat.ltb_spec x (S a + n)), (Nat.ltb_spec x (a + S n)); simpl; auto; lia.
      + destruct (Nat.eq_dec a x) as [->|Hne].
        * rewrite Hf. rewrite !andb_false_r. reflexivity.
        * destruct (Nat.leb_spec (S a) x), (Nat.leb_spec a x),
            (Nat.ltb_spec x (S a + n)), (Nat.ltb_spec x (a + S n)); simpl; auto; lia.
  Qed.

Section Cat.
  Context {M P : Type}.
  Variable sampler : nat -> nat -> M -> P -> list P.
  Hypothesis sampler_len : forall k n m p, length (sampler k n m p) = n.
  Variables (mass : nat -> M) (ctr : nat -> P).
  Variables (central : bool) (N : nat) (cd sd : nat -> nat).
  Let sc := sat_count central cd sd.
  Let cat := catalogue sampler mass ctr central N cd sd.
  Let H := length (centrals ctr N cd).

  Lemma firstn_cat : firstn H cat = centrals ctr N cd.
  Proof.
    unfold cat, catalogue, H. rewrite firstn_app, firstn_all, Nat.sub_diag. simpl.
    apply app_nil_r.
  Qed.
  Lemma skipn_cat : skipn H cat = satellites sampler mass ctr central N cd sd.
  Proof.
    unfold cat, catalogue, H. rewrite skipn_app, skipn_all, Nat.sub_diag. reflexivity.
  Qed.

  Lemma sat_fst : map fst (satellites sampler mass ctr central N cd sd)
    = flat_map (fun i => repeat i (sc i)) (halos_with_sats central N cd sd).
  Proof.
    unfold satellites.
    assert (G : forall l k, map fst (satellites_from sampler mass ctr central cd sd k l)
                            = flat_map (fun i => repeat i (sc i)) l); [|apply G].
    induction l as [|i l IH]; intros k; simpl; auto.
    rewrite map_app, map_map, IH. f_equal.
    etransitivity; [apply (map_const_repeat i)|]. rewrite sampler_len. reflexivity.
  Qed.

  Lemma count_flat_repeat : forall l x,
    count_occ Nat.eq_dec (flat_map (fun i => repeat i (sc i)) l) x
    = count_occ Nat.eq_dec l x * sc x.
  Proof.
    intros l x; induction l as [|i l IH]; simpl; auto.
    rewrite count_occ_app_nat, count_occ_repeat_nat, IH.
    destruct (Nat.eq_dec i x) as [->|]; simpl; lia.
  Qed.

  Lemma cat_labels : map fst cat
    = filter (fun i => 0 <? cd i) (seq 0 N)
      ++ flat_map (fun i => repeat i (sc i)) (halos_with_sats central N cd sd).
  Proof.
    unfold cat, catalogue. rewrite map_app, sat_fst. f_equal.
    unfold centrals. rewrite map_map. simpl. apply map_id.
  Qed.

  Lemma cat_count : (forall i, cd i <= 1) -> forall i, i < N ->
    count_occ Nat.eq_dec (map fst cat) i = cd i + sc i.
  Proof.
    intros H1 i Hi. rewrite cat_labels, count_occ_app_nat, count_flat_repeat.
    unfold halos_with_sats. rewrite !count_filter_seq. simpl.
    destruct (Nat.ltb_spec i N); [|lia]. simpl. fold sc.
    specialize (H1 i).
    destruct (Nat.ltb_spec 0 (cd i)), (Nat.ltb_spec 0 (sc i)); lia.
  Qed.

  Lemma cat_labels_range : forall i, In i (map fst cat) -> i < N.
  Proof.
    intros i. rewrite cat_labels. rewrite in_app_iff. intros [K|K].
    - apply filter_In in K. destruct K as [K _]. apply in_seq in K. lia.
    - apply in_flat_map in K. destruct K as [j [K1 K2]]. apply repeat_spec in K2. subst.
      unfold halos_with_sats in K1. apply filter_In in K1. destruct K1 as [K1 _].
      apply in_seq in K1. lia.
  Qed.

  Lemma filter_label_map : forall (i j : nat) (l : list P),
    filter (fun g => fst g =? i) (map (pair j) l) = if j =? i then map (pair j) l else [].
  Proof.
    intros i j l; induction l as [|p l IH]; simpl.
    - destruct (j =? i); reflexivity.
    - rewrite IH. destruct (j =? i); reflexivity.
  Qed.

  Lemma sats_of_halo_from : forall i, i < N -> forall n a k,
    a + n = N -> k = sat_rank sc a -> a <= i ->
    filter (fun g => fst g =? i)
      (satellites_from sampler mass ctr central cd sd k
         (filter (fun j => 0 <? sc j) (seq a n)))
    = map (pair i) (sampler (sat_rank sc i) (sc i) (mass i) (ctr i)).
  Proof.
    intros i Hi n; induction n as [|n IH]; intros a k Ha Hk Hai; [lia|].
    assert (Hafter : forall n' a' k', i < a' ->
      filter (fun g : nat * P => fst g =? i)
        (satellites_from sampler mass ctr central cd sd k'
           (filter (fun j => 0 <? sc j) (seq a' n'))) = []).
    { induction n' as [|n' IH']; intros a' k' Hlt; simpl; auto.
      destruct (0 <? sc a'); simpl; [|apply IH'; lia].
      rewrite filter_app, filter_label_map.
      destruct (Nat.eqb_spec a' i); [lia|]. simpl. apply IH'; lia. }
    assert (HS : sat_rank sc (S a) = sat_rank sc a + if 0 <? sc a then 1 else 0).
    { unfold sat_rank. rewrite filter_seq_S, app_length. destruct (0 <? sc a); reflexivity. }
    cbn [seq filter]. destruct (Nat.eq_dec a i) as [->|Hne].
    - destruct (0 <? sc i) eqn:E.
      + cbn [satellites_from]. rewrite filter_app, filter_label_map, Nat.eqb_refl.
        rewrite Hafter by lia. rewrite app_nil_r, Hk. reflexivity.
      + rewrite Hafter by lia. apply Nat.ltb_ge in E.
        assert (L0 := sampler_len (sat_rank sc i) (sc i) (mass i) (ctr i)).
        destruct (sampler (sat_rank sc i) (sc i) (mass i) (ctr i)); [reflexivity|].
        simpl in L0; lia.
    - destruct (0 <? sc a) eqn:E.
      + cbn [satellites_from]. rewrite filter_app, filter_label_map.
        destruct (Nat.eqb_spec a i); [lia|]. simpl. apply IH; lia.
      + apply IH; lia.
  Qed.

  Lemma sats_of_halo : forall i, i < N ->
    filter (fun g => fst g =? i) (satellites sampler mass ctr central N cd sd)
    = map (pair i) (sampler (sat_rank sc i) (sc i) (mass i) (ctr i)).
  Proof.
    intros i Hi. apply (sats_of_halo_from i Hi N 0 0); auto; lia.
  Qed.

  Lemma in_sat_labels : forall i,
    In i (map fst (satellites sampler mass ctr central N cd sd)) <-> i < N /\ 0 < sc i.
  Proof.
    intros i. rewrite sat_fst. unfold halos_with_sats. fold sc. rewrite in_flat_map. split.
    - intros [j [K1 K2]]. apply repeat_spec in K2. subst j. apply filter_In in K1.
      destruct K1 as [K1 K2]. apply in_seq in K1. apply Nat.ltb_lt in K2. lia.
    - intros [K1 K2]. exists i. split.
      + apply filter_In. split; [apply in_seq; lia|apply Nat.ltb_lt; exact K2].
      + destruct (sc i); [lia|left; reflexivity].
  Qed.

  Lemma in_cen_labels : forall i,
    In i (map fst (centrals ctr N cd)) <-> i < N /\ 0 < cd i.
  Proof.
    intros i. unfold centrals. rewrite map_map. simpl. rewrite map_id, filter_In, in_seq.
    rewrite Nat.ltb_lt. lia.
  Qed.
End Cat.

Lemma map_combine_split : forall {A B} (l : list (A * B)),
    combine (map fst l) (map snd l) = l.
Proof. induction l as [|[a b] l IH]; simpl; auto. rewrite IH; reflexivity. Qed.

(** ** The statements about populate *)
Section Final.
  Context {M : Type}.
  Variables (dM : M).
  Variable sampler : nat -> nat -> M -> vec3 -> list vec3.
  Hypothesis sampler_len : forall k n m p, length (sampler k n m p) = n.
  Variables (central : bool) (centres : list vec3) (masses : list M)
            (cgal sgal : list nat) (buffer : list vec3).
  Hypothesis OK : draws_ok central centres masses cgal sgal buffer.
  Let dP : vec3 := (0, 0, 0)%R.
  Let N := length masses.
  Let cd i := nth i cgal 0.
  Let sd i := nth i sgal 0.
  Let ma i := nth i masses dM.
  Let ct i := nth i centres dP.
  Let sc := sat_count central cd sd.
  Let cat := catalogue sampler ma ct central N cd sd.
  Let H := length (centrals ct N cd).

  Lemma populate_serial : forall edges,
    populate dM sampler None central centres masses cgal sgal buffer edges
    = match cat with
      | [] => RaisedZeroDivision
      | _ => Returned (map (fun g => wrap_point edges (snd g)) cat, map fst cat, H)
      end.
  Proof.
    intros edges. destruct OK as (H1 & H2 & H3 & H4 & H5). unfold populate.
    rewrite (populate_serial_refines dM (0, 0, 0)%R sampler sampler_len central centres masses
               cgal sgal buffer H1 H2 H3 H4 H5).
    change (catalogue sampler (fun i => nth i masses dM) (fun i => nth i centres (0, 0, 0)%R) central
      (length masses) (fun i => nth i cgal 0) (fun i => nth i sgal 0)) with cat.
    destruct cat as [|g l]; [reflexivity|].
    rewrite wrap_map, map_map. reflexivity.
  Qed.

  Lemma populate_pool : forall assign edges,
    populate dM sampler (Some assign) central centres masses cgal sgal buffer edges
    = match cat with
      | [] => RaisedZeroDivision
      | _ => Returned (map (fun g => wrap_point edges (snd g)) (centrals ct N cd)
                         ++ map (wrap_point edges) (skipn H buffer), map fst cat, H)
      end.
  Proof.
    intros assign edges. destruct OK as (H1 & H2 & H3 & H4 & H5). unfold populate.
    rewrite (populate_pool_result dM (0, 0, 0)%R sampler sampler_len central centres masses
               cgal sgal buffer H1 H2 H3 H4 H5 assign).
    change (catalogue sampler (fun i => nth i masses dM) (fun i => nth i centres (0, 0, 0)%R) central
      (length masses) (fun i => nth i cgal 0) (fun i => nth i sgal 0)) with cat.
    destruct cat as [|g l]; [reflexivity|].
    rewrite wrap_map, map_app. unfold centrals at 1. unfold H, centrals.
    rewrite !map_map, !map_length. reflexivity.
  Qed.

  Lemma cd_01 : forall i, cd i <= 1.
  Proof.
    destruct OK as (H1 & H2 & H3 & H4 & H5). intros i. unfold cd.
    destruct (Nat.lt_ge_cases i (length cgal)) as [K|K].
    - rewrite Forall_forall in H3. apply H3. apply nth_In; exact K.
    - rewrite nth_overflow by exact K. lia.
  Qed.

  Lemma H_nsum : H = fold_right Nat.add 0 cgal.
  Proof.
    destruct OK as (H1 & H2 & H3 & H4 & H5). unfold H, centrals. rewrite map_length.
    symmetry. change (fold_right Nat.add 0 cgal) with (nsum cgal).
    exact (nsum_cgal central centres masses cgal sgal buffer H1 H2 H3 H4 H5).
  Qed.

  Section Result.
    Variables (edges : option edges_arg) (pos : list vec3) (halo : list nat) (h : nat).
    Hypothesis RET :
      populate dM sampler None central centres masses cgal sgal buffer edges
      = Returned (pos, halo, h).

    Lemma ret_eq : pos = map (fun g => wrap_point edges (snd g)) cat
                   /\ halo = map fst cat /\ h = H.
    Proof.
      pose proof RET as E. rewrite populate_serial in E.
      destruct cat as [|g l]; inversion E; auto.
    Qed.

    Lemma bookkeeping :
      length pos = length halo /\
      h = fold_right Nat.add 0 cgal /\
      StronglySorted lt (firstn h halo) /\
      (forall j, j < h ->
         exists i, nth j halo (length masses) = i /\ i < length masses /\ nth i cgal 0 = 1 /\
                   nth_error pos j = Some (wrap_point edges (nth i centres dP))) /\
      (forall i, In i halo -> i < length masses) /\
      (forall i, i < length masses ->
         count_occ Nat.eq_dec halo i = nth i cgal 0 + sc i).
    Proof.
      destruct ret_eq as (-> & -> & ->).
      split; [rewrite !map_length; reflexivity|].
      split; [apply H_nsum|].
      split.
      { rewrite firstn_map. unfold H, cat. rewrite firstn_cat. unfold centrals. rewrite map_map.
        simpl. rewrite map_id. apply sorted_filter_seq. }
      split.
      { intros j Hj. assert (Hg : exists g, nth_error (centrals ct N cd) j = Some g).
        { destruct (nth_error (centrals ct N cd) j) as [g|] eqn:E; [eauto|].
          apply nth_error_None in E. unfold H in Hj. lia. }
        destruct Hg as [g Hg].
        assert (Hc : nth_error cat j = Some g).
        { unfold cat, catalogue. rewrite nth_error_app1 by exact Hj. exact Hg. }
        pose proof (nth_error_In _ _ Hg) as Hin. unfold centrals in Hin.
        apply in_map_iff in Hin. destruct Hin as [i [Hi1 Hi2]].
        apply filter_In in Hi2. destruct Hi2 as [Hi2 Hi3]. apply in_seq in Hi2.
        apply Nat.ltb_lt in Hi3. exists i.
        assert (K : nth_error (map fst cat) j = Some i)
          by (erewrite map_nth_error by exact Hc; rewrite <- Hi1; reflexivity).
        split; [apply nth_error_nth; exact K|].
        split; [unfold N in Hi2; lia|].
        split; [pose proof (cd_01 i); fold (cd i); lia|].
        erewrite map_nth_error by exact Hc. rewrite <- Hi1. reflexivity. }
      split.
      - intros i Hi. apply (cat_labels_range sampler sampler_len ma ct central N cd sd i Hi).
      - intros i Hi. apply (cat_count sampler sampler_len ma ct central N cd sd cd_01 i Hi).
    Qed.

    Lemma satellites_own_profile : forall i, i < length masses ->
      filter (fun g => fst g =? i) (combine (skipn h halo) (skipn h pos))
      = map (fun p => (i, wrap_point edges p))
          (sampler (sat_rank sc i) (sc i) (nth i masses dM) (nth i centres dP)).
    Proof.
      intros i Hi. destruct ret_eq as (-> & -> & ->).
      rewrite !skipn_map. unfold H, cat. rewrite (skipn_cat sampler ma ct central N cd sd).
      rewrite <- (map_map snd (wrap_point edges)).
      set (sats := satellites sampler ma ct central N cd sd).
      assert (E : combine (map fst sats) (map (wrap_point edges) (map snd sats))
                  = map (fun g => (fst g, wrap_point edges (snd g))) sats).
      { induction sats as [|[a b] l IH]; simpl; auto. rewrite IH; reflexivity. }
      rewrite E.
      assert (F : forall l : list (nat * vec3),
        filter (fun g => fst g =? i) (map (fun g => (fst g, wrap_point edges (snd g))) l)
        = map (fun g => (fst g, wrap_point edges (snd g))) (filter (fun g => fst g =? i) l)).
      { induction l as [|[a b] l IH]; simpl; auto. destruct (a =? i); simpl; rewrite IH; reflexivity. }
      rewrite F. unfold sats. rewrite sats_of_halo by assumption. rewrite map_map. reflexivity.
    Qed.

    Lemma central_condition :
      (central = true -> forall i, In i (skipn h halo) -> In i (firstn h halo)) /\
      (central = false -> forall i,
         In i (skipn h halo) <-> i < length masses /\ 0 < nth i sgal 0).
    Proof.
      destruct ret_eq as (-> & -> & ->). rewrite skipn_map, firstn_map. unfold H, cat.
      rewrite (skipn_cat sampler ma ct central N cd sd), (firstn_cat sampler ma ct central N cd sd).
      split.
      - intros Hc i Hi. apply in_sat_labels in Hi; [|exact sampler_len].
        apply in_cen_labels. destruct Hi as [Hi1 Hi2]. split; [exact Hi1|].
        unfold sat_count in Hi2. rewrite Hc in Hi2. destruct (Nat.ltb_spec 0 (cd i)); lia.
      - intros Hc i. rewrite in_sat_labels by exact sampler_len.
        unfold sat_count. rewrite Hc. reflexivity.
    Qed.
  End Result.

  Lemma raises_iff : forall pool edges,
    populate dM sampler pool central centres masses cgal sgal buffer edges = RaisedZeroDivision
    <-> (Forall (fun c => c = 0) cgal /\ Forall (fun s => s = 0) sgal).
  Proof.
    intros pool edges. destruct OK as (H1 & H2 & H3 & H4 & H5).
    assert (E : populate dM sampler pool central centres masses cgal sgal buffer edges
                = RaisedZeroDivision <-> cat = []).
    { destruct pool as [assign|].
      - rewrite populate_pool. destruct cat; split; intros K; auto; discriminate.
      - rewrite populate_serial. destruct cat; split; intros K; auto; discriminate. }
    rewrite E. clear E.
    assert (Z : forall l, Forall (fun s => s = 0) l <-> nsum l = 0).
    { unfold nsum; induction l as [|x l IH]; simpl; split; intros K; auto.
      - inversion K as [|x' l' K1 K2]; subst. apply IH in K2. lia.
      - constructor; [lia|apply IH; lia]. }
    rewrite !Z.
    assert (L : length cat = nsum cgal + nsum sgal).
    { rewrite <- (map_length fst). unfold cat. rewrite cat_labels by exact sampler_len.
      rewrite app_length. f_equal.
      - symmetry. exact (nsum_cgal central centres masses cgal sgal buffer H1 H2 H3 H4 H5).
      - fold sc.
        assert (Ns : nsum sgal = nsum (map sc (halos_with_sats central N cd sd))).
        { exact (nsum_sgal dM dP sampler central centres masses cgal sgal H2 H4). }
        rewrite Ns. generalize (halos_with_sats central N cd sd). intros l.
        unfold nsum. induction l as [|x l IH]; simpl; auto.
        rewrite app_length, repeat_length, IH. reflexivity. }
    split; intros K.
    - rewrite K in L. simpl in L. lia.
    - apply length_zero_iff_nil. lia.
  Qed.

  Lemma pool_vs_serial : forall assign edges pos halo h,
    populate dM sampler None central centres masses cgal sgal buffer edges
      = Returned (pos, halo, h) ->
    exists pos', populate dM sampler (Some assign) central centres masses cgal sgal buffer edges
      = Returned (pos', halo, h) /\
      firstn h pos' = firstn h pos /\
      skipn h pos' = map (wrap_point edges) (skipn h buffer).
  Proof.
    intros assign edges pos halo h RET. destruct (ret_eq edges pos halo h RET) as (-> & -> & ->).
    rewrite populate_pool. rewrite populate_serial in RET.
    destruct cat as [|g l] eqn:Ec; [discriminate|]. rewrite <- Ec in *.
    eexists. split; [reflexivity|].
    assert (Hl : length (map (fun g0 : nat * vec3 => wrap_point edges (snd g0)) (centrals ct N cd)) = H)
      by (rewrite map_length; reflexivity).
    split.
    - rewrite firstn_app, Hl, Nat.sub_diag. simpl. rewrite app_nil_r.
      rewrite <- Hl at 1. rewrite firstn_all.
      rewrite firstn_map. unfold cat, H. rewrite (firstn_cat sampler ma ct central N cd sd). reflexivity.
    - rewrite skipn_app, Hl, Nat.sub_diag. simpl.
      rewrite skipn_all2 by (rewrite Hl; lia). reflexivity.
  Qed.

  Lemma pool_eq_serial_iff : forall assign edges pos halo h,
    populate dM sampler None central centres masses cgal sgal buffer edges
      = Returned (pos, halo, h) ->
    (populate dM sampler (Some assign) central centres masses cgal sgal buffer edges
       = populate dM sampler None central centres masses cgal sgal buffer edges
     <-> skipn h pos = map (wrap_point edges) (skipn h buffer)).
  Proof.
    intros assign edges pos halo h RET.
    destruct (pool_vs_serial assign edges pos halo h RET) as (pos' & R' & F' & S').
    rewrite R', RET. split.
    - intros E. inversion E; subst. exact S'.
    - intros E. f_equal. f_equal. f_equal.
      rewrite <- (firstn_skipn h pos'), <- (firstn_skipn h pos), F', S', E. reflexivity.
  Qed.
End Final.
