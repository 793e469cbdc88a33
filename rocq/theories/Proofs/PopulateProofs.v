From Coq Require Import List Arith Lia Bool Reals Lra.
From Verif Require Import Model.NumpyList Model.Populate Spec.PopulateSpec.
Import ListNotations.

Section ListLemmas.
  Context {A B : Type}.

  Lemma bmask_map2 : forall (f : A -> bool) (g : A -> B) (l : list A),
      bmask (map f l) (map g l) = map g (filter f l).
  Proof.
    intros f g l; induction l as [|x l IH]; simpl; auto.
    destruct (f x); simpl; rewrite IH; reflexivity.
  Qed.

  Lemma bmask_map1 : forall (f : A -> bool) (l : list A),
      bmask (map f l) l = filter f l.
  Proof.
    intros f l; induction l as [|x l IH]; simpl; auto.
    destruct (f x); rewrite IH; reflexivity.
  Qed.

  Lemma map_bmask : forall (g : A -> B) (m : list bool) (l : list A),
      map g (bmask m l) = bmask m (map g l).
  Proof.
    intros g m; induction m as [|b m IH]; intros [|x l]; simpl; auto.
    destruct b; simpl; rewrite IH; reflexivity.
  Qed.

  Lemma list_as_map : forall (d : A) (l : list A),
      l = map (fun i => nth i l d) (seq 0 (length l)).
  Proof.
    intros d l. apply nth_ext with (d := d) (d' := nth (length l) l d).
    - rewrite map_length, seq_length; reflexivity.
    - intros n Hn.
      rewrite (map_nth (fun i => nth i l d) (seq 0 (length l)) (length l) n).
      rewrite seq_nth by exact Hn. reflexivity.
  Qed.

  Lemma filter_filter_imp : forall (f g : A -> bool) (l : list A),
      (forall x, f x = true -> g x = true) ->
      filter f (filter g l) = filter f l.
  Proof.
    intros f g l H; induction l as [|x l IH]; simpl; auto.
    destruct (g x) eqn:Hg; simpl.
    - rewrite IH; reflexivity.
    - destruct (f x) eqn:Hf; [rewrite (H x Hf) in Hg; discriminate|exact IH].
  Qed.

  Lemma set_slice_app : forall (pre tail vals : list A),
      length vals <= length tail ->
      set_slice (pre ++ tail) (length pre) vals
      = pre ++ vals ++ skipn (length vals) tail.
  Proof.
    intros pre tail vals H. unfold set_slice.
    rewrite firstn_app, firstn_all, Nat.sub_diag. simpl. rewrite app_nil_r.
    f_equal. f_equal. rewrite skipn_app.
    rewrite skipn_all2 by lia. simpl. f_equal. lia.
  Qed.
End ListLemmas.

Lemma nth_cumsum_from : forall l acc i,
    i <= length l ->
    nth i (acc :: cumsum_from acc l) 0 = acc + nsum (firstn i l).
Proof.
  induction l as [|x l IH]; intros acc i Hi.
  - simpl in Hi. assert (i = 0) by lia; subst; simpl; lia.
  - destruct i as [|i]; [simpl; lia|].
    cbn [cumsum_from]. change (nth (S i) (acc :: acc + x :: cumsum_from (acc + x) l) 0)
      with (nth i (acc + x :: cumsum_from (acc + x) l) 0).
    rewrite IH by (simpl in Hi; lia). cbn [firstn]. unfold nsum; cbn [fold_right]. lia.
Qed.

Lemma nsum_app : forall l1 l2, nsum (l1 ++ l2) = nsum l1 + nsum l2.
Proof.
  unfold nsum; induction l1 as [|x l IH]; intros l2; simpl; [reflexivity|].
  rewrite IH; lia.
Qed.

Lemma nsum_01_filter : forall (c : nat -> nat) l,
    (forall i, In i l -> c i <= 1) ->
    nsum (map c l) = length (filter (fun i => 0 <? c i) l).
Proof.
  intros c l; induction l as [|x l IH]; intros H; [reflexivity|].
  assert (Hx : c x <= 1) by (apply H; left; reflexivity).
  unfold nsum in *; cbn [map fold_right filter].
  rewrite IH by (intros; apply H; right; assumption).
  destruct (Nat.ltb_spec 0 (c x)); cbn [length]; lia.
Qed.

Lemma filter_seq_S : forall f n,
    filter f (seq 0 (S n)) = filter f (seq 0 n) ++ (if f n then [n] else []).
Proof.
  intros f n. rewrite seq_S, filter_app. simpl. destruct (f n); reflexivity.
Qed.

Lemma centrals_before_enum : forall (c s : nat -> nat) N,
    map (fun i => s (centrals_before c i)) (filter (fun i => 0 <? c i) (seq 0 N))
    = map s (seq 0 (length (filter (fun i => 0 <? c i) (seq 0 N)))).
Proof.
  intros c s N; induction N as [|N IH]; [reflexivity|].
  rewrite filter_seq_S. destruct (0 <? c N) eqn:H.
  - rewrite map_app, app_length, IH. cbn [length]. rewrite Nat.add_1_r, seq_S, map_app.
    simpl. reflexivity.
  - rewrite app_nil_r. exact IH.
Qed.

Lemma np_repeat_map : forall {A} (sc : A -> nat) (l : list A),
    np_repeat l (map sc l) = flat_map (fun i => repeat i (sc i)) l.
Proof. intros A sc l; induction l as [|x l IH]; simpl; auto. rewrite IH; reflexivity. Qed.

Lemma map_const_repeat : forall {A B} (x : B) (l : list A),
    map (fun _ => x) l = repeat x (length l).
Proof. induction l as [|y l IH]; simpl; auto. rewrite IH; reflexivity. Qed.

Section Fill.
  Context {M P : Type}.
  Variables (dM : M) (dP : P).
  Variable sampler : nat -> nat -> M -> P -> list P.
  Hypothesis sampler_len : forall k n m p, length (sampler k n m p) = n.
  Variables (masses : list M) (sgal : list nat) (centres : list P).
  Variables (ncen : nat).
  Hypothesis Hm : length masses = length sgal.

  Let samp i := sampler i (nth i sgal 0) (nth i masses dM) (nth i centres dP).
  Let indx := map (fun k => k + ncen) (0 :: cumsum sgal).

  Lemma nth_indx : forall i, i <= length sgal ->
    nth i indx 0 = ncen + nsum (firstn i sgal).
  Proof.
    intros i Hi. unfold indx, cumsum.
    rewrite (nth_indep _ 0 (0 + ncen)).
    2:{ rewrite map_length. clear - Hi. assert (forall a l, length (cumsum_from a l) = length l) as E.
        { intros a l; revert a; induction l; intros; simpl; auto. }
        cbn [length]. rewrite E. lia. }
    change (0 + ncen) with ((fun k => k + ncen) 0).
    rewrite map_nth, nth_cumsum_from by exact Hi. lia.
  Qed.

  Lemma nsum_firstn_S : forall i, i < length sgal ->
    nsum (firstn (S i) sgal) = nsum (firstn i sgal) + nth i sgal 0.
  Proof.
    clear Hm indx samp. intros i; revert sgal; induction i as [|i IH]; intros [|x l] Hi; simpl in *; try lia.
    specialize (IH l ltac:(lia)). unfold nsum in *; simpl in *. lia.
  Qed.

  Lemma fill_from : forall n a pre tail,
    a + n = length sgal ->
    length pre = ncen + nsum (firstn a sgal) ->
    length tail = nsum (skipn a sgal) ->
    fold_left (fill_array dM dP sampler masses sgal centres indx) (seq a n) (pre ++ tail)
    = pre ++ flat_map samp (seq a n).
  Proof.
    induction n as [|n IH]; intros a pre tail Ha Hp Ht.
    - rewrite Nat.add_0_r in Ha. subst a. rewrite skipn_all in Ht.
      destruct tail; [reflexivity|discriminate Ht].
    - cbn [seq fold_left flat_map]. unfold fill_array at 2. fold (samp a).
      rewrite nth_indx by lia. rewrite <- Hp.
      assert (Hs : length (samp a) = nth a sgal 0) by apply sampler_len.
      assert (Hk : nsum (skipn a sgal) = nth a sgal 0 + nsum (skipn (S a) sgal)).
      { pose proof (nsum_firstn_S a ltac:(lia)) as E.
        assert (E1 : nsum sgal = nsum (firstn a sgal) + nsum (skipn a sgal))
          by (rewrite <- nsum_app, firstn_skipn; reflexivity).
        assert (E2 : nsum sgal = nsum (firstn (S a) sgal) + nsum (skipn (S a) sgal))
          by (rewrite <- nsum_app, firstn_skipn; reflexivity).
        lia. }
      rewrite set_slice_app by lia.
      rewrite app_assoc, IH.
      + rewrite <- app_assoc; reflexivity.
      + lia.
      + rewrite app_length, Hs, Hp, nsum_firstn_S by lia. lia.
      + rewrite skipn_length. lia.
  Qed.

  Lemma fill_serial_spec : forall pre tail,
    length pre = ncen -> length tail = nsum sgal ->
    fill_serial dM dP sampler masses sgal centres indx (pre ++ tail)
    = pre ++ flat_map samp (seq 0 (length sgal)).
  Proof.
    intros. unfold fill_serial. rewrite Hm. apply fill_from; simpl; lia.
  Qed.
End Fill.

Lemma flat_map_seq_shift : forall {A} (f : nat -> list A) a n,
    flat_map f (seq (S a) n) = flat_map (fun i => f (S i)) (seq a n).
Proof. intros A f a n; revert a; induction n as [|n IH]; intros; simpl; auto. rewrite IH; reflexivity. Qed.

Section Main.
  Context {M P : Type}.
  Variables (dM : M) (dP : P).
  Variable sampler : nat -> nat -> M -> P -> list P.
  Hypothesis sampler_len : forall k n m p, length (sampler k n m p) = n.
  Variables (central : bool) (centres : list P) (masses : list M)
            (cgal sgal : list nat) (empty : list P).
  Let N := length masses.
  Let cd i := nth i cgal 0.
  Let sd i := nth i sgal 0.
  Let ma i := nth i masses dM.
  Let ct i := nth i centres dP.
  Hypothesis Hct : length centres = N.
  Hypothesis Hcg : length cgal = N.
  Hypothesis Hc01 : Forall (fun c => c <= 1) cgal.
  (* one satellite draw per halo that is still in the list at tools.py:411 *)
  Hypothesis Hsg : length sgal
    = if central then length (filter (fun c => 0 <? c) cgal) else N.
  Hypothesis Hem : length empty = nsum cgal + nsum sgal.

  Let C := filter (fun i => 0 <? cd i) (seq 0 N).
  Let sc := sat_count central cd sd.
  Let S_ := halos_with_sats central N cd sd.
  Let cat := catalogue sampler ma ct central N cd sd.

  Lemma cgal_map : cgal = map cd (seq 0 N).
  Proof. unfold cd. rewrite <- Hcg. apply list_as_map. Qed.
  Lemma masses_map : masses = map ma (seq 0 N).
  Proof. apply list_as_map. Qed.
  Lemma centres_map : centres = map ct (seq 0 N).
  Proof. unfold ct. rewrite <- Hct. apply list_as_map. Qed.

  Lemma cmask_map : map (fun c => 0 <? c) cgal = map (fun i => 0 <? cd i) (seq 0 N).
  Proof. rewrite cgal_map at 1. rewrite map_map. reflexivity. Qed.

  Lemma cd_le1 : forall i, cd i <= 1.
  Proof.
    intros i. unfold cd. destruct (Nat.lt_ge_cases i (length cgal)) as [H|H].
    - rewrite Forall_forall in Hc01. apply Hc01. apply nth_In; exact H.
    - rewrite nth_overflow by exact H. lia.
  Qed.

  Lemma nsum_cgal : nsum cgal = length C.
  Proof. rewrite cgal_map. apply nsum_01_filter. intros; apply cd_le1. Qed.

  Lemma filter_cgal_len : length (filter (fun c => 0 <? c) cgal) = length C.
  Proof.
    rewrite cgal_map at 1. clear. unfold C. induction (seq 0 N) as [|x l IH]; simpl; auto.
    destruct (0 <? cd x); simpl; rewrite IH; reflexivity.
  Qed.

  (* the halo list that survives tools.py:403-405 *)
  Let L := if central then C else seq 0 N.

  Lemma sgal_map : sgal = map sc L.
  Proof.
    unfold sc, L, sat_count. destruct central.
    - rewrite filter_cgal_len in Hsg.
      rewrite (list_as_map 0 sgal) at 1. rewrite Hsg.
      etransitivity; [symmetry; exact (centrals_before_enum cd sd N)|].
      apply map_ext_in. intros i Hi. unfold C in Hi. apply filter_In in Hi.
      destruct Hi as [_ Hi]. rewrite Hi. reflexivity.
    - rewrite (list_as_map 0 sgal) at 1. rewrite Hsg. reflexivity.
  Qed.

  Lemma S_filter : filter (fun i => 0 <? sc i) L = S_.
  Proof.
    unfold S_, halos_with_sats, sc, L, sat_count. destruct central; [|reflexivity].
    unfold C. apply filter_filter_imp. intros i. destruct (0 <? cd i); auto.
  Qed.

  Lemma nsum_sgal : nsum sgal = nsum (map sc S_).
  Proof.
    rewrite sgal_map, <- S_filter. clear.
    induction L as [|x l IH]; simpl; auto. destruct (Nat.ltb_spec 0 (sc x)); unfold nsum in *; simpl; lia.
  Qed.

  Lemma sat_fst_from : forall l k,
      map fst (satellites_from sampler ma ct central cd sd k l)
      = flat_map (fun i => repeat i (sc i)) l.
  Proof.
    induction l as [|i l IH]; intros k; simpl; auto.
    rewrite map_app, map_map, IH. f_equal.
    etransitivity; [apply (map_const_repeat i)|]. rewrite sampler_len. reflexivity.
  Qed.

  Lemma sat_snd_from : forall l k,
      map snd (satellites_from sampler ma ct central cd sd k l)
      = flat_map (fun j => sampler (k + j) (nth j (map sc l) 0) (nth j (map ma l) dM)
                             (nth j (map ct l) dP)) (seq 0 (length l)).
  Proof.
    induction l as [|i l IH]; intros k; [reflexivity|].
    cbn [satellites_from length seq flat_map].
    rewrite map_app, map_map, map_id, IH, flat_map_seq_shift.
    rewrite Nat.add_0_r. cbn [map nth]. f_equal.
    apply flat_map_ext. intros j. f_equal. lia.
  Qed.

  Lemma cat_fst : map fst cat = C ++ flat_map (fun i => repeat i (sc i)) S_.
  Proof.
    unfold cat, catalogue, centrals, satellites. rewrite map_app, map_map. simpl.
    rewrite map_id, sat_fst_from. reflexivity.
  Qed.

  Lemma n_distinct_0 : forall l, (n_distinct l =? 0) = match l with [] => true | _ => false end.
  Proof.
    intros [|x l]; [reflexivity|]. unfold n_distinct. apply Nat.eqb_neq.
    intros H. apply length_zero_iff_nil in H.
    assert (In x (nodup Nat.eq_dec (x :: l))) as K by (apply nodup_In; left; reflexivity).
    rewrite H in K. exact K.
  Qed.

  Lemma cat_nil : cat = [] <-> C ++ S_ = [].
  Proof.
    split; intros H.
    - assert (map fst cat = []) as E by (rewrite H; reflexivity). rewrite cat_fst in E.
      apply app_eq_nil in E. destruct E as [E1 E2]. rewrite E1. simpl.
      destruct S_ as [|x l] eqn:ES; auto. exfalso.
      assert (In x S_) as K by (rewrite ES; left; reflexivity).
      unfold S_, halos_with_sats in K. apply filter_In in K. destruct K as [_ K].
      fold sc in K. apply Nat.ltb_lt in K. simpl in E2. destruct (sc x); [lia|discriminate].
    - assert (map fst cat = []) as E.
      { rewrite cat_fst. apply app_eq_nil in H. destruct H as [-> ->]. reflexivity. }
      apply map_eq_nil in E. exact E.
  Qed.

  Let body pool := populate_raw dM dP sampler pool central centres masses cgal sgal empty.

  (* the state just before the fill step, in terms of the spec *)
  Lemma populate_norm : forall pool,
    body pool =
      if n_distinct (C ++ S_) =? 0 then RaisedZeroDivision
      else Returned
        (match pool with
         | None => fill_serial dM dP sampler (map ma S_) (map sc S_) (map ct S_)
                    (map (fun k => k + length C) (0 :: cumsum (map sc S_)))
                    (map ct C ++ skipn (length C) empty)
         | Some _ => map ct C ++ skipn (length C) empty
         end,
         C ++ flat_map (fun i => repeat i (sc i)) S_, length C).
  Proof.
    intros pool. unfold body, populate_raw.
    rewrite cmask_map, nsum_cgal.
    assert (E1 : bmask (map (fun i => 0 <? cd i) (seq 0 N)) (arange (length masses)) = C)
      by (unfold arange; fold N; apply bmask_map1).
    rewrite E1.
    assert (E2 : (if central then bmask (map (fun i => 0 <? cd i) (seq 0 N)) masses else masses)
                 = map ma L).
    { unfold L. destruct central; [|apply masses_map].
      etransitivity; [apply (f_equal (bmask _)), masses_map|apply bmask_map2]. }
    rewrite E2.
    assert (E3 : (if central then bmask (map (fun i => 0 <? cd i) (seq 0 N)) centres else centres)
                 = map ct L).
    { unfold L. destruct central; [|apply centres_map].
      etransitivity; [apply (f_equal (bmask _)), centres_map|apply bmask_map2]. }
    rewrite E3.
    assert (E4 : (if central then map ct L
                  else bmask (map (fun i => 0 <? cd i) (seq 0 N)) (map ct L)) = map ct C).
    { unfold L. destruct central; [reflexivity|apply bmask_map2]. }
    rewrite E4.
    assert (E5 : map (fun s => 0 <? s) sgal = map (fun i => 0 <? sc i) L)
      by (rewrite sgal_map, map_map; reflexivity).
    rewrite E5.
    assert (E6 : (if central
                  then take 0 (bmask (map (fun i => 0 <? sc i) L) (arange (length (map ma L)))) C
                  else bmask (map (fun i => 0 <? sc i) L) (arange (length (map ma L)))) = S_).
    { rewrite <- S_filter. rewrite map_length. unfold L. destruct central eqn:Ec.
      - unfold take. rewrite map_bmask.
        unfold arange. rewrite <- list_as_map. apply bmask_map1.
      - unfold arange. rewrite seq_length. apply bmask_map1. }
    rewrite E6.
    assert (E7 : bmask (map (fun i => 0 <? sc i) L) sgal = map sc S_).
    { rewrite sgal_map, bmask_map2, S_filter. reflexivity. }
    rewrite E7.
    rewrite !bmask_map2, S_filter, np_repeat_map.
    assert (E8 : set_slice empty 0 (map ct C) = map ct C ++ skipn (length C) empty).
    { unfold set_slice. simpl. rewrite map_length. reflexivity. }
    rewrite E8.
    destruct (n_distinct (C ++ S_) =? 0); [reflexivity|].
    destruct pool as [assign|]; reflexivity.
  Qed.

  Lemma populate_labels_len : length (C ++ flat_map (fun i => repeat i (sc i)) S_)
    = length C + nsum (map sc S_).
  Proof.
    rewrite app_length. f_equal. clear.
    induction S_ as [|x l IH]; simpl; auto.
    rewrite app_length, repeat_length, IH. reflexivity.
  Qed.

  Lemma populate_serial_refines :
    body None = match cat with
                | [] => RaisedZeroDivision
                | _ => Returned (map snd cat, map fst cat,
                                 length (centrals ct N cd))
                end.
  Proof.
    rewrite populate_norm, n_distinct_0.
    destruct (C ++ S_) as [|x l] eqn:E.
    - assert (cat = []) as K by (apply cat_nil; exact E). rewrite K. reflexivity.
    - assert (cat <> []) as K by (intro K; apply cat_nil in K; rewrite K in E; discriminate).
      rewrite fill_serial_spec.
      + rewrite <- cat_fst.
        assert (Hpos : map ct C ++
           flat_map (fun i => sampler i (nth i (map sc S_) 0) (nth i (map ma S_) dM)
                                (nth i (map ct S_) dP)) (seq 0 (length (map sc S_)))
           = map snd cat).
        { unfold cat, catalogue, satellites, centrals. rewrite map_app, map_map, sat_snd_from.
          simpl. rewrite map_length. reflexivity. }
        rewrite Hpos. unfold centrals. rewrite map_length. fold C.
        destruct cat; [contradiction|reflexivity].
      + exact sampler_len.
      + rewrite !map_length; reflexivity.
      + rewrite map_length; reflexivity.
      + rewrite skipn_length, Hem, nsum_cgal, nsum_sgal. lia.
  Qed.

  Lemma populate_pool_result : forall assign,
    body (Some assign) = match cat with
                | [] => RaisedZeroDivision
                | _ => Returned (map ct C ++ skipn (length C) empty, map fst cat,
                                 length (centrals ct N cd))
                end.
  Proof.
    intros assign. rewrite populate_norm, n_distinct_0.
    destruct (C ++ S_) as [|x l] eqn:E.
    - assert (cat = []) as K by (apply cat_nil; exact E). rewrite K. reflexivity.
    - assert (cat <> []) as K by (intro K; apply cat_nil in K; rewrite K in E; discriminate).
      rewrite <- cat_fst. unfold centrals. rewrite map_length. fold C.
      destruct cat; [contradiction|reflexivity].
  Qed.
End Main.
