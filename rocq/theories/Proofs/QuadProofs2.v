From Coq Require Import Reals Lra Lia List Bool Arith Psatz.
From Coquelicot Require Import Coquelicot.
From Verif Require Import Model.RBool Model.Quad Spec.QuadSpec Proofs.QuadProofs.
Import ListNotations.
Local Open Scope R_scope.

Lemma bigsum_S : forall n f, bigsum (S n) f = bigsum n f + f n.
Proof. reflexivity. Qed.
Lemma bigsum_0 : forall f, bigsum 0 f = 0.
Proof. reflexivity. Qed.

Definition ow (i : nat) : R := if (i =? 0)%nat then 1 else if Nat.odd i then 4 else 2.

Lemma odd_2k : forall k, Nat.odd (2*k) = false.
Proof. intros. rewrite <- Nat.negb_even. assert (Nat.even (2*k) = true) as ->; auto. apply Nat.even_spec. now exists k. Qed.
Lemma odd_2k1 : forall k, Nat.odd (2*k+1) = true.
Proof. intros. apply Nat.odd_spec. now exists k. Qed.

Lemma open_sum : forall k f h, h / 3 * bigsum (2*k) (fun i => ow i * f i)
   = simpson_rule h k f - (if (k =? 0)%nat then 0 else h / 3 * f (2*k)%nat).
Proof.
  induction k; intros; [simpl; unfold simpson_rule; simpl; lra|].
  replace (2 * S k)%nat with (S (S (2*k))) by lia. simpl bigsum.
  replace (k + (k + 0))%nat with (2*k)%nat by lia.
  rewrite !Rmult_plus_distr_l, IHk. unfold simpson_rule. simpl bigsum.
  replace (k + (k + 0))%nat with (2*k)%nat by lia.
  unfold ow. rewrite odd_2k. replace (S (2*k)) with (2*k+1)%nat by lia. rewrite odd_2k1.
  replace (S (2*k+1)) with (2*k+2)%nat by lia.
  destruct (Nat.eqb_spec k 0) as [E0|Hk]; [subst k|].
  - simpl. lra.
  - destruct (Nat.eqb_spec (2*k) 0); [lia|]. destruct (Nat.eqb_spec (2*k+1) 0); [lia|]. simpl Nat.eqb. cbv iota. lra.
Qed.

Lemma w1_odd_sum : forall k f h, (1 <= k)%nat ->
  h / 3 * bigsum (2*k+1) (fun i => w1 (2*k+1) i * f i) = simpson_rule h k f.
Proof.
  intros k f h Hk. replace (2*k+1)%nat with (S (2*k)) at 1 by lia. simpl bigsum at 1.
  replace (k + (k + 0))%nat with (2*k)%nat by lia.
  rewrite (bigsum_ext _ _ (fun i => ow i * f i)).
  - rewrite Rmult_plus_distr_l, open_sum. rewrite w1_or. rewrite <- Nat.negb_odd, odd_2k1. simpl negb. cbv iota.
    destruct (Nat.eqb_spec k 0); [lia|].
    destruct (Nat.eqb_spec (2*k) (2*k+1-1)); [|lia]. rewrite orb_true_r. lra.
  - intros i Hi. rewrite w1_or; unfold ow. rewrite <- Nat.negb_odd, odd_2k1. simpl negb. cbv iota.
    destruct (Nat.eqb_spec i (2*k+1-1)); [lia|]. rewrite orb_false_r. reflexivity.
Qed.

Lemma w1_even_sum : forall k f h, (1 <= k)%nat ->
  h / 3 * bigsum (2*k+2) (fun i => w1 (2*k+2) i * f i) = simpson_trap_rule h k f.
Proof.
  intros k f h Hk. replace (2*k+2)%nat with (S (S (2*k))) at 1 by lia. simpl bigsum at 1.
  replace (k + (k + 0))%nat with (2*k)%nat by lia.
  assert (Ev : Nat.even (2*k+2) = true) by (apply Nat.even_spec; exists (k+1)%nat; lia).
  rewrite (bigsum_ext _ _ (fun i => ow i * f i)).
  - rewrite !Rmult_plus_distr_l, open_sum. unfold w1, simpson_trap_rule. rewrite Ev.
    destruct (Nat.eqb_spec k 0); [lia|].
    destruct (Nat.eqb_spec (2*k) (2*k+2-1)); [lia|].
    destruct (Nat.eqb_spec (2*k) (2*k+2-2)); [|lia].
    destruct (Nat.eqb_spec (S (2*k)) (2*k+2-1)); [|lia].
    replace (S (2*k)) with (2*k+1)%nat by lia. lra.
  - intros i Hi. unfold w1, ow. rewrite Ev.
    destruct (Nat.eqb_spec i (2*k+2-1)); [lia|].
    destruct (Nat.eqb_spec i (2*k+2-2)); [lia|]. reflexivity.
Qed.

Lemma bigsum2_w : forall n X h, h * h * bigsum n (fun i => bigsum n (fun j => w1 n i * w1 n j * X i j)) / 9
  = h / 3 * bigsum n (fun i => w1 n i * (h / 3 * bigsum n (fun j => w1 n j * X i j))).
Proof.
  intros. rewrite (bigsum_ext n (fun i => w1 n i * (h / 3 * bigsum n (fun j => w1 n j * X i j)))
    (fun i => h / 3 * bigsum n (fun j => w1 n i * w1 n j * X i j))).
  - rewrite bigsum_scal. lra.
  - intros i _. rewrite (bigsum_ext n (fun j => w1 n i * w1 n j * X i j) (fun j => w1 n i * (w1 n j * X i j))) by (intros; ring).
    rewrite bigsum_scal. lra.
Qed.

Lemma dblsimps_full : forall n X h, (3 <= n)%nat ->
  (forall i j, (i < n)%nat -> (j < n)%nat -> X i j = X j i) ->
  dblsimps_ n n X h h = h / 3 * bigsum n (fun i => w1 n i * (h / 3 * bigsum n (fun j => w1 n j * X i j))).
Proof.
  intros n X h Hn Hs. unfold dblsimps_.
  rewrite tri_symm, <- bigsum2_w.
  - f_equal. f_equal. apply bigsum_ext; intros i Hi. apply bigsum_ext; intros j Hj.
    rewrite makeW_spec; auto.
  - intros i j Hi Hj. rewrite !makeW_spec, (Hs i j); auto. ring.
Qed.

Lemma dblsimps_odd : forall k X h, (1 <= k)%nat ->
  (forall i j, (i < 2*k+1)%nat -> (j < 2*k+1)%nat -> X i j = X j i) ->
  dblsimps_ (2*k+1) (2*k+1) X h h = simpson_rule h k (fun i => simpson_rule h k (fun j => X i j)).
Proof.
  intros. rewrite dblsimps_full, <- w1_odd_sum by (auto; lia). f_equal. apply bigsum_ext; intros.
  now rewrite w1_odd_sum.
Qed.
Lemma dblsimps_even : forall k X h, (1 <= k)%nat ->
  (forall i j, (i < 2*k+2)%nat -> (j < 2*k+2)%nat -> X i j = X j i) ->
  dblsimps_ (2*k+2) (2*k+2) X h h = simpson_trap_rule h k (fun i => simpson_trap_rule h k (fun j => X i j)).
Proof.
  intros. rewrite dblsimps_full, <- w1_even_sum by (auto; lia). f_equal. apply bigsum_ext; intros.
  now rewrite w1_even_sum.
Qed.

(** * polynomial exactness *)
Definition cubic_prim (c0 c1 c2 c3 x : R) := c0*x + c1*x^2/2 + c2*x^3/3 + c3*x^4/4.
Lemma cubic_RInt : forall c0 c1 c2 c3 a b,
  is_RInt (cubic c0 c1 c2 c3) a b (cubic_prim c0 c1 c2 c3 b - cubic_prim c0 c1 c2 c3 a).
Proof.
  intros. apply (is_RInt_derive (cubic_prim c0 c1 c2 c3) (cubic c0 c1 c2 c3)).
  - intros. unfold cubic_prim, cubic. auto_derive; auto. field.
  - intros. apply (ex_derive_continuous (cubic c0 c1 c2 c3)). unfold cubic. auto_derive. auto.
Qed.

Lemma simpson_cubic : forall k a h c0 c1 c2 c3,
  simpson_rule h k (fun i => cubic c0 c1 c2 c3 (a + INR i * h))
  = cubic_prim c0 c1 c2 c3 (a + INR (2*k) * h) - cubic_prim c0 c1 c2 c3 a.
Proof.
  intros. unfold simpson_rule. induction k.
  - rewrite bigsum_0. replace (INR (2*0)) with 0 by reflexivity. rewrite Rmult_0_l, Rplus_0_r. lra.
  - rewrite bigsum_S, IHk. replace (2 * S k)%nat with (2*k+2)%nat by lia.
    rewrite !(plus_INR (2*k)). simpl (INR 1). simpl (INR 2). set (t := INR (2*k)). unfold cubic, cubic_prim. field.
Qed.

Lemma simpson_trap_affine : forall k a h c0 c1,
  simpson_trap_rule h k (fun i => c0 + c1 * (a + INR i * h))
  = cubic_prim c0 c1 0 0 (a + INR (2*k+1) * h) - cubic_prim c0 c1 0 0 a.
Proof.
  intros. unfold simpson_trap_rule.
  assert (E := simpson_cubic k a h c0 c1 0 0).
  unfold simpson_rule in *. rewrite (bigsum_ext k _ (fun p => h / 3 * (cubic c0 c1 0 0 (a + INR (2*p)*h) + 4 * cubic c0 c1 0 0 (a + INR (2*p+1)*h) + cubic c0 c1 0 0 (a + INR (2*p+2)*h)))).
  - rewrite E. rewrite !(plus_INR (2*k)). simpl (INR 1). set (t := INR (2*k)). unfold cubic_prim. field.
  - intros. unfold cubic. ring.
Qed.

Lemma simpson_rule_scal : forall h k c f, simpson_rule h k (fun i => c * f i) = c * simpson_rule h k f.
Proof. intros. unfold simpson_rule. rewrite <- bigsum_scal. apply bigsum_ext; intros; ring. Qed.
Lemma simpson_rule_plus : forall h k f g, simpson_rule h k (fun i => f i + g i) = simpson_rule h k f + simpson_rule h k g.
Proof. intros. unfold simpson_rule. rewrite <- bigsum_plus. apply bigsum_ext; intros; ring. Qed.
Lemma simpson_rule_ext : forall h k f g, (forall i, (i <= 2*k)%nat -> f i = g i) -> simpson_rule h k f = simpson_rule h k g.
Proof. intros. unfold simpson_rule. apply bigsum_ext; intros. rewrite !H by lia. reflexivity. Qed.

Lemma dblsimps_exact : forall k a h c0 c1 c2 c3 d0 d1 d2 d3, (1 <= k)%nat ->
  let x := fun i => a + INR i * h in
  let b := a + INR (2*k) * h in
  let p := cubic c0 c1 c2 c3 in let q := cubic d0 d1 d2 d3 in
  dblsimps_ (2*k+1) (2*k+1) (fun i j => p (x i) * q (x j) + q (x i) * p (x j)) h h
  = 2 * (RInt p a b * RInt q a b).
Proof.
  intros. rewrite dblsimps_odd by (auto; intros; ring).
  rewrite (simpson_rule_ext h k _ (fun i => simpson_rule h k (fun j => q (x j)) * p (x i) + simpson_rule h k (fun j => p (x j)) * q (x i))).
  - rewrite simpson_rule_plus, !simpson_rule_scal. unfold p, q, x, b. rewrite !simpson_cubic.
    rewrite (is_RInt_unique _ _ _ _ (cubic_RInt c0 c1 c2 c3 a (a + INR (2*k)*h))).
    rewrite (is_RInt_unique _ _ _ _ (cubic_RInt d0 d1 d2 d3 a (a + INR (2*k)*h))). ring.
  - intros. rewrite simpson_rule_plus, !simpson_rule_scal. ring.
Qed.

(** * makeW (C27) *)
Definition wpy (n i : nat) : R :=
  pick (Nat.odd i && (i <? n - 1)%nat) 4 * pick (Nat.even i && (1 <? i)%nat && (i <? n - 1)%nat) 2.
Lemma makeW_py : forall nx ny i j, makeW nx ny i j = wpy nx i * wpy ny j.
Proof.
  intros. unfold makeW, scale_cols, scale_rows, wpy, ones. rewrite !mem_odd_range, !mem_even_range.
  destruct (Nat.odd i && (i <? nx - 1)%nat), (Nat.odd j && (j <? ny - 1)%nat),
   (Nat.even i && (1 <? i)%nat && (i <? nx - 1)%nat), (Nat.even j && (1 <? j)%nat && (j <? ny - 1)%nat); unfold pick; ring.
Qed.
Lemma wpy_ow : forall n i, (i < n - 1)%nat -> wpy n i = ow i.
Proof.
  intros. unfold wpy, ow. rewrite <- Nat.negb_odd.
  destruct (Nat.ltb_spec i (n-1)); [|lia].
  destruct i as [|[|i]]; [unfold pick; simpl; lra | unfold pick; simpl; lra|].
  replace (1 <? S (S i))%nat with true by reflexivity. rewrite !andb_true_r.
  replace (S (S i) =? 0)%nat with false by reflexivity. destruct (Nat.odd (S (S i))); unfold pick; simpl; lra.
Qed.
Lemma wpy_last : forall n, wpy n (n-1) = 1.
Proof.
  intros. unfold wpy. rewrite Nat.ltb_irrefl, !andb_false_r. unfold pick; lra.
Qed.

Lemma wpy_odd_sum : forall k f h, (1 <= k)%nat ->
  h / 3 * bigsum (2*k+1) (fun i => wpy (2*k+1) i * f i) = simpson_rule h k f.
Proof.
  intros k f h Hk. rewrite <- w1_odd_sum by auto. f_equal. apply bigsum_ext. intros i Hi. f_equal.
  rewrite w1_or. rewrite <- Nat.negb_odd, odd_2k1. simpl negb. cbv iota.
  destruct (Nat.eqb_spec i (2*k+1-1)) as [->|Hn].
  - rewrite wpy_last, orb_true_r. reflexivity.
  - rewrite wpy_ow by lia. rewrite orb_false_r. reflexivity.
Qed.
(** even number of points: Simpson on the first 2k+1 points, plus a spurious f(2k) + 5f(2k+1)... *)
Lemma wpy_even_sum : forall k f h, (1 <= k)%nat ->
  h / 3 * bigsum (2*k+2) (fun i => wpy (2*k+2) i * f i)
  = simpson_rule h k f + h / 3 * (f (2*k)%nat + f (2*k+1)%nat).
Proof.
  intros k f h Hk. replace (2*k+2)%nat with (S (S (2*k))) at 1 by lia. simpl bigsum at 1.
  replace (k + (k + 0))%nat with (2*k)%nat by lia.
  rewrite (bigsum_ext _ _ (fun i => ow i * f i)).
  - rewrite !Rmult_plus_distr_l, open_sum.
    destruct (Nat.eqb_spec k 0); [lia|].
    replace (S (2*k)) with (2*k+2-1)%nat by lia. rewrite wpy_last.
    rewrite wpy_ow by lia. unfold ow. rewrite odd_2k. destruct (Nat.eqb_spec (2*k) 0); [lia|].
    replace (2*k+2-1)%nat with (2*k+1)%nat by lia. lra.
  - intros i Hi. rewrite wpy_ow by lia. reflexivity.
Qed.
(* even rule differs from Simpson + trapezoid by h/6 (f(2k)+f(2k+1)) *)

Lemma simpson_rule_const : forall h k c, simpson_rule h k (fun _ => c) = INR (2*k) * h * c.
Proof.
  intros. unfold simpson_rule. induction k; [simpl; lra|]. rewrite bigsum_S, IHk.
  replace (2 * S k)%nat with (2*k+2)%nat by lia. rewrite (plus_INR (2*k)). simpl (INR 2). field.
Qed.

(** * dbltrapz (C29) *)
Definition wt (n i : nat) : R := if interior n i then 2 else 1.
Lemma wt_sum : forall n f h, (2 <= n)%nat -> h / 2 * bigsum n (fun i => wt n i * f i) = trapezoid_rule h (n-1) f.
Proof.
  intros n f h Hn. destruct n as [|[|n]]; try lia.
  rewrite bigsum_S_l, bigsum_S. replace (S (S n) - 1)%nat with (S n) by lia. unfold trapezoid_rule.
  assert (W0 : wt (S (S n)) 0 = 1) by reflexivity.
  assert (Wl : wt (S (S n)) (S n) = 1).
  { unfold wt, interior. destruct (Nat.ltb_spec (S n) (S (S n) - 1)); [lia|]. now rewrite andb_false_r. }
  rewrite W0, Wl.
  rewrite (bigsum_ext n _ (fun i => 2 * f (S i))).
  2: { intros i Hi. unfold wt, interior. destruct (Nat.ltb_spec (S i) (S (S n) - 1)); [|lia]. reflexivity. }
  rewrite (bigsum_ext (S n) (fun p => h / 2 * (f p + f (p+1)%nat)) (fun p => h/2 * f p + h/2 * f (S p))).
  2: { intros. rewrite Nat.add_1_r. lra. }
  rewrite bigsum_plus, !bigsum_scal. rewrite bigsum_S_l at 1. rewrite (bigsum_S n (fun i => f (S i))). lra.
Qed.

Lemma dbltrapz_wt : forall nx ny X dx dy,
  dbltrapz nx ny X dx dy =
  dx / 2 * bigsum nx (fun i => wt nx i * ((match dy with Some v => if Reqb v 0 then dx else v | None => dx end) / 2 * bigsum ny (fun j => wt ny j * X i j))).
Proof.
  intros. unfold dbltrapz, truthy.
  set (D := if match dy with Some v => negb (Reqb v 0) | None => false end then _ else _).
  assert (ED : D = match dy with Some v => if Reqb v 0 then dx else v | None => dx end).
  { unfold D. destruct dy as [v|]; auto. destruct (Reqb v 0); auto. }
  rewrite <- ED. clearbody D. rewrite sum_over_seq.
  rewrite (bigsum_ext nx (fun i => wt nx i * (D / 2 * bigsum ny (fun j => wt ny j * X i j)))
     (fun i => D / 2 * sum_over (seq 0 ny) (fun j => if interior ny j then (if interior nx i then X i j * 2 else X i j) * 2 else if interior nx i then X i j * 2 else X i j))).
  - rewrite bigsum_scal. lra.
  - intros i Hi. rewrite sum_over_seq.
    rewrite (bigsum_ext ny (fun j => if interior ny j then (if interior nx i then X i j * 2 else X i j) * 2 else if interior nx i then X i j * 2 else X i j) (fun j => wt nx i * (wt ny j * X i j))).
    + rewrite bigsum_scal. lra.
    + intros j Hj. unfold wt. destruct (interior nx i), (interior ny j); lra.
Qed.

Lemma dbltrapz_iter : forall nx ny X dx dy, (2 <= nx)%nat -> (2 <= ny)%nat ->
  dbltrapz nx ny X dx dy =
  trapezoid_rule dx (nx-1) (fun i => trapezoid_rule (match dy with Some v => if Reqb v 0 then dx else v | None => dx end) (ny-1) (fun j => X i j)).
Proof.
  intros. rewrite dbltrapz_wt, <- wt_sum by auto. f_equal. apply bigsum_ext; intros. rewrite wt_sum; auto.
Qed.

Lemma trap_affine : forall n a h c0 c1,
  trapezoid_rule h n (fun i => c0 + c1 * (a + INR i * h)) = cubic_prim c0 c1 0 0 (a + INR n * h) - cubic_prim c0 c1 0 0 a.
Proof.
  intros. unfold trapezoid_rule. induction n.
  - simpl. rewrite Rmult_0_l, Rplus_0_r. lra.
  - rewrite bigsum_S, IHn, S_INR, plus_INR. simpl (INR 1). unfold cubic_prim. field.
Qed.

(** * Numba trapezoid *)
Lemma makeH_spec : forall n i j, (i < n)%nat -> (j < n)%nat -> makeH_ n n i j = wt n i * wt n j.
Proof.
  intros n i j Hi Hj. unfold makeH_. rewrite fold_mul_at. unfold makeH_ops, ones.
  rewrite (fac_blocks _ i j 2 2).
  - assert (forall q, mem q (pyrange 1 (n-1) 1) = interior n q).
    { intros q. apply eq_true_iff_eq. rewrite mem_In, pyrange_In by lia. unfold interior.
      rewrite andb_true_iff, Nat.leb_le, Nat.ltb_lt, Nat.mod_1_r. lia. }
    rewrite !H. unfold wt, pick. destruct (interior n i), (interior n j); lra.
  - apply pyrange_NoDup; lia.
  - intros. apply fac_rowcol; auto.
Qed.
Lemma dbltrapz_numba : forall n X h, (2 <= n)%nat ->
  (forall i j, (i < n)%nat -> (j < n)%nat -> X i j = X j i) ->
  dbltrapz_ n n X h h = trapezoid_rule h (n-1) (fun i => trapezoid_rule h (n-1) (fun j => X i j)).
Proof.
  intros n X h Hn Hs. transitivity (dbltrapz n n X h None); [|now rewrite dbltrapz_iter].
  rewrite dbltrapz_wt. unfold dbltrapz_. rewrite tri_symm.
  - rewrite (bigsum_ext n (fun i => wt n i * (h / 2 * bigsum n (fun j => wt n j * X i j)))
      (fun i => h / 2 * bigsum n (fun j => makeH_ n n i j * X i j))).
    + rewrite bigsum_scal. lra.
    + intros i Hi. rewrite (bigsum_ext n (fun j => makeH_ n n i j * X i j) (fun j => wt n i * (wt n j * X i j))).
      * rewrite bigsum_scal. lra.
      * intros. rewrite makeH_spec; auto. lra.
  - intros. rewrite !makeH_spec, (Hs i j); auto. ring.
Qed.

(** * cumsimps (C30) *)
Lemma cum_f1 : forall n f i, (i < n - 1)%nat -> (1 <= i)%nat ->
  (let f1a i := if interior n i then f i * 2 else f i in
   if mem i (pyrange 1 (n - 1) 2) then f1a i * 2 else f1a i) = ow i * f i.
Proof.
  intros. cbv zeta. rewrite mem_odd_range. unfold interior, ow.
  destruct (Nat.ltb_spec i (n-1)); [|lia]. destruct (Nat.leb_spec 1 i); [|lia].
  destruct (Nat.eqb_spec i 0); [lia|]. destruct (Nat.odd i); simpl; lra.
Qed.
Lemma cum_f1_0 : forall n f,
  (let f1a i := if interior n i then f i * 2 else f i in
   if mem 0%nat (pyrange 1 (n - 1) 2) then f1a 0%nat * 2 else f1a 0%nat) = ow 0 * f 0%nat.
Proof. intros. cbv zeta. rewrite mem_odd_range. simpl. unfold interior, ow; simpl. lra. Qed.

Lemma cumsimps_0 : forall n f dx, cumsimps n f dx 0 = 0.
Proof.
  intros. unfold cumsimps, cumsum_at. simpl plus. unfold sum_over; simpl map. unfold lsum, fold_right.
  rewrite mem_odd_range. simpl. unfold interior; simpl. lra.
Qed.
Lemma cumsimps_even : forall n k f dx, (2*k < n - 1)%nat -> cumsimps n f dx (2*k) = simpson_rule dx k f.
Proof.
  intros n k f dx Hk. unfold cumsimps, cumsum_at. rewrite sum_over_seq.
  replace (2*k+1)%nat with (S (2*k)) by lia. simpl bigsum. replace (k + (k + 0))%nat with (2*k)%nat by lia.
  rewrite (bigsum_ext (2*k) _ (fun i => ow i * f i)).
  - rewrite mem_odd_range, odd_2k. simpl andb. cbv iota.
    assert (E := open_sum k f dx). unfold interior.
    destruct (Nat.ltb_spec (2*k) (n-1)); [|lia].
    destruct (Nat.eqb_spec k 0) as [->|].
    + simpl. unfold simpson_rule. simpl. lra.
    + destruct (Nat.leb_spec 1 (2*k)); [|lia]. simpl andb. cbv iota. unfold simpson_rule in *. lra.
  - intros i Hi. destruct (Nat.eq_dec i 0) as [->|]; [apply cum_f1_0|]. apply cum_f1; lia.
Qed.
Lemma cumsimps_odd : forall n k f dx, (2*k+1 < n - 1)%nat -> cumsimps n f dx (2*k+1) = simpson_rule dx k f + dx / 3 * (f (2*k)%nat + f (2*k+1)%nat).
Proof.
  intros n k f dx Hk. unfold cumsimps, cumsum_at. rewrite sum_over_seq. replace (2*k+1+1)%nat with (S (S (2*k))) by lia. rewrite 2!bigsum_S.
  rewrite (bigsum_ext (2*k) _ (fun i => ow i * f i)). 2: { intros i Hi. destruct (Nat.eq_dec i 0) as [->|]; [apply cum_f1_0|]. apply cum_f1; lia. }
  replace (2*k+1)%nat with (S (2*k)) by lia. assert (O1 : Nat.odd (S (2*k)) = true) by (replace (S (2*k)) with (2*k+1)%nat by lia; apply odd_2k1).
  rewrite !mem_odd_range, O1, odd_2k. unfold interior. destruct (Nat.ltb_spec (S (2*k)) (n-1)); [|lia]. destruct (Nat.ltb_spec (2*k) (n-1)); [|lia]. destruct (Nat.leb_spec 1 (S (2*k))); [|lia].
  assert (E := open_sum k f dx). cbn [andb]. destruct (Nat.eqb_spec k 0) as [->|].
  - simpl. unfold simpson_rule. simpl. lra.
  - destruct (Nat.leb_spec 1 (2*k)); [|lia]. cbn [andb]. unfold simpson_rule in *. lra.
Qed.
(** last index of an odd-sized grid *)
Lemma cumsimps_last : forall k f dx, (1 <= k)%nat ->
  cumsimps (2*k+1) f dx (2*k) = simpson_rule dx k f - dx / 3 * f (2*k)%nat.
Proof.
  intros k f dx Hk. unfold cumsimps, cumsum_at. rewrite sum_over_seq.
  replace (2*k+1)%nat with (S (2*k)) at 1 by lia. simpl bigsum. replace (k + (k + 0))%nat with (2*k)%nat by lia.
  rewrite (bigsum_ext (2*k) _ (fun i => ow i * f i)).
  - rewrite mem_odd_range, odd_2k. simpl andb. cbv iota.
    assert (E := open_sum k f dx). unfold interior.
    destruct (Nat.ltb_spec (2*k) (2*k+1-1)); [lia|]. rewrite andb_false_r.
    destruct (Nat.eqb_spec k 0) as [->|]; [lia|]. unfold simpson_rule in *. lra.
  - intros i Hi. destruct (Nat.eq_dec i 0) as [->|]; [apply cum_f1_0|]. apply cum_f1; lia.
Qed.
(** last index of an even-sized grid *)
Lemma cumsimps_last_even : forall k f dx, (1 <= k)%nat ->
  cumsimps (2*k+2) f dx (2*k+1) = simpson_rule dx k f + dx / 3 * f (2*k)%nat.
Proof.
  intros k f dx Hk. unfold cumsimps, cumsum_at. rewrite sum_over_seq.
  replace (2*k+1+1)%nat with (S (S (2*k))) by lia. simpl bigsum. replace (k + (k + 0))%nat with (2*k)%nat by lia.
  rewrite (bigsum_ext (2*k) _ (fun i => ow i * f i)).
  - rewrite !mem_odd_range, odd_2k. replace (2*k+1)%nat with (S (2*k)) by lia.
    replace (2*k+2-1)%nat with (S (2*k)) by lia. rewrite Nat.ltb_irrefl, andb_false_r. simpl andb. cbv iota.
    assert (E := open_sum k f dx). unfold interior.
    destruct (Nat.ltb_spec (2*k) (2*k+2-1)); [|lia].
    destruct (Nat.leb_spec 1 (2*k)); [|lia].
    destruct (Nat.ltb_spec (S (2*k)) (2*k+2-1)); [lia|]. rewrite andb_false_r. simpl andb. cbv iota.
    destruct (Nat.eqb_spec k 0) as [->|]; [lia|]. unfold simpson_rule in *. lra.
  - intros i Hi. destruct (Nat.eq_dec i 0) as [->|]; [apply cum_f1_0|]. apply cum_f1; lia.
Qed.
