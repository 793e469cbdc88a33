(** Theorems about halomod.tools.populate (properties C12-C17).

    Reading guide.  [populate dM sampler pool central centres masses cgal sgal
    buffer edges] is the model of the Python function with the random draws
    made explicit ([cgal] binomial, [sgal] Poisson, [buffer] = the content of
    np.empty, [sampler k n m c] = the points returned by the k-th call
    profile.populate(n, m, centre=c)); [pool = None] is the serial path.
    [draws_ok], [sat_count], [sat_rank] and [wrap_point] are in Spec/. *)
From Coq Require Import List Arith Lia Reals Lra Sorted.
From Verif Require Import Model.Populate Spec.PopulateSpec Spec.WrapSpec
  Proofs.PopulateCor.
Import ListNotations.

(** C12 *)
Theorem populate_catalogue_bookkeeping :
  forall {M : Type} (dM : M) (sampler : nat -> nat -> M -> vec3 -> list vec3),
  (forall k n m p, length (sampler k n m p) = n) ->
  forall central centres masses cgal sgal buffer,
  draws_ok central centres masses cgal sgal buffer ->
  forall edges pos halo H,
  populate dM sampler None central centres masses cgal sgal buffer edges
    = Returned (pos, halo, H) ->
  length pos = length halo /\
  H = fold_right Nat.add 0 cgal /\
  StronglySorted lt (firstn H halo) /\
  (forall j, j < H ->
     exists i, nth j halo (length masses) = i /\ i < length masses /\ nth i cgal 0 = 1 /\
               nth_error pos j = Some (wrap_point edges (nth i centres (0, 0, 0)%R))) /\
  (forall i, In i halo -> i < length masses) /\
  (forall i, i < length masses ->
     count_occ Nat.eq_dec halo i
     = nth i cgal 0
       + sat_count central (fun j => nth j cgal 0) (fun j => nth j sgal 0) i).
Proof. exact @bookkeeping. Qed.
Print Assumptions populate_catalogue_bookkeeping.

(** C13 *)
Theorem populate_satellites_from_own_halo :
  forall {M : Type} (dM : M) (sampler : nat -> nat -> M -> vec3 -> list vec3),
  (forall k n m p, length (sampler k n m p) = n) ->
  forall central centres masses cgal sgal buffer,
  draws_ok central centres masses cgal sgal buffer ->
  forall edges pos halo H,
  populate dM sampler None central centres masses cgal sgal buffer edges
    = Returned (pos, halo, H) ->
  forall i, i < length masses ->
  let n := sat_count central (fun j => nth j cgal 0) (fun j => nth j sgal 0) in
  filter (fun g => fst g =? i) (combine (skipn H halo) (skipn H pos))
  = map (fun p => (i, wrap_point edges p))
      (sampler (sat_rank n i) (n i) (nth i masses dM) (nth i centres (0, 0, 0)%R)).
Proof. exact @satellites_own_profile. Qed.
Print Assumptions populate_satellites_from_own_halo.

(** C14 *)
Theorem populate_central_condition :
  forall {M : Type} (dM : M) (sampler : nat -> nat -> M -> vec3 -> list vec3),
  (forall k n m p, length (sampler k n m p) = n) ->
  forall central centres masses cgal sgal buffer,
  draws_ok central centres masses cgal sgal buffer ->
  forall edges pos halo H,
  populate dM sampler None central centres masses cgal sgal buffer edges
    = Returned (pos, halo, H) ->
  (central = true -> forall i, In i (skipn H halo) -> In i (firstn H halo)) /\
  (central = false -> forall i,
     In i (skipn H halo) <-> i < length masses /\ 0 < nth i sgal 0).
Proof. exact @central_condition. Qed.
Print Assumptions populate_central_condition.

(** C15: the coordinate rule used by [wrap_point], and that it is what the
    array code does. *)
Theorem populate_wrap_pointwise : forall edges l,
  wrap edges l = map (wrap_point edges) l.
Proof. exact wrap_map. Qed.
Print Assumptions populate_wrap_pointwise.

Theorem populate_wrap_in_box_iff : forall lo hi x, (lo <= hi)%R ->
  ((lo <= wrap1 lo hi x <= hi) <-> (lo - (hi - lo) <= x <= hi + (hi - lo)))%R.
Proof. exact wrap1_range. Qed.
Print Assumptions populate_wrap_in_box_iff.

Definition in_box (lo hi p : vec3) : Prop :=
  forall j, j < 3 -> (getc j lo <= getc j p <= getc j hi)%R.
Definition in_box_enlarged (lo hi p : vec3) : Prop :=
  forall j, j < 3 -> (getc j lo - (getc j hi - getc j lo) <= getc j p
                      <= getc j hi + (getc j hi - getc j lo))%R.

Theorem populate_wrapped_galaxy_in_box_iff : forall e p,
  (forall j, j < 3 -> (getc j (edges_lo e) <= getc j (edges_hi e))%R) ->
  (in_box (edges_lo e) (edges_hi e) (wrap_point (Some e) p)
   <-> in_box_enlarged (edges_lo e) (edges_hi e) p).
Proof. exact wrap_point_in_box. Qed.
Print Assumptions populate_wrapped_galaxy_in_box_iff.

(** C15: what the three accepted forms of [edges] mean: a number e is the box [0,e]^3, a pair (lo,hi) the box [lo,hi]^3 - stated through
    the galaxies that are left where they are: those in that box, and no others *)
Theorem populate_edges_forms : forall lo hi x y z, (lo < hi)%R ->
  let p := (x, y, z) in let inside a b := (a <= x <= b /\ a <= y <= b /\ a <= z <= b)%R in
  (wrap_point (Some (EPair lo hi)) p = p <-> inside lo hi) /\ ((0 < hi)%R -> (wrap_point (Some (EScalar hi)) p = p <-> inside 0%R hi)) /\ wrap_point None p = p.
Proof.
  intros lo hi x y z H p inside. assert (W : forall a b t, (a < b)%R -> (wrap1 a b t = t <-> (a <= t <= b)%R)).
  { intros a b t Hab. split; [|apply wrap1_inside]. intros E. unfold wrap1 in E.
    repeat match type of E with context [Rlt_dec ?u ?w] => destruct (Rlt_dec u w) end; lra. }
  assert (Q : forall a b, (a < b)%R -> ((wrap1 a b x, wrap1 a b y, wrap1 a b z) = p <-> inside a b)).
  { intros a b Hab. unfold p, inside. rewrite <- (W a b x Hab), <- (W a b y Hab), <- (W a b z Hab). split; [intros E; injection E; auto|intros (-> & -> & ->); reflexivity]. }
  split; [|split].
  - apply (Q lo hi H).
  - intros H0. apply (Q 0%R hi H0).
  - reflexivity.
Qed.
Print Assumptions populate_edges_forms.

Theorem populate_wrap_identity_inside : forall lo hi x,
  (lo <= x <= hi)%R -> wrap1 lo hi x = x.
Proof. exact wrap1_inside. Qed.

Theorem populate_wrap_shifts_by_box_length : forall lo hi x,
  (wrap1 lo hi x = x \/ wrap1 lo hi x = x + (hi - lo) \/ wrap1 lo hi x = x - (hi - lo))%R.
Proof. exact wrap1_shift. Qed.

(** C16 *)
Theorem populate_raises_iff_no_galaxy :
  forall {M : Type} (dM : M) (sampler : nat -> nat -> M -> vec3 -> list vec3),
  (forall k n m p, length (sampler k n m p) = n) ->
  forall central centres masses cgal sgal buffer,
  draws_ok central centres masses cgal sgal buffer ->
  forall pool edges,
  populate dM sampler pool central centres masses cgal sgal buffer edges = RaisedZeroDivision
  <-> (Forall (fun c => c = 0) cgal /\ Forall (fun s => s = 0) sgal).
Proof. exact @raises_iff. Qed.
Print Assumptions populate_raises_iff_no_galaxy.

(** C17 *)
Theorem populate_pool_loses_satellites :
  forall {M : Type} (dM : M) (sampler : nat -> nat -> M -> vec3 -> list vec3),
  (forall k n m p, length (sampler k n m p) = n) ->
  forall central centres masses cgal sgal buffer,
  draws_ok central centres masses cgal sgal buffer ->
  forall assign edges pos halo H,
  populate dM sampler None central centres masses cgal sgal buffer edges
    = Returned (pos, halo, H) ->
  exists pos', populate dM sampler (Some assign) central centres masses cgal sgal buffer edges
    = Returned (pos', halo, H) /\
    firstn H pos' = firstn H pos /\
    skipn H pos' = map (wrap_point edges) (skipn H buffer).
Proof. exact @pool_vs_serial. Qed.
Print Assumptions populate_pool_loses_satellites.

Theorem populate_pool_agrees_iff :
  forall {M : Type} (dM : M) (sampler : nat -> nat -> M -> vec3 -> list vec3),
  (forall k n m p, length (sampler k n m p) = n) ->
  forall central centres masses cgal sgal buffer,
  draws_ok central centres masses cgal sgal buffer ->
  forall assign edges pos halo H,
  populate dM sampler None central centres masses cgal sgal buffer edges
    = Returned (pos, halo, H) ->
  (populate dM sampler (Some assign) central centres masses cgal sgal buffer edges
     = populate dM sampler None central centres masses cgal sgal buffer edges
   <-> skipn H pos = map (wrap_point edges) (skipn H buffer)).
Proof. exact @pool_eq_serial_iff. Qed.
Print Assumptions populate_pool_agrees_iff.

(** ** The hypotheses are met: four haloes, haloes 0, 2, 3 have centrals; with
    the central condition halo 2 has two satellites and halo 3 one. *)
Definition ex_centres : list vec3 := [(1, 0, 0); (2, 0, 0); (3, 0, 0); (4, 0, 0)]%R.
Definition ex_sampler (k n : nat) (m : nat) (c : vec3) : list vec3 :=
  repeat (setc 1 (INR k) c) n.
Definition ex_buffer : list vec3 := repeat (0, 0, 0)%R 6.

Example ex_draws_ok :
  draws_ok true ex_centres [10; 11; 12; 13] [1; 0; 1; 1] [0; 2; 1] ex_buffer /\
  (forall k n m p, length (ex_sampler k n m p) = n).
Proof.
  split.
  - unfold draws_ok; simpl; repeat split; auto 10.
  - intros; apply repeat_length.
Qed.

Example ex_populate_returns :
  populate 0 ex_sampler None true ex_centres [10; 11; 12; 13] [1; 0; 1; 1] [0; 2; 1]
    ex_buffer None
  = Returned ([(1, 0, 0); (3, 0, 0); (4, 0, 0); (3, INR 0, 0); (3, INR 0, 0); (4, INR 1, 0)]%R,
              [0; 2; 3; 2; 2; 3], 3).
Proof. reflexivity. Qed.

(** The pool path on the same draws returns other positions (finding C17). *)
Example ex_pool_differs_refuted :
  populate 0 ex_sampler (Some (fun _ => [])) true ex_centres [10; 11; 12; 13] [1; 0; 1; 1]
    [0; 2; 1] ex_buffer None
  <> populate 0 ex_sampler None true ex_centres [10; 11; 12; 13] [1; 0; 1; 1] [0; 2; 1]
    ex_buffer None.
Proof. cbv -[R0 R1 IZR INR]. intros E. inversion E. lra. Qed.

(** A point farther than one box length stays outside (finding C15). *)
Example ex_wrap_far_refuted : ~ (0 <= wrap1 0 1 (5/2) <= 1)%R.
Proof. rewrite wrap1_range; lra. Qed.
