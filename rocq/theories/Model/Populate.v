(** Model of [halomod.tools.populate], /repo/src/halomod/tools.py:349-480. *)
From Coq Require Import List Arith Reals.
From Verif Require Import Model.NumpyList Model.RBool.
Import ListNotations.

(** Outcome of a call: a value, or the Python exception it raises. *)
Inductive outcome (A : Type) : Type :=
| Returned (a : A)
| RaisedZeroDivision.
Arguments Returned {A} _.
Arguments RaisedZeroDivision {A}.

Section Populate.
  Context {M P : Type}.        (* mass and position of a halo *)
  Variables (dM : M) (dP : P). (* never inspected: in-range indexing only *)

  (** [profile.populate(n, m, centre=ctr, rng=rng)] (tools.py:448); the extra
      first argument is the call number, because the generator state differs
      from call to call. *)
  Variable sampler : nat -> nat -> M -> P -> list P.

  (** The loop body [fill_array(i)], tools.py:445-448.  [pos] is the array that
      the closure mutates. *)
  Definition fill_array (masses : list M) (sgal : list nat) (centres : list P)
      (indx : list nat) (pos : list P) (i : nat) : list P :=
    set_slice pos (nth i indx 0)
      (sampler i (nth i sgal 0) (nth i masses dM) (nth i centres dP)).

  (** Serial path: [for i in range(len(masses)): fill_array(i)],
      tools.py:453-454. *)
  Definition fill_serial (masses : list M) (sgal : list nat) (centres : list P)
      (indx : list nat) (pos : list P) : list P :=
    fold_left (fill_array masses sgal centres indx) (seq 0 (length masses)) pos.

  (** Pool path: [mp.ProcessingPool(...).map(fill_array, range(len(masses)))],
      tools.py:450-451.  Every worker process runs [fill_array] on its own copy
      of [pos] (the closure is pickled into the worker); what comes back is the
      list of the workers' return values, and the parent's array is the one it
      had before.  [assign] says which earlier items were run by the same
      worker: its copy has these writes. *)
  Definition pool_worker_copy (masses : list M) (sgal : list nat)
      (centres : list P) (indx : list nat) (pos : list P)
      (assign : nat -> list nat) (i : nat) : list P :=
    fill_array masses sgal centres indx
      (fold_left (fill_array masses sgal centres indx) (assign i) pos) i.

  Record proc_state := { parent_pos : list P; worker_pos : list (list P) }.

  Definition fill_pool (assign : nat -> list nat) (masses : list M)
      (sgal : list nat) (centres : list P) (indx : list nat) (pos : list P)
      : proc_state :=
    {| parent_pos := pos;
       worker_pos := map (pool_worker_copy masses sgal centres indx pos assign)
                         (seq 0 (length masses)) |}.

  (** Everything before the wrapping step, tools.py:393-466.
      [central]  : hodmod._central
      [cgal]     : the binomial draws, tools.py:399
      [sgal]     : the Poisson draws, tools.py:411 (one per *remaining* halo)
      [empty]    : content of np.empty((ncen+nsat,3)), tools.py:417
      [pool]     : [None] = serial path, [Some assign] = HAVE_POOL path. *)
  Definition populate_raw (pool : option (nat -> list nat)) (central : bool)
      (centres : list P) (masses : list M) (cgal sgal : list nat)
      (empty : list P) : outcome (list P * list nat * nat) :=
    (* tools.py:400-401 *)
    let cmask := map (fun c => 0 <? c) cgal in
    let central_halos := bmask cmask (arange (length masses)) in
    (* tools.py:403-405 *)
    let masses1 := if central then bmask cmask masses else masses in
    let centres1 := if central then bmask cmask centres else centres in
    (* tools.py:414-415 *)
    let ncen := nsum cgal in
    (* tools.py:421-425 *)
    let pos1 := set_slice empty 0
                  (if central then centres1 else bmask cmask centres1) in
    (* tools.py:427-434 *)
    let smask := map (fun s => 0 <? s) sgal in
    let sat_halos :=
      if central then take 0 (bmask smask (arange (length masses1))) central_halos
      else bmask smask (arange (length masses1)) in
    (* tools.py:436-438 *)
    let sgal2 := bmask smask sgal in
    let centres2 := bmask smask centres1 in
    let masses2 := bmask smask masses1 in
    (* tools.py:421, 442 : halo[:ncen] and halo[ncen:] *)
    let halo := central_halos ++ np_repeat sat_halos sgal2 in
    (* tools.py:443 *)
    let indx := map (fun k => k + ncen) (0 :: cumsum sgal2) in
    (* tools.py:450-454 *)
    let pos2 := match pool with
                | None => fill_serial masses2 sgal2 centres2 indx pos1
                | Some assign =>
                    parent_pos (fill_pool assign masses2 sgal2 centres2 indx pos1)
                end in
    (* tools.py:456-461: the f-string divides by nhalos_with_gal *)
    if n_distinct (central_halos ++ sat_halos) =? 0 then RaisedZeroDivision
    else Returned (pos2, halo, ncen).
End Populate.

(** ** Periodic wrapping, tools.py:468-478 *)

Definition vec3 : Type := (R * R * R)%type.
Definition getc (j : nat) (p : vec3) : R :=
  match p, j with
  | (x, _, _), 0 => x
  | (_, y, _), 1 => y
  | (_, _, z), _ => z
  end.
Definition setc (j : nat) (v : R) (p : vec3) : vec3 :=
  match p, j with
  | (x, y, z), 0 => (v, y, z)
  | (x, y, z), 1 => (x, v, z)
  | (x, y, z), _ => (x, y, v)
  end.

(** The three accepted forms of [edges], tools.py:469-472. *)
Inductive edges_arg :=
| EScalar (e : R)
| EPair (lo hi : R)
| EBox (lo hi : vec3).

Definition edges_lo (e : edges_arg) : vec3 :=
  match e with
  | EScalar _ => (0, 0, 0)%R
  | EPair lo _ => (lo, lo, lo)
  | EBox lo _ => lo
  end.
Definition edges_hi (e : edges_arg) : vec3 :=
  match e with
  | EScalar h => (h, h, h)
  | EPair _ hi => (hi, hi, hi)
  | EBox _ hi => hi
  end.

(** [pos[cond, j] = value]: row-wise conditional assignment of column j. *)
Definition set_col_where (j : nat) (cond : R -> bool) (val : R -> R)
    (pos : list vec3) : list vec3 :=
  map (fun p => if cond (getc j p) then setc j (val (getc j p)) p else p) pos.

(** tools.py:474-478 for one axis j: first the [d < 0] rows, then, with [d]
    recomputed, the [d > 0] rows. *)
Definition wrap_axis (lo hi : vec3) (pos : list vec3) (j : nat) : list vec3 :=
  let pos1 := set_col_where j (fun x => Rltb (x - getc j lo) 0)
                (fun x => (getc j hi + (x - getc j lo))%R) pos in
  set_col_where j (fun x => Rltb 0 (x - getc j hi))
                (fun x => (getc j lo + (x - getc j hi))%R) pos1.

(** tools.py:468, 474: [if edges is not None: for j in range(3)]. *)
Definition wrap (edges : option edges_arg) (pos : list vec3) : list vec3 :=
  match edges with
  | None => pos
  | Some e => fold_left (wrap_axis (edges_lo e) (edges_hi e)) (seq 0 3) pos
  end.

(** The whole function, tools.py:349-480. *)
Definition populate {M : Type} (dM : M)
    (sampler : nat -> nat -> M -> vec3 -> list vec3)
    (pool : option (nat -> list nat)) (central : bool)
    (centres : list vec3) (masses : list M) (cgal sgal : list nat)
    (empty : list vec3) (edges : option edges_arg)
    : outcome (list vec3 * list nat * nat) :=
  match populate_raw dM (0, 0, 0)%R sampler pool central centres masses cgal
          sgal empty with
  | RaisedZeroDivision => RaisedZeroDivision
  | Returned (pos, halo, ncen) => Returned (wrap edges pos, halo, ncen)
  end.
