(** Model of the quadrature helpers of halomod.halo_exclusion,
    /repo/src/halomod/halo_exclusion.py:29-132 and 663-682, and of
    scipy.integrate.simpson / cumulative_trapezoid on an equispaced grid.

    A matrix is a function of two indices; in-place loops are folds over the
    list of multiplications in program order. *)
From Coq Require Import Reals List Bool Arith.
From Verif Require Import Model.RBool.
Import ListNotations.
Local Open Scope R_scope.

Definition mat : Type := nat -> nat -> R.

(** Python's range(start, stop, step) with step > 0 *)
Definition pyrange (start stop step : nat) : list nat :=
  map (fun k => start + k * step)%nat (seq 0 ((stop - start + (step - 1)) / step)).

(** [W[i, j] *= c] *)
Definition mul_at (W : mat) (op : nat * nat * R) : mat :=
  let '(i, j, c) := op in
  fun a b => if (a =? i)%nat && (b =? j)%nat then W a b * c else W a b.

Definition ones : mat := fun _ _ => 1.

(** sum over a list of indices *)
Definition sum_over (l : list nat) (f : nat -> R) : R := lsum (map f l).

(** halo_exclusion.py:34-40, for an nx*ny array and one leading index.
    [out[1:-1, :] *= 2] acts on rows 1..nx-2. *)
Definition interior (n i : nat) : bool := (1 <=? i)%nat && (i <? n - 1)%nat.
Definition dbltrapz (nx ny : nat) (X : mat) (dx : R) (dy : option R) : R :=
  let dy := if truthy dy then match dy with Some v => v | None => dx end else dx in
  let out1 : mat := fun i j => if interior nx i then X i j * 2 else X i j in
  let out2 : mat := fun i j => if interior ny j then out1 i j * 2 else out1 i j in
  dx * dy * sum_over (seq 0 nx) (fun i => sum_over (seq 0 ny) (fun j => out2 i j)) / 4.

(** halo_exclusion.py:43-50: four in-place slice multiplications; a slice
    [s:e:2] of rows is the index list [pyrange s e 2]. *)
Definition mem (i : nat) (l : list nat) : bool := existsb (Nat.eqb i) l.
Definition scale_rows (l : list nat) (c : R) (W : mat) : mat :=
  fun i j => if mem i l then W i j * c else W i j.
Definition scale_cols (l : list nat) (c : R) (W : mat) : mat :=
  fun i j => if mem j l then W i j * c else W i j.
Definition makeW (nx ny : nat) : mat :=
  scale_cols (pyrange 2 (ny - 1) 2) 2
    (scale_rows (pyrange 2 (nx - 1) 2) 2
      (scale_cols (pyrange 1 (ny - 1) 2) 4
        (scale_rows (pyrange 1 (nx - 1) 2) 4 ones))).

(** halo_exclusion.py:72-106 (Numba), multiplications in program order *)
Definition makeW_ops (nx ny : nat) : list (nat * nat * R) :=
  if Nat.even nx then
    flat_map (fun ix =>
        [((ix, ny - 1)%nat, 4); ((nx - 1, ix)%nat, 4)]
        ++ flat_map (fun iy => [(ix, iy, 4); (iy, ix, 4)]) (seq 0 (ny - 1)))
      (pyrange 1 (nx - 2) 2)
    ++ flat_map (fun ix =>
        [((ix, ny - 1)%nat, 2); ((nx - 1, ix)%nat, 2)]
        ++ flat_map (fun iy => [(ix, iy, 2); (iy, ix, 2)]) (seq 0 (ny - 1)))
      (pyrange 2 (nx - 2) 2)
    ++ flat_map (fun ix =>
        [((ix, ny - 2)%nat, 5/2); ((ix, ny - 1)%nat, 3/2);
         ((nx - 2, ix)%nat, 5/2); ((nx - 1, ix)%nat, 3/2)])
      (seq 0 nx)
  else
    flat_map (fun ix => flat_map (fun iy => [(ix, iy, 4); (iy, ix, 4)]) (seq 0 ny))
      (pyrange 1 (nx - 1) 2)
    ++ flat_map (fun ix => flat_map (fun iy => [(ix, iy, 2); (iy, ix, 2)]) (seq 0 ny))
      (pyrange 2 (nx - 1) 2).
Definition makeW_ (nx ny : nat) : mat := fold_left mul_at (makeW_ops nx ny) ones.

(** halo_exclusion.py:109-117 *)
Definition makeH_ops (nx ny : nat) : list (nat * nat * R) :=
  flat_map (fun ix => flat_map (fun iy => [(ix, iy, 2); (iy, ix, 2)]) (seq 0 ny))
    (pyrange 1 (nx - 1) 1).
Definition makeH_ (nx ny : nat) : mat := fold_left mul_at (makeH_ops nx ny) ones.

(** the accumulation loops of halo_exclusion.py:63-67 and 127-130: diagonal
    entry, then the row to the right of it *)
Definition tri_accumulate (nx ny : nat) (W X : mat) : R :=
  fold_left (fun tot ix =>
      fold_left (fun t iy => t + 2 * W ix iy * X ix iy) (seq (ix + 1) (ny - (ix + 1)))
        (tot + W ix ix * X ix ix))
    (seq 0 nx) 0.

(** halo_exclusion.py:56-69 *)
Definition dblsimps_ (nx ny : nat) (X : mat) (dx dy : R) : R :=
  dx * dy * tri_accumulate nx ny (makeW_ nx ny) X / 9.
(** halo_exclusion.py:120-132 *)
Definition dbltrapz_ (nx ny : nat) (X : mat) (dx dy : R) : R :=
  dx * dy * tri_accumulate nx ny (makeH_ nx ny) X / 4.

(** [np.cumsum] at index i *)
Definition cumsum_at (f : nat -> R) (i : nat) : R := sum_over (seq 0 (i + 1)) f.

(** halo_exclusion.py:663-682 for an array of n points *)
Definition cumsimps (n : nat) (func : nat -> R) (dx : R) (i : nat) : R :=
  let f1a i := if interior n i then func i * 2 else func i in
  let f1b i := if mem i (pyrange 1 (n - 1) 2) then f1a i * 2 else f1a i in
  let rm i := if mem i (pyrange 1 (n - 1) 2) then func i * 3 else func i in
  (cumsum_at f1b i - rm i) * dx / 3.

(** scipy.integrate.simpson(y, dx=h) on n points (scipy >= 1.11): composite
    Simpson for odd n; for even n >= 4 composite Simpson on the first n-1 points
    plus Cartwright's correction on the last interval; trapezoid for n = 2. *)
Definition simpson_weight_odd (n i : nat) : R :=
  if (i =? 0)%nat || (i =? n - 1)%nat then 1 / 3
  else if Nat.odd i then 4 / 3 else 2 / 3.
Definition scipy_simpson_weight (n i : nat) : R :=
  if (n <=? 1)%nat then 0
  else if (n =? 2)%nat then 1 / 2
  else if Nat.odd n then simpson_weight_odd n i
  else (if (i <? n - 1)%nat then simpson_weight_odd (n - 1) i else 0)
       + (if (i =? n - 1)%nat then 5 / 12
          else if (i =? n - 2)%nat then 8 / 12
          else if (i =? n - 3)%nat then - (1 / 12) else 0).
Definition scipy_simpson (n : nat) (h : R) (f : nat -> R) : R :=
  h * sum_over (seq 0 n) (fun i => scipy_simpson_weight n i * f i).

(** scipy.integrate.cumulative_trapezoid(y, dx=h, initial=0) at index i *)
Definition cumulative_trapezoid (h : R) (f : nat -> R) (i : nat) : R :=
  sum_over (seq 0 i) (fun j => h * (f j + f (S j)) / 2).
