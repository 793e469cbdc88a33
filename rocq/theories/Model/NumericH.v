(** The numerical enclosed mass of profiles without a closed form: Profile._h, /repo/src/halomod/profiles.py:211-239, and the shape
    of GeneralizedNFW, profiles.py:910-913, the profile of this repository that uses it. *)
From Coq Require Import Reals List Bool Arith.
From Verif Require Import Model.RBool Model.Quad Model.Profiles.
Import ListNotations.
Local Open Scope R_scope.

(** scipy.integrate.cumulative_simpson(y, dx=h, initial=0) for n >= 3 points, at index i: intervals with even index use the two points
    of the interval and the next one, the others and the last one use the previous one *)
Definition cs_interval (n : nat) (h : R) (f : nat -> R) (j : nat) : R :=
  if Nat.even j && (j <? n - 2)%nat then h / 3 * (5 * f j / 4 + 2 * f (j + 1)%nat - f (j + 2)%nat / 4)
  else h / 3 * (5 * f (j + 1)%nat / 4 + 2 * f j - f (j - 1)%nat / 4).
Definition cumulative_simpson (n : nat) (h : R) (f : nat -> R) (i : nat) : R := sum_over (seq 0 i) (cs_interval n h f).

(** profiles.py:230: np.linspace(1e-6, np.max(c), 2000, retstep=True) *)
Definition h_min : R := / 1000000.
Definition h_step (n : nat) (cmax : R) : R := (cmax - h_min) / INR (n - 1).
Definition h_x (n : nat) (cmax : R) (i : nat) : R := h_min + INR i * h_step n cmax.
(** profiles.py:231-233: the cumulative table *)
Definition h_table (n : nat) (f : R -> R) (cmax : R) (i : nat) : R :=
  cumulative_simpson n (h_step n cmax) (fun j => f (h_x n cmax j) * h_x n cmax j ^ 2) i.
Definition h_points : nat := 2000.
(** profiles.py:225-239; [spl] is the interpolating spline through the table, [cm] the concentration-mass relation *)
Definition numeric_h (spl : list R -> list R -> R -> R) (f : R -> R) (cm : R -> R) (c m : option nd) : res nd :=
  let go c := match c with
              | Scal x => Ok (Scal (h_table h_points f x (h_points - 1)))
              | Vec [] => Raise ValueError
              | Vec l => Ok (Vec (map (spl (map (h_x h_points (lmax l)) (seq 0 h_points)) (map (h_table h_points f (lmax l)) (seq 0 h_points))) l))
              end in
  match m, c with
  | Some (Scal x), _ => go (Scal (cm x))
  | Some (Vec l), _ => go (Vec (map cm l))
  | None, Some c => go c
  | None, None => Raise ValueError
  end.
(** GeneralizedNFW._f, profiles.py:912-913, for x >= 0 *)
Definition gnfw_f (alpha x : R) : R := 1 / (npow x alpha * Rpower (1 + x) (3 - alpha)).
