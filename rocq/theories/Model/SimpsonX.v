(** scipy.integrate.simpson(y, x=x) on an arbitrary (irregular) grid, scipy >= 1.11: called by
    /repo/src/halomod/integrate_corr.py:180, 472, 580, /repo/src/halomod/cross_correlations.py:256, 313
    and /repo/src/halomod/halo_model.py:593.  The equispaced case is scipy_simpson in Model/Quad.v. *)
From Coq Require Import Reals List.
Import ListNotations.
Local Open Scope R_scope.

(** one parabolic panel (scipy's _basic_simpson summand) *)
Definition panel (p0 p1 p2 : R * R) : R :=
  let h0 := fst p1 - fst p0 in let h1 := fst p2 - fst p1 in
  (h0 + h1) / 6 * (snd p0 * (2 - / (h0 / h1)) + snd p1 * ((h0 + h1) * ((h0 + h1) / (h0 * h1))) + snd p2 * (2 - h0 / h1)).
(** Cartwright's correction for the last interval of an even number of points *)
Definition cartwright (p1 p2 p3 : R * R) : R :=
  let h0 := fst p2 - fst p1 in let h1 := fst p3 - fst p2 in
  (2 * h1 ^ 2 + 3 * h0 * h1) / (6 * (h1 + h0)) * snd p3 + (h1 ^ 2 + 3 * h0 * h1) / (6 * h0) * snd p2 + - h1 ^ 3 / (6 * h0 * (h0 + h1)) * snd p1.
(** points (x, y) in order; fewer than two points integrate to 0 *)
Fixpoint simpx_pts (l : list (R * R)) : R :=
  match l with
  | p0 :: ((p1 :: ((p2 :: rest) as t2)) as t1) =>
      panel p0 p1 p2 + match rest with [p3] => cartwright p1 p2 p3 | _ => simpx_pts t2 end
  | [p0; p1] => (fst p1 - fst p0) / 2 * (snd p0 + snd p1)
  | _ => 0
  end.
Definition simpx (x y : list R) : R := simpx_pts (combine x y).
