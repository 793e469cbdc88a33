(** Periodic wrapping by at most one box length, coordinate by coordinate. *)
From Coq Require Import Reals.
From Verif Require Import Model.Populate.
Local Open Scope R_scope.

Definition wrap1 (lo hi x : R) : R :=
  if Rlt_dec x lo then x + (hi - lo)
  else if Rlt_dec hi x then x - (hi - lo)
  else x.

(** one number is the upper edge of [0, e]^3, two numbers are the edges of a cube, two vectors those of a box *)
Definition wrap_point (edges : option edges_arg) (p : vec3) : vec3 :=
  let '(x, y, z) := p in
  match edges with
  | None => p
  | Some (EScalar e) => (wrap1 0 e x, wrap1 0 e y, wrap1 0 e z)
  | Some (EPair lo hi) => (wrap1 lo hi x, wrap1 lo hi y, wrap1 lo hi z)
  | Some (EBox (xl, yl, zl) (xh, yh, zh)) => (wrap1 xl xh x, wrap1 yl yh y, wrap1 zl zh z)
  end.
