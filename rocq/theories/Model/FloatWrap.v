(** The periodic wrapping of populate in double precision: one coordinate of one galaxy, /repo/src/halomod/tools.py:474-478.  The exact-real version,
    with its loop over axes and galaxies, is [Populate.wrap]. *)
From Coq Require Import Reals.
From Verif Require Import Model.RBool Model.Float64.
Local Open Scope R_scope.

Definition float_wrap (lo hi x : R) : R :=
  let x1 := if Rltb (rnd (x - lo)) 0 then rnd (hi + rnd (x - lo)) else x in
  if Rltb 0 (rnd (x1 - hi)) then rnd (lo + rnd (x1 - hi)) else x1.
