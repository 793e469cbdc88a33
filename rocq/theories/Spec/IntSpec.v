(** Vocabulary for integer-typed arguments. *)
From Coq Require Import Reals ZArith.
Local Open Scope R_scope.
(** w is v with its fractional part dropped *)
Definition drops_fraction (v w : R) : Prop := (exists z : Z, w = IZR z) /\ 0 <= v * w /\ Rabs w <= Rabs v < Rabs w + 1.
(** a whole number *)
Definition whole (v : R) : Prop := exists z : Z, v = IZR z.
