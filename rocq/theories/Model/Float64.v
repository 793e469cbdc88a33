(** Binary64 arithmetic, as numpy does it (IEEE 754, round to nearest, ties to even), on Flocq's formalisation.

    [rnd x] is the double nearest to the real number x; a float operation returns [rnd] of the exact result.  Overflow is left out: the
    exponent is unbounded above, so statements are about computations whose results stay below the largest double (about 1.8e308).
    Every other model of this development uses exact reals; the properties that depend on rounding are stated with the definitions here. *)
From Coq Require Import Reals ZArith.
From Flocq Require Import Core.
Local Open Scope R_scope.

Definition double_exp : Z -> Z := FLT_exp (-1074) 53.
Definition rnd (x : R) : R := round radix2 double_exp ZnearestE x.
(** x is a double *)
Definition double (x : R) : Prop := generic_format radix2 double_exp x.
