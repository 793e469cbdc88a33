(** Special functions of scipy.special used by halomod, by their mathematical
    definitions. *)
From Coq Require Import Reals.
From Coquelicot Require Import Coquelicot.
Local Open Scope R_scope.

(** scipy.special.erf (hod.py:21): 2/sqrt(pi) * int_0^x exp(-t^2) dt *)
Definition erf (x : R) : R := 2 / sqrt PI * RInt (fun t => exp (- t ^ 2)) 0 x.

(** np.log10 and 10 ** x *)
Definition log10 (x : R) : R := ln x / ln 10.
Definition pow10 (x : R) : R := Rpower 10 x.
