(** The spherical Fourier transform of a unit-radius top-hat. *)
From Coq Require Import Reals.
From Coquelicot Require Import Coquelicot.
Local Open Scope R_scope.

Definition sinc (y : R) : R := if Req_EM_T y 0 then 1 else sin y / y.

(** 3 int_0^1 s^2 sinc(x s) ds; normalised so that the value at x = 0 is 1 *)
Definition tophat_ft (x : R) : R := RInt (fun s => 3 * s ^ 2 * sinc (x * s)) 0 1.
