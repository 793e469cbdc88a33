(** Improper integrals over the positive axis and Euler's Gamma function, independently of the program. *)
From Coq Require Import Reals.
From Coquelicot Require Import Coquelicot.
Local Open Scope R_scope.

(** int_0^inf f(x) dx = v, as a limit at both ends *)
Definition half_line_integral (f : R -> R) (v : R) : Prop := is_RInt_gen (V:=R_NormedModule) f (at_right 0) (Rbar_locally p_infty) v.
(** Gamma: Euler's integral on the positive axis, continued below it by Gamma(s+1) = s Gamma(s) *)
Definition euler_gamma (g : R -> R) : Prop :=
  (forall s, 0 < s -> half_line_integral (fun x => Rpower x (s - 1) * exp (- x)) (g s)) /\ (forall s, s <> 0 -> g (s + 1) = s * g s).
