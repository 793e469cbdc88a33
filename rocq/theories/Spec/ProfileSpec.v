(** What the shape functions of a spherical density profile should mean,
    independently of the program.  [f] is the dimensionless density. *)
From Coq Require Import Reals.
From Coquelicot Require Import Coquelicot.
Local Open Scope R_scope.

(** int_0^c f(x) x^2 dx *)
Definition mass_integral (f : R -> R) (c v : R) : Prop := is_RInt (fun x => f x * x ^ 2) 0 c v.

(** int_0^c x f(x) sin(K x)/K dx: the radial form of the 3-D Fourier transform *)
Definition sine_transform (f : R -> R) (K c v : R) : Prop := is_RInt (fun x => x * f x * (sin (K * x) / K)) 0 c v.

(** Si and Ci: antiderivatives of sin(t)/t and cos(t)/t on the positive axis *)
Definition sine_cosine_integrals (Si Ci : R -> R) : Prop :=
  (forall t, 0 < t -> is_derive Si t (sin t / t)) /\ (forall t, 0 < t -> is_derive Ci t (cos t / t)).
(** and their values at infinity *)
Definition sici_at_infinity (Si Ci : R -> R) : Prop := is_lim Si p_infty (PI / 2) /\ is_lim Ci p_infty 0.

(** The truncated density: zero beyond c. *)
Definition truncated (f : R -> R) (c x : R) : R := if Rle_dec x c then f x else 0.

(** The self-convolution int g(|y|) g(|x-y|) d^3y of a spherical function at
    distance x > 0, in bipolar coordinates:
    (2 pi / x) int_0^inf y g(y) [int_{|x-y|}^{x+y} z g(z) dz] dy. *)
Definition shell_average (g : R -> R) (x y : R) : R := RInt (fun z => z * g z) (Rabs (x - y)) (x + y).
Definition self_convolution_truncated (f : R -> R) (c x v : R) : Prop :=
  let g := truncated f c in
  is_RInt (fun y => y * g y * shell_average g x y) 0 c (x / (2 * PI) * v).
Definition self_convolution (f : R -> R) (x v : R) : Prop :=
  is_lim (fun b => RInt (fun y => y * f y * shell_average f x y) 0 b) p_infty (x / (2 * PI) * v).
