(** The same halo model written in other units (C153).  A length that was x becomes ell x (so a wavenumber k becomes k / ell and a power
    spectrum P becomes ell^3 P) and a mass that was m becomes mu m; numbers, biases, overdensities and normalised profiles keep their values. *)
From Coq Require Import Reals List.
From Verif Require Import Spec.HMSpec.
Import ListNotations.
Local Open Scope R_scope.

(** the integral of a spline does not depend on where its abscissae start, and a spline through rescaled data is the rescaled spline: both
    hold for every interpolating spline; the straight-line fit behind the power-law extension is shifted with its data *)
Definition q_shift (I : quadrature) : Prop := forall n x f a b c,
  I (arr n (fun i => x i + c)) (arr n f) (a + c) (b + c) = I (arr n x) (arr n f) a b.
Definition s_rescale (s : list R -> list R -> R -> R) : Prop := forall n x y a c t, 0 < a ->
  s (arr n (fun i => a * x i)) (arr n (fun i => c * y i)) (a * t) = c * s (arr n x) (arr n y) t.
Definition u_shift (s : list R -> list R -> R -> R) : Prop := forall x y a c t, x <> [] -> y <> [] ->
  s (map (fun v => v + a) x) (map (fun v => v + c) y) (t + a) = s x y t + c.
