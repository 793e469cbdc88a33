(** Joint counts of two tracers in a halo: an arbitrary expectation over an arbitrary sample space. *)
From Coq Require Import Reals.
Local Open Scope R_scope.
Definition expectation {W : Type} (E : (W -> R) -> R) : Prop :=
  (forall f g c, E (fun w => f w + c * g w) = E f + c * E g) /\ E (fun _ => 1) = 1 /\
  (forall f, (forall w, 0 <= f w) -> 0 <= E f) /\ (forall f g, (forall w, f w = g w) -> E f = E g).
Definition covariance {W} (E : (W -> R) -> R) (X Y : W -> R) : R := E (fun w => (X w - E X) * (Y w - E Y)).
(** s is the standard deviation of X *)
Definition is_sd {W} (E : (W -> R) -> R) (X : W -> R) (s : R) : Prop := 0 <= s /\ s ^ 2 = covariance E X X.
(** r is the correlation coefficient of X and Y *)
Definition is_corr {W} (E : (W -> R) -> R) (X Y : W -> R) (sx sy r : R) : Prop := covariance E X Y = sx * sy * r.
