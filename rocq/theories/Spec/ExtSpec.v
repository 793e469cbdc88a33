(** What an extension option means outside the data, point by point. *)
From Coq Require Import Reals List.
From Verif Require Import Model.ExtSpline.
Import ListNotations.
Local Open Scope R_scope.

(** [ext_value uspline S option xs ys match edge t v]: the extension chosen by
    [option] takes the value [v] at [t].  [S] is the spline, [xs], [ys] the end
    points used for the fit, [edge] the matching point, [uspline] the log-log
    fit. *)
Definition ext_value (uspline : list R -> list R -> R -> R) (S : R -> R) (fnc : ext_arg)
    (xs ys : list R) (mtch : bool) (edge t v : R) : Prop :=
  match fnc with
  | ExtCallable g =>
      (mtch = false \/ g edge = 0 -> v = g t) /\
      (mtch = true -> g edge <> 0 -> v = g t * (S edge / g edge))
  | ExtBoundary => v = S edge
  | ExtNone => v = S t
  | ExtPowerLaw =>
      (Forall (fun w => 0 < w) ys -> ys <> [] ->
         v = exp (uspline (map ln xs) (map ln ys) (ln t)) /\ 0 < v) /\
      (~ Forall (fun w => 0 < w) ys -> v = 0)
  | ExtOther => False
  end.
