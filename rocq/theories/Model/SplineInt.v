(** Model of [halomod.tools.spline_integral], /repo/src/halomod/tools.py:644-695. *)
From Coq Require Import Reals List Bool.
From Verif Require Import Model.RBool.
Import ListNotations.
Local Open Scope R_scope.

Record integral_result := {
  warn_lower : bool;   (* 'Extrapolation occurs in integral! xmin=...' *)
  warn_upper : bool;
  value : R }.

Section SplineIntegral.
  (** [spl_integral xs ys a b] = InterpolatedUnivariateSpline(xs, ys).integral(a, b) *)
  Variable spl_integral : list R -> list R -> R -> R -> R.

  Definition xtimesf (x f : list R) : list R := map (fun p => fst p * snd p) (combine x f).

  Definition or_default (o : option R) (d : R) : R :=  (* [xmin or d] *)
    if truthy o then match o with Some v => v | None => d end else d.

  Definition spline_integral (x f : list R) (xmin xmax : option R) (log : bool)
      : integral_result :=
    {| (* tools.py:676-680 *)
       warn_lower := truthy xmin &&
         match xmin with Some v => Rltb v (lmin x) | None => false end;
       (* tools.py:681-685 *)
       warn_upper := truthy xmax &&
         match xmax with Some v => Rltb (lmax x) v | None => false end;
       value :=
         if log then (* tools.py:687-692 *)
           spl_integral (map ln x) (xtimesf x f)
             (match xmin with Some v => ln v | None => ln (lmin x) end)
             (match xmax with Some v => ln v | None => ln (lmax x) end)
         else (* tools.py:693-695 *)
           spl_integral x f (or_default xmin (lmin x)) (or_default xmax (lmax x)) |}.
End SplineIntegral.
