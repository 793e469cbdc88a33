(** The places in hod.py where numpy's floating point special values (inf, nan)
    are reached for ordinary inputs.  Finite arithmetic stays exact; overflow of
    exp, division by zero and 0 * inf follow IEEE 754. *)
From Coq Require Import Reals Bool.
From Verif Require Import Model.RBool Model.SpecialFn Model.HOD.
Local Open Scope R_scope.

Inductive fval := Fin (x : R) | PInf | NInf | NaN.

(** np.exp on a finite or infinite float64: overflows above ln(max double) =
    709.78...; the bound is a parameter *)
Definition np_exp (big : R) (v : fval) : fval :=
  match v with
  | Fin x => if Rltb big x then PInf else Fin (exp x)
  | PInf => PInf
  | NInf => Fin 0
  | NaN => NaN
  end.
(** numpy division of finite floats *)
Definition np_div (a b : R) : fval :=
  if Reqb b 0 then (if Reqb a 0 then NaN else if Rltb 0 a then PInf else NInf) else Fin (a / b).
(** multiplication *)
Definition np_mul (a b : fval) : fval :=
  match a, b with
  | NaN, _ | _, NaN => NaN
  | Fin x, Fin y => Fin (x * y)
  | Fin x, PInf | PInf, Fin x => if Reqb x 0 then NaN else if Rltb 0 x then PInf else NInf
  | Fin x, NInf | NInf, Fin x => if Reqb x 0 then NaN else if Rltb 0 x then NInf else PInf
  | PInf, PInf | NInf, NInf => PInf
  | PInf, NInf | NInf, PInf => NInf
  end.

(** Tinker05._satellite_occupation, hod.py:453-465, with float special values *)
Definition tinker_so_float (big Mmin M1 Mcut m : R) : fval :=
  np_mul (np_mul (Fin (zehavi_co Mmin m)) (np_exp big (np_div (- pow10 Mcut) (m - pow10 Mmin))))
    (Fin (m / pow10 M1)).

(** Spinelli19 with the central condition: nc * _satellite_occupation,
    hod.py:164-165 and 233-235, with a tracer-per-central that vanishes outside
    the counts range *)
Definition spinelli_nc_float (p : spinelli_params) (m : R) : fval := np_div (spinelli_co p m) (spinelli_tpc p m).
Definition spinelli_sat_float (p : spinelli_params) (m : R) : fval :=
  np_mul (spinelli_nc_float p m) (Fin (spinelli_so p m)).
