(** Model of [halomod.tools.ExtendedSpline] and its extension callables,
    /repo/src/halomod/tools.py:483-641. *)
From Coq Require Import Reals List Bool ZArith.
From Verif Require Import Model.NumpyList Model.RBool.
Import ListNotations.
Local Open Scope R_scope.

(** The [lower_func] / [upper_func] argument, tools.py:489-490, 524-550:
    a callable, the strings 'power_law' and 'boundary', None, anything else. *)
Inductive ext_arg :=
| ExtCallable (g : R -> R)
| ExtPowerLaw
| ExtBoundary
| ExtNone
| ExtOther.

(** What [_get_extension_func] does: returns a function (with or without the
    'Switching to zero extrapolation' warning) or raises. *)
Inductive ext_result :=
| ExtOk (warned : bool) (f : R -> R)
| ExtAssertionError
| ExtValueError.

(** scipy's splines are external: [spline x y k] is
    InterpolatedUnivariateSpline(x, y, k=k, ext='extrapolate'), [uspline x y]
    is UnivariateSpline(x, y, k=1). *)
Section Splines.
  Variable spline : nat -> list R -> list R -> R -> R.
  Variable uspline : list R -> list R -> R -> R.

  (** tools.py:581-586 *)
  Definition zero_ext (x : R) : R := 0.
  (** tools.py:589-597 *)
  Definition normed_callable (fnc : R -> R) (norm : R) (x : R) : R := fnc x * norm.
  (** tools.py:600-608 *)
  Definition power_law_extension (spl : R -> R) (neg : bool) (x : R) : R :=
    exp (spl (ln x)) * (if neg then -1 else 1).
  (** tools.py:611-619 *)
  Definition boundary_extension (spl : R -> R) (match_x x : R) : R := 1 * spl match_x.

  (** tools.py:522-550.  [spl] is self._spl, [x] and [y] the end slices. *)
  Definition get_extension_func (spl : R -> R) (fnc : ext_arg) (x y : list R)
      (mtch : bool) (match_x : R) : ext_result :=
    match fnc with
    | ExtCallable g =>
        if negb mtch then ExtOk false g
        else let ff := g match_x in
             if Reqb ff 0 then ExtOk false g
             else ExtOk false (normed_callable g (spl match_x / ff))
    | ExtPowerLaw =>
        if negb (forallb (fun v => Rltb 0 v) x) then ExtAssertionError
        else if negb (forallb (fun v => Rltb 0 v) y) || forallb (fun v => Rltb v 0) y
        then ExtOk true zero_ext
        else let neg := Rltb (hd 0 y) 0 in
             ExtOk false
               (power_law_extension
                  (uspline (map ln x) (map (fun v => ln (v * (if neg then -1 else 1))) y))
                  neg)
    | ExtBoundary => ExtOk false (boundary_extension spl match_x)
    | ExtNone => ExtOk false spl
    | ExtOther => ExtValueError
    end.

  Record ext_spline := {
    es_xmin : R; es_xmax : R;
    es_spl : R -> R; es_lfunc : R -> R; es_ufunc : R -> R;
    es_warnings : nat }.

  Inductive ctor_result :=
  | CtorOk (s : ext_spline)
  | CtorValueError
  | CtorAssertionError.

  (** [y[-n:]]: the last n elements (the whole array for n = 0). *)
  Definition py_last (n : nat) (l : list R) : list R :=
    match n with O => l | _ => skipn (length l - n) l end.

  (** tools.py:486-520.  [domain = (d0, d1)]; infinite ends are [None]. *)
  Definition ext_spline_init (x y : list R) (lower upper : ext_arg)
      (match_lower match_upper : bool) (d0 d1 : option R) (k : nat)
      (lower_n upper_n : nat) : ctor_result :=
    let bad := match d0 with Some d => Rltb (lmin x) d | None => false end
               || match d1 with Some d => Rltb d (lmax x) | None => false end in
    if bad then CtorValueError
    else
      let spl := spline k x y in
      match get_extension_func spl lower (firstn lower_n x) (firstn lower_n y)
              match_lower (lmin x) with
      | ExtAssertionError => CtorAssertionError
      | ExtValueError => CtorValueError
      | ExtOk w1 lf =>
          match get_extension_func spl upper (py_last upper_n x) (py_last upper_n y)
                  match_upper (lmax x) with
          | ExtAssertionError => CtorAssertionError
          | ExtValueError => CtorValueError
          | ExtOk w2 uf =>
              CtorOk {| es_xmin := lmin x; es_xmax := lmax x; es_spl := spl;
                        es_lfunc := lf; es_ufunc := uf;
                        es_warnings := (if w1 then 1 else 0) + (if w2 then 1 else 0) |}
          end
      end.

  (** [__call__] on a scalar, tools.py:554-560. *)
  Definition call_scalar (s : ext_spline) (x : R) : R :=
    if Rltb x (es_xmin s) then es_lfunc s x
    else if Rltb (es_xmax s) x then es_ufunc s x
    else es_spl s x.

  (** element type of the input array: [np.zeros_like(x)] (tools.py:563) gives
      the output the input's type, and assignment casts to it. *)
  Inductive dtype := DFloat | DInt.

  (** C-style truncation towards zero. *)
  Definition trunc (v : R) : R :=
    if Rle_dec 0 v then IZR (Int_part v) else - IZR (Int_part (- v)).
  Definition cast (d : dtype) (v : R) : R := match d with DFloat => v | DInt => trunc v end.

  (** [__call__] on an array, tools.py:561-578.  Callables are elementwise. *)
  Definition call_array (d : dtype) (s : ext_spline) (x : list R) : list R :=
    let out := map (fun _ => 0) x in
    let lmask := map (fun v => Rltb v (es_xmin s)) x in
    let umask := map (fun v => Rltb (es_xmax s) v) x in
    let mmask := map (fun p => negb (fst p || snd p)) (combine lmask umask) in
    let xlo := bmask lmask x in
    let xhi := bmask umask x in
    let xmid := bmask mmask x in
    let out := scatter lmask (map (cast d) (map (es_lfunc s) xlo)) out in
    let out := scatter umask (map (cast d) (map (es_ufunc s) xhi)) out in
    scatter mmask (map (cast d) (map (es_spl s) xmid)) out.
End Splines.

(** [_PowerLawK], tools.py:622-629 *)
Definition power_law_k (n k : R) : R := Rpower k n.

(** [_SumCallable], tools.py:632-641 *)
Definition sum_callable (f g : R -> R) (offset x : R) : R := f x + g x + offset.
