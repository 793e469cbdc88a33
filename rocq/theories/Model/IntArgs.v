(** Arguments of integer type and plain numbers.  [np.zeros_like(m)] has the element type of m, and storing a float in an
    integer array truncates it towards zero; the functions of /repo that allocate their result that way are
    Zehavi05/Zehavi05WithMax._central_occupation, Zheng05._satellite_occupation and Spinelli19 (hod.py:293-298, 342-348,
    478-483, 626-636, 655-674), Ludlow16._eq7 (concentration.py:590-602), projected_corr_gal (integrate_corr.py:155-180),
    NFW._l (profiles.py:689-725) and Profile._p (profiles.py:307-313); ExtendedSpline and power_to_corr are in
    ExtSpline.v and PowerToCorr.v.  Element types and [cast] are those of Model/ExtSpline.v; integers are unbounded. *)
From Coq Require Import Reals String List Bool Arith.
From Verif Require Import Model.RBool Model.SpecialFn Model.NumpyList Model.ExtSpline Model.HOD Model.HODFloat Model.Profiles Model.ProfileArrays Model.Concentration.
From Verif Require Model.IntegrateCorr.
Import ListNotations.
Local Open Scope R_scope.

(** a mass argument: a plain Python number, or a 1-D numpy array with its element type *)
Inductive marg := Num (v : R) | Arr (d : dtype) (l : list R).
Definition masses (m : marg) : list R := match m with Num v => [v] | Arr _ l => l end.

(** an expression made of numpy ufuncs: the result is float, element by element; a number is accepted *)
Definition ufun (f : R -> R) (m : marg) : res (list R) := Ok (map f (masses m)).
(** [out = np.zeros_like(m)] or [ones_like] (value [init]); [out[mask(m)] = v].  For a plain number zeros_like gives a 0-d
    array, which a boolean may index. *)
Definition fill_const (mask : R -> bool) (init v : R) (m : marg) : res (list R) :=
  match m with
  | Num x => Ok [if mask x then v else init]
  | Arr d l => Ok (scatter (map mask l) (map (fun _ => cast d v) (bmask (map mask l) l)) (map (fun _ => cast d init) l))
  end.
(** [out = np.zeros_like(m)]; [out[mask(m)] = f(m[mask(m)])]: the right-hand side indexes m, and a plain number is not
    subscriptable *)
Definition fill_masked (mask : R -> bool) (f : R -> R) (m : marg) : res (list R) :=
  match m with
  | Num _ => Raise TypeError
  | Arr d l => Ok (scatter (map mask l) (map (cast d) (map f (bmask (map mask l) l))) (map (fun _ => 0) l))
  end.
Definition map2 {A B C : Type} (op : A -> B -> C) (a : list A) (b : list B) : list C := map (fun p => op (fst p) (snd p)) (combine a b).

(** the array-level methods of a discrete HOD *)
Record hodA := mkHodA {
  A_flag : bool; A_inherent : bool;
  A_co : marg -> res (list R); A_so : marg -> res (list R); A_tpc : marg -> res (list R); A_tps : marg -> res (list R) }.

(** division and multiplication follow IEEE 754 on special values *)
Definition fdiv (a : fval) (b : R) : fval :=
  match a with Fin x => np_div x b | NaN => NaN | PInf => if Rltb b 0 then NInf else PInf | NInf => if Rltb b 0 then PInf else NInf end.
Definition fadd (a : R) (b : fval) : fval := match b with Fin y => Fin (a + y) | v => v end.

(** hod.py:158-160 *)
Definition centralA (h : hodA) (m : marg) : res (list fval) := rmap (map Fin) (A_co h m).
(** hod.py:233-235 *)
Definition ncA (h : hodA) (m : marg) : res (list fval) := bind (A_co h m) (fun co => bind (A_tpc h m) (fun t => Ok (map2 np_div co t))).
(** hod.py:162-167 *)
Definition satA (h : hodA) (m : marg) : res (list fval) :=
  if A_flag h && negb (A_inherent h) then bind (ncA h m) (fun n => bind (A_so h m) (fun s => Ok (map2 np_mul n (map Fin s))))
  else rmap (map Fin) (A_so h m).
(** hod.py:237-239 *)
Definition nsA (h : hodA) (m : marg) : res (list fval) := bind (satA h m) (fun s => bind (A_tps h m) (fun t => Ok (map2 fdiv s t))).
(** hod.py:169-171 *)
Definition totalA (h : hodA) (m : marg) : res (list fval) := bind (A_co h m) (fun c => bind (satA h m) (fun s => Ok (map2 fadd c s))).

(** the discrete HODs without their own state (hod.py:270-675) *)
Inductive pclass :=
| CZehavi (Mmin M1 alpha : R)
| CZheng (Mmin M1 alpha M0 sig : R)
| CContreras (Mmin M1 alpha M0 sig fca fcb fs delta x : R)
| CTinker (Mmin M1 Mcut : R)
| CWithMax (Mmin M1 alpha Mmax : R)
| CMarked (Mmin M1 logA alpha Mmax : R)
| CSpinelli (p : spinelli_params).

Definition withmax_mask (Mmin Mmax m : R) : bool := Rleb (pow10 Mmin) m && Rleb m (pow10 Mmax).
(** Tinker05._satellite_occupation without its first factor, hod.py:460-465 *)
Definition tinker_rest (Mmin M1 Mcut m : R) : R :=
  (if Reqb m (pow10 Mmin) then 0 else exp (- pow10 Mcut / (m - pow10 Mmin))) * (m / pow10 M1).
(** Spinelli19._satellite_occupation without the factor [array], hod.py:634-636 *)
Definition spinelli_rest (p : spinelli_params) (m : R) : R :=
  pow10 (sp_M0 p) * Rpower (m / pow10 (sp_Mbreak_sat p)) (sp_beta_sat p) * exp (- Rpower (pow10 (sp_Mbreak_sat p) / m) (sp_alpha_sat p)).
Definition times (a b : marg -> res (list R)) (m : marg) : res (list R) := bind (a m) (fun x => bind (b m) (fun y => Ok (map2 Rmult x y))).

Definition class_arrays (flag : bool) (c : pclass) : hodA :=
  match c with
  (* hod.py:293-302 *)
  | CZehavi Mmin M1 alpha => mkHodA flag false (fill_const (fun m => Rltb m (pow10 Mmin)) 1 0) (ufun (zehavi_so M1 alpha)) (ufun one) (ufun one)
  (* hod.py:338-348 *)
  | CZheng Mmin M1 alpha M0 sig => mkHodA flag false (ufun (zheng_co Mmin sig))
      (fill_masked (fun m => Rltb (pow10 M0) m) (fun m => Rpower ((m - pow10 M0) / pow10 M1) alpha)) (ufun one) (ufun one)
  (* hod.py:402-423 *)
  | CContreras Mmin M1 alpha M0 sig fca fcb fs delta x => mkHodA flag false (ufun (contreras_co Mmin sig fca fcb x)) (ufun (contreras_so M1 alpha fs delta)) (ufun one) (ufun one)
  (* hod.py:453-465 *)
  | CTinker Mmin M1 Mcut => let co := fill_const (fun m => Rltb m (pow10 Mmin)) 1 0 in
      mkHodA flag true co (times co (ufun (tinker_rest Mmin M1 Mcut))) (ufun one) (ufun one)
  (* hod.py:478-487 *)
  | CWithMax Mmin M1 alpha Mmax => mkHodA flag false (fill_const (withmax_mask Mmin Mmax) 0 1) (ufun (zehavi_so M1 alpha)) (ufun one) (ufun one)
  (* hod.py:510-520 *)
  | CMarked Mmin M1 logA alpha Mmax => let t := ufun (marked_tpc logA) in
      mkHodA flag false (times (fill_const (withmax_mask Mmin Mmax) 0 1) t) (times (ufun (zehavi_so M1 alpha)) t) t t
  (* hod.py:610-636, 655-674 *)
  | CSpinelli p => mkHodA flag false (ufun (spinelli_co p)) (times (ufun (spinelli_rest p)) (fill_const (fun m => Rleb (10 ^ 11) m) 0 1))
      (fill_const (spinelli_in p) 0 1) (fill_masked (spinelli_in p) (fun m => Rpower (m / pow10 (sp_M1_counts p)) (sp_alpha_counts p)))
  end.
(** the same class as an element-by-element model *)
Definition class_hod (flag : bool) (c : pclass) : hod :=
  match c with
  | CZehavi Mmin M1 alpha => Zehavi05 flag Mmin M1 alpha
  | CZheng Mmin M1 alpha M0 sig => Zheng05 flag Mmin M1 alpha M0 sig
  | CContreras Mmin M1 alpha M0 sig fca fcb fs delta x => Contreras13 flag Mmin M1 alpha M0 sig fca fcb fs delta x
  | CTinker Mmin M1 Mcut => Tinker05 flag Mmin M1 Mcut
  | CWithMax Mmin M1 alpha Mmax => Zehavi05WithMax flag Mmin M1 alpha Mmax
  | CMarked Mmin M1 logA alpha Mmax => Zehavi05Marked flag Mmin M1 logA alpha Mmax
  | CSpinelli p => Spinelli19 flag p
  end.

(** Ludlow16.cm of an array of masses, concentration.py:590-605: one element after the other, the first failure ends it *)
Fixpoint sequence {A : Type} (l : list (res A)) : res (list A) :=
  match l with [] => Ok [] | x :: rest => bind x (fun v => rmap (cons v) (sequence rest)) end.
Definition ludlow16_array (E : ludlow_env) (norm f C : R) (d : dtype) (ms : list R) (z : R) : res (list R) :=
  rmap (map (fun v => norm * cast d v)) (sequence (map (fun m => lud_eq7 E f C m z) ms)).

(** projected_corr_gal of an array rp_out with its element type, integrate_corr.py:155-182; nan or an unbound variable at
    some radius: no value (None) *)
Definition projected_value (v : IntegrateCorr.proj_result) : option R := match v with IntegrateCorr.ProjOk x => Some x | _ => None end.
Definition projected_array (fit : R -> R) (r xir : list R) (rl : R) (d : dtype) (rp_out : list R) : list (option R) :=
  map (fun i => option_map (cast d) (projected_value (IntegrateCorr.projected_at fit r xir rl rp_out i))) (seq 0 (List.length rp_out)).

(** Profile.lam of NFW with coord="x" (profiles.py:394-421, 689-725): x is the caller's array, and the result of _l has its
    element type *)
Definition nfw_lam_x (s : shape) (o : inst) (d : dtype) (x m : arr) (norm : option string) (c : option arr) : res arr :=
  bind (get_r_arr s o x m c "x") (fun '(c, r_s, x) =>
    match norm with
    | None | Some "m"%string =>
        bind (rmap (amap (cast d)) (nfw_l_arr x c)) (fun l =>
        bind (ufunc2 (fun l r_s => l * r_s ^ 3) l r_s) (fun lr =>
        bind (rho_s_arr s o c r_s norm) (fun a =>
        rmap reduce (ufunc2 (fun lr a => lr * a ^ 2) lr a))))
    | _ => Raise ValueError
    end).
(** Profile.u with coord="kappa" for a class without an analytic transform (profiles.py:364-392, 307-313): K is the caller's
    array, and the result of _p has its element type *)
Definition u_kappa (s : shape) (o : inst) quad argsort spl (d : dtype) (K m : arr) (norm : option string) (c : option arr) : res arr :=
  bind (get_k_arr s o K m c "kappa") (fun '(c, K) =>
    bind (rmap (amap (cast d)) (numeric_p_arr quad argsort spl K c)) (fun p =>
    bind (ufunc2 Rdiv p (amap (s_h s) c)) (fun u =>
      match norm with
      | None => rmap reduce (ufunc2 Rmult u m)
      | Some n => if (n =? "m")%string then Ok (reduce u) else Raise ValueError
      end))).
