(** Model of /repo/src/halomod/profiles.py.

    Profile methods broadcast element-wise over radii/wavenumbers and masses; a
    method is modelled as a function of one radius (or wavenumber) and one mass.
    Array/scalar typing, where it matters, is modelled at the end ([rho_nd]). *)
From Coq Require Import Reals Bool String List.
From Coquelicot Require Import Coquelicot.
From Verif Require Import Model.RBool Model.SpecialFn.
Import ListNotations.
Local Open Scope R_scope.

Inductive exn := ValueError | TypeError | UnboundLocalError | AttributeError | AssertionError | IndexError | NGException.
Inductive res (A : Type) := Ok (a : A) | Raise (e : exn).
Arguments Ok {A} _. Arguments Raise {A} _.
Definition bind {A B} (x : res A) (f : A -> res B) : res B := match x with Ok a => f a | Raise e => Raise e end.
Definition rmap {A B} (f : A -> B) (x : res A) : res B := bind x (fun a => Ok (f a)).

(** x ** 1.5 for x >= 0 (Rpower is only meaningful for a positive base) *)
Definition npow (x a : R) : R := if Reqb x 0 then 0 else Rpower x a.

(** * Dimensionless shapes *)
(** NFW, profiles.py:678-682 *)
Definition nfw_f (x : R) : R := 1 / (x * (1 + x) ^ 2).
Definition nfw_h (c : R) : R := ln (1 + c) - c / (1 + c).
(** Hernquist, profiles.py:761-765 *)
Definition hern_f (x : R) : R := 1 / (x * (1 + x) ^ 3).
Definition hern_h (c : R) : R := c ^ 2 / (2 * (1 + c) ^ 2).
(** Moore, profiles.py:815-819 *)
Definition moore_f (x : R) : R := 1 / (npow x 1.5 * (1 + npow x 1.5)).
Definition moore_h (c : R) : R := 2 * ln (1 + npow c 1.5) / 3.
(** Constant, profiles.py:877-881 *)
Definition const_f (x : R) : R := 1.
Definition const_h (c : R) : R := c ^ 3 / 3.
(** CoredNFW, profiles.py:1056-1065 *)
Definition cored_f (x : R) : R := 1 / (x + 0.75) / (x + 1) ^ 2.
Definition cored_h (c : R) : R :=
  - 4 * (- (2 * c + 3) / (c + 1) + 2 * ln (c + 1)) + 9 * ln (c + 0.75) - 12 - 9 * ln 0.75.

Section Sici.
  (** scipy.special.sici: sine and cosine integral *)
  Variables Si Ci : R -> R.
  (** profiles.py:684-687 *)
  Definition nfw_p (K c : R) : R :=
    let bs := Si K in let bc := Ci K in
    let asi := Si ((1 + c) * K) in let ac := Ci ((1 + c) * K) in
    sin K * (asi - bs) - sin (c * K) / ((1 + c) * K) + cos K * (ac - bc).
  (** profiles.py:767-775 *)
  Definition hern_p (K c : R) : R :=
    let sk := Si K in let ck := Ci K in
    let skp := Si (K + c * K) in let ckp := Ci (K + c * K) in
    let f1 := K * ck * sin K - K * cos K * sk - 1 in
    let f2 := - ((1 + c) * K * cos (c * K) + sin (c * K)) / (1 + c) ^ 2 in
    let f3 := K ^ 2 * (ckp * sin K - cos K * skp) in
    (- K / 2 * f1 + 0.5 * (f2 + f3)) / K.
  (** profiles.py:1067-1079 *)
  Definition cored_antideriv (k x : R) : R :=
    let si1 := Si (k * (x + 1)) in let ci1 := Ci (k * (x + 1)) in
    let si2 := Si (k * (x + 0.75)) in let ci2 := Ci (k * (x + 0.75)) in
    (1 / k) * (12 * (cos k * si1 - sin k * ci1) + 4 * k * (cos k * ci1 + sin k * si1)
               - 4 * sin (k * x) / (x + 1)
               + - 12 * (cos (0.75 * k) * si2 - sin (0.75 * k) * ci2)).
  Definition cored_p (K c : R) : R := cored_antideriv K c - cored_antideriv K 0.
  (** NFWInf, profiles.py:731-733 *)
  Definition nfwinf_p (K : R) : R := 0.5 * ((PI - 2 * Si K) * sin K - 2 * cos K * Ci K).
  (** HernquistInf, profiles.py:781-784 *)
  Definition herninf_p (K : R) : R := 0.25 * (2 - K * (2 * Ci K * sin K + cos K * (PI - 2 * Si K))).
End Sici.
(** profiles.py:883-884 *)
Definition const_p (K c : R) : R := (- c * K * cos (c * K) + sin (c * K)) / K ^ 3.

(** NFW._l, profiles.py:689-725.  The np.all / np.any guards only skip work: an
    element takes the low branch iff x <= c, the high branch iff c < x <= 2c and
    is 0 otherwise (at x = 2c the guard may skip the high branch, whose value
    there is 0; see c44_nfw_lam_shape). *)
Definition nfw_l_lo (x c : R) : R :=
  let a := 1 / c in
  let f2 := (- 4 * (1 + a) + 2 * a * x * (1 + 2 * a) + (a * x) ^ 2) / (2 * (x * (1 + a)) ^ 2 * (2 + x)) in
  let f3 := ln ((1 + a - a * x) * (1 + x) / (1 + a)) / x ^ 3 in
  let f4 := ln (1 + x) / (x * (2 + x) ^ 2) in
  4 * PI * (f2 + f3 + f4).
Definition nfw_l_hi (x c : R) : R :=
  let a := 1 / c in
  let f2 := ln ((1 + a) / (a + a * x - 1)) / (x * (2 + x) ^ 2) in
  let f3 := (x * a ^ 2 - 2 * a) / (2 * x * (1 + a) ^ 2 * (2 + x)) in
  4 * PI * (f2 + f3).
Definition nfw_l (x c : R) : R :=
  if Rleb x c then nfw_l_lo x c else if Rleb x (2 * c) then nfw_l_hi x c else 0.
(** NFWInf._l, profiles.py:735-739 *)
Definition nfwinf_l (x : R) : R :=
  let f1 := 8 * PI / (x ^ 2 * (x + 2)) in
  let f2 := ((x ^ 2 + 2 * x + 2) * ln (1 + x)) / (x * (x + 2)) - 1 in
  f1 * f2.
(** HernquistInf._l, profiles.py:786-790 *)
Definition herninf_l (x : R) : R :=
  let h1 := (24 + 60 * x + 56 * x ^ 2 + 24 * x ^ 3 + 6 * x ^ 4 + x ^ 5) / (1 + x) in
  let h2 := 12 * (1 + x) * (2 + 2 * x + x ^ 2) * ln (1 + x) / x in
  4 * PI * 4 * (h1 - h2) / (x ^ 4 * (2 + x) ^ 4).

(** A profile class: its shape functions and where it sits in the hierarchy. *)
Record shape := mkShape {
  s_f : R -> R; s_h : R -> R; s_p : R -> R -> R;
  s_l : option (R -> R -> R);   (* _l(x, c), if the class defines it (has_lam) *)
  s_inf : bool;                 (* derives from ProfileInf *)
  s_moore : bool }.             (* overrides cm_relation and _rs_from_m as Moore does *)

Definition NFW (Si Ci : R -> R) := mkShape nfw_f nfw_h (nfw_p Si Ci) (Some nfw_l) false false.
Definition Hernquist (Si Ci : R -> R) := mkShape hern_f hern_h (hern_p Si Ci) None false false.
Definition CoredNFW (Si Ci : R -> R) := mkShape cored_f cored_h (cored_p Si Ci) None false false.
Definition ConstantProfile := mkShape const_f const_h const_p None false false.
(** Moore has no analytic _p: the numerical base-class one is a parameter *)
Definition Moore (p : R -> R -> R) := mkShape moore_f moore_h p None false true.
Definition NFWInf (Si Ci : R -> R) := mkShape nfw_f nfw_h (fun K _ => nfwinf_p Si Ci K) (Some (fun x _ => nfwinf_l x)) true false.
Definition HernquistInf (Si Ci : R -> R) := mkShape hern_f hern_h (fun K _ => herninf_p Si Ci K) (Some (fun x _ => herninf_l x)) true false.
Definition MooreInf (p : R -> R -> R) := mkShape moore_f moore_h p None true true.

(** Instance attributes set by Profile.__init__, profiles.py:110-127 *)
Record inst := mkInst {
  delta_halo : R; mean_dens : R; mean_density0 : R;
  eta_bloat : R; nu_fn : R -> R;
  cm_at_z : R -> R }.          (* lambda m: self._cm_relation.cm(m, self.z) *)

Section Methods.
  Variables (s : shape) (o : inst).

  (** profiles.py:129-147 *)
  Definition halo_mass_to_radius (m : R) (at_z : bool) : R :=
    Rpower (3 * m / (4 * PI * delta_halo o * (if at_z then mean_dens o else mean_density0 o))) (1 / 3).
  Definition halo_radius_to_mass (r : R) (at_z : bool) : R :=
    4 * PI * r ^ 3 * delta_halo o * (if at_z then mean_dens o else mean_density0 o) / 3.

  (** profiles.py:443-445; Moore 821-825 *)
  Definition cm_relation (m : R) : R :=
    if s_moore s then Rpower (cm_at_z o m / 1.7) 0.9 else cm_at_z o m.

  (** bloating factor of profiles.py:162-165 *)
  Definition bloat (m : R) : R := Rpower (sqrt (nu_fn o m)) (eta_bloat o).

  (** profiles.py:149-166; Moore's override 827-829 has no at_z parameter and uses c, which may be None *)
  Definition base_rs (m c : R) (at_z : bool) : R := halo_mass_to_radius m at_z * bloat m / c.
  Definition rs_from_m (m : R) (c : option R) (at_z : option bool) : res R :=
    if s_moore s then
      match at_z, c with
      | Some _, _ => Raise TypeError          (* unexpected keyword argument *)
      | None, None => Raise TypeError         (* r_s * None *)
      | None, Some c => Ok (base_rs m c false * c / Rpower (c / 1.7) 0.9)
      end
    else
      let c := match c with None => cm_relation m | Some c => c end in
      Ok (base_rs m c (match at_z with Some b => b | None => false end)).

  (** profiles.py:168-188 *)
  Definition scale_radius (m : R) (at_z : bool) : res R := rs_from_m m None (Some at_z).

  (** profiles.py:190-209 *)
  Definition virial_velocity (m r : option R) : res R :=
    match m, r with
    | None, None => Raise ValueError
    | Some m, _ => let r := halo_mass_to_radius m false in Ok (sqrt (6.673 * / 10 ^ 11 * m / r))
    | None, Some r => let m := halo_radius_to_mass r false in Ok (sqrt (6.673 * / 10 ^ 11 * m / r))
    end.

  (** profiles.py:315-337; an unknown norm leaves [rho] unassigned *)
  Definition rho_s (c r_s : R) (norm : option string) : res R :=
    match norm with
    | None => Ok (c ^ 3 * delta_halo o * mean_dens o / (3 * s_h s c))
    | Some n =>
        if (n =? "m")%string then Ok (1 / (4 * PI * r_s ^ 3 * s_h s c))
        else if (n =? "rho")%string then Ok (c ^ 3 * delta_halo o / (3 * s_h s c))
        else Raise UnboundLocalError
    end.

  (** profiles.py:447-473 *)
  Definition get_r_variables (r m : R) (c : option R) (coord : string) : res (R * R * R) :=
    let c := match c with None => cm_relation m | Some c => c end in
    bind (rs_from_m m (Some c) None) (fun r_s =>
      if (coord =? "r")%string then Ok (c, r_s, r / r_s)
      else if (coord =? "x")%string then Ok (c, r_s, r)
      else if (coord =? "s")%string then Ok (c, r_s, r * c)
      else Raise ValueError).

  (** profiles.py:475-496; an unknown coord leaves [K] unassigned *)
  Definition get_k_variables (k m : R) (c : option R) (coord : string) : res (R * R) :=
    let c := match c with None => cm_relation m | Some c => c end in
    bind (rs_from_m m (Some c) None) (fun r_s =>
      if (coord =? "k")%string then Ok (c, k * r_s)
      else if (coord =? "kappa")%string then Ok (c, k)
      else Raise UnboundLocalError).

  (** profiles.py:339-362; ProfileInf 551-574 *)
  Definition rho (r m : R) (norm : option string) (c : option R) (coord : string) : res R :=
    bind (get_r_variables r m c coord) (fun '(c, r_s, x) =>
    bind (rho_s c r_s norm) (fun a =>
      Ok (if s_inf s then s_f s x * a else if Rltb c x then 0 else s_f s x * a))).

  (** profiles.py:364-392; ProfileInf 576-604 calls _get_k_variables(k, m): it ignores c and coord *)
  Definition u (k m : R) (norm : option string) (c : option R) (coord : string) : res R :=
    bind (if s_inf s then get_k_variables k m None "k" else get_k_variables k m c coord) (fun '(c, K) =>
      let v := s_p s K c / s_h s c in
      match norm with
      | None => Ok (v * m)
      | Some n => if (n =? "m")%string then Ok v else Raise ValueError
      end).

  (** profiles.py:394-421, default norm "m"; ProfileInf.lam 625-652 has default norm None and looks at coord first *)
  Definition lam_default_norm : option string := if s_inf s then None else Some "m"%string.
  Definition lam (r m : R) (norm : option string) (c : option R) (coord : string) : res R :=
    match s_l s with
    | None => if s_inf s then bind (get_r_variables r m c coord) (fun _ => Raise AttributeError) else Raise AttributeError
    | Some l =>
        bind (get_r_variables r m c coord) (fun '(c, r_s, x) =>
          match norm with
          | None => rmap (fun a => l x c * r_s ^ 3 * a ^ 2) (rho_s c r_s None)
          | Some n => if (n =? "m")%string then rmap (fun a => l x c * r_s ^ 3 * a ^ 2) (rho_s c r_s (Some n))
                      else Raise ValueError
          end)
    end.

  (** profiles.py:423-441 *)
  Definition cdf (r : R) (c : option R) (m : R) (coord : string) : res R :=
    bind (get_r_variables r m c coord) (fun '(c, _, x) => Ok (s_h s x / s_h s c)).

  (** profiles.py:508-545.  [spl xs ys] is the fitted interpolating spline; rnd
      and nrm are the uniform and normal deviates of one tracer *)
  Variable spl : list R -> list R -> R -> R.
  Definition populate_grid (c : R) : list R := map (fun i => INR i / 999 * c) (seq 0 1000).
  Definition populate_x (c rnd : R) : R :=
    spl (map (fun x => s_h s x / s_h s c) (populate_grid c)) (populate_grid c) rnd.
  Definition vec := (R * R * R)%type.
  Definition vnorm (v : vec) : R := let '(a, b, d) := v in sqrt (a ^ 2 + b ^ 2 + d ^ 2).
  Definition vscale (k : R) (v : vec) : vec := let '(a, b, d) := v in (k * a, k * b, k * d).
  Definition vadd (v w : vec) : vec := let '(a, b, d) := v in let '(a', b', d') := w in (a + a', b + b', d + d').
  Definition populate_point (m : R) (c : option R) (centre : vec) (rnd : R) (nrm : vec) : res vec :=
    bind (get_r_variables 0 m c "s") (fun '(c, r_s, _) =>
      let r := r_s * populate_x c rnd in
      Ok (vadd (vscale (r / vnorm nrm) nrm) centre)).
  Fixpoint populate (m : R) (c : option R) (centre : vec) (draws : list (R * vec)) : res (list vec) :=
    match draws with
    | [] => Ok []
    | (rnd, nrm) :: rest =>
        bind (populate_point m c centre rnd nrm) (fun p =>
        bind (populate m c centre rest) (fun ps => Ok (p :: ps)))
    end.
End Methods.

(** * Array typing of rho for one mass *)
(** A radius argument is a Python/numpy scalar or a 1-D array.  np.outer (coord
    's') always makes a 2-D array; the other two coordinates keep the kind. *)
Inductive nd := Scal (x : R) | Vec (xs : list R).
Definition nd_list (a : nd) : list R := match a with Scal x => [x] | Vec xs => xs end.

(** Profile.rho, profiles.py:358-362, for one mass: [self._f(x) * amplitude] has
    the kind of x, except for the Constant profile whose _f returns the float
    1.0; assigning to an item of a scalar raises TypeError. *)
Definition rho_nd (constant : bool) (s : shape) (o : inst) (r : nd) (m : R) (norm : option string) (c : option R) (coord : string)
  : res (list R) :=
  let is_array := ((coord =? "s")%string || match r with Vec _ => true | Scal _ => false end)%bool in
  let values := (fix go (l : list R) : res (list R) :=
                   match l with
                   | [] => Ok []
                   | x :: t => bind (rho s o x m norm c coord) (fun v => bind (go t) (fun vs => Ok (v :: vs)))
                   end) (nd_list r) in
  if s_inf s then values
  else if constant || negb is_array then bind values (fun _ => Raise TypeError)
  else values.

(** * Numerical Fourier transform of the base class, profiles.py:240-313, at one
    wavenumber of the intermediate grid.  [quad a b] is the quadrature of
    x f(x) sin(k x)/k from a to b (scipy.integrate.quad); [c] is the array of
    concentrations and [order] = np.argsort(c).  Arrays are functions of the
    index.  The interpolation over the wavenumber grid (lines 306-311) is not
    modelled. *)
Definition upd (a : nat -> R) (i : nat) (v : R) : nat -> R := fun j => if Nat.eqb j i then v else a j.
Fixpoint numeric_p_loop (quad : R -> R -> R) (c : nat -> R) (prev : option nat) (order : list nat) (res : nat -> R) : nat -> R :=
  match order with
  | [] => res
  | indx :: rest =>
      let c_0 := match prev with None => 0 | Some q => c q end in
      let integral := quad c_0 (c indx) in
      let v := match prev with None => integral | Some q => res q + integral end in
      numeric_p_loop quad c (Some indx) rest (upd res indx v)
  end.
Definition numeric_p (quad : R -> R -> R) (c : nat -> R) (order : list nat) : nat -> R :=
  numeric_p_loop quad c None order (fun _ => 0).

(** Einasto, profiles.py:1002-1008; ginc(a, x) = gamma(a)*gammainc(a, x), profiles.py:70-72 *)
Definition einasto_f (a x : R) : R := exp (- 2 / a * (npow x a - 1)).
Definition einasto_h (ginc : R -> R -> R) (a c : R) : R :=
  exp (2 / a) * Rpower (2 / a) (- 3 / a) * ginc (3 / a) (2 / a * npow c a) / a.

(** Einasto._p with use_interp, profiles.py:1010-1030, for a 2-D K of shape
    (nk, nm) = (len k, len m): the flattened K is paired element by element with
    [np.repeat(c, K.shape[0])].  [spl] is the fitted bivariate spline value. *)
Definition np_repeat (c : list R) (n : nat) : list R := flat_map (fun v => repeat v n) c.
Definition einasto_interp (spl : R -> R -> R) (Kflat : list R) (nk : nat) (c : list R) : list R :=
  map (fun kc => exp (spl (ln (fst kc)) (ln (snd kc)))) (combine Kflat (np_repeat c nk)).

(** MooreInf._p (profiles.py:833-864) and GeneralizedNFWInf._p (922-948): for a
    2-D K, [K1 = np.reshape(K, -1)] is a view of the freshly built contiguous
    array, so [K1.sort()] reorders K itself before the interpolant [fit] is
    evaluated on it.  (A 1-D K raises IndexError at K[:, 0]; not modelled.)
    [sort] is numpy's in-place sort. *)
Definition inf_numeric_p (sort : list R -> list R) (fit : R -> R) (Kflat : list R) : list R :=
  let K := sort Kflat in map (fun k => exp (fit (ln k))) K.

(** PowerLawWithExpCut, profiles.py:1104-1127 *)
Definition plec_f (a b x : R) : R := 1 / npow x b * exp (- a * x).
Definition plec_h (gamma : R -> R) (a b : R) : R := gamma (3 - b) * Rpower a (b - 3).
Definition plec_p (gamma : R -> R) (a b K : R) : R :=
  if Reqb b 2 then atan (K / a) / K
  else - 1 / K * (Rpower (a ^ 2 + K ^ 2) (b / 2 - 1) * gamma (2 - b) * sin ((b - 2) * atan (K / a))).
(** the class: _h ignores its argument (profiles.py:1108-1113), so the enclosed-mass function is constant *)
Definition PowerLawWithExpCut (gamma : R -> R) (a b : R) : shape :=
  mkShape (plec_f a b) (fun _ => plec_h gamma a b) (fun K _ => plec_p gamma a b K) None true false.
