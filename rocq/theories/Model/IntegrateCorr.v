(** Model of /repo/src/halomod/integrate_corr.py. *)
From Coq Require Import Reals List Bool Arith.
From Verif Require Import Model.RBool Model.SpecialFn Model.SimpsonX Model.Profiles.
Import ListNotations.
Local Open Scope R_scope.

(** np.linspace(a, b, n) and np.logspace(log_c a, log_c b, n, base=c) for positive a, b *)
Definition linspace (a b : R) (n : nat) : list R := map (fun i => a + INR i * ((b - a) / INR (n - 1))) (seq 0 n).
Definition logspace (a b : R) (n : nat) : list R := map exp (linspace (ln a) (ln b) n).

(** flat_z_dist, integrate_corr.py:202-209, at one redshift *)
Definition flat_z_dist (zmin zmax z : R) : R := if Rleb zmin z && Rleb z zmax then 1 / (zmax - zmin) else 0.

(** the cosmology: comoving_distance (Mpc), h, hubble_distance (Mpc), efunc *)
Record cosmology := mkCosmo { c_dist : R -> R; c_h : R; c_dh : R; c_E : R -> R }.
(** dxdz, integrate_corr.py:212-215 *)
Definition dxdz (c : cosmology) (z : R) : R := c_dh c * c_h c / c_E c z.

(** a selection function: a callable, perhaps with an integral(a, b) method (a scipy spline) *)
Record selection := mkSel { s_f : R -> R; s_int : option (R -> R -> R) }.
(** _check_p, integrate_corr.py:470-480.  None: the integral is 0 and the result is nan everywhere.
    np.isclose(integ, 1.0, rtol=0.01) is |integ - 1| <= 1e-8 + 0.01. *)
Definition p_integral (p : selection) (z : list R) : R :=
  match s_int p with Some J => J (lmin z) (lmax z) | None => simpx z (map (s_f p) z) end.
Definition isclose1 (v : R) : bool := Rleb (Rabs (v - 1)) (1 / 100000000 + 1 / 100).
Definition check_p (p : selection) (z : list R) : option (R -> R) :=
  let integ := p_integral p z in
  if isclose1 integ then Some (s_f p) else if Reqb integ 0 then None else Some (fun t => s_f p t / integ).

(** angular_corr_gal, integrate_corr.py:483-580, at one angle.  None is nan. *)
Definition angular_grid (c : cosmology) (zmin zmax : R) (znum : nat) (p_of_z : bool) : list R :=
  if p_of_z then linspace zmin zmax znum else linspace (c_dist c zmin * c_h c) (c_dist c zmax * c_h c) znum.
(** distance of a grid point: 550-556 *)
Definition distance (c : cosmology) (p_of_z : bool) (g : R) : R := if p_of_z then c_dist c g * c_h c else g.
(** 566 *)
Definition p_integ (c : cosmology) (p_of_z : bool) (p1 p2 : R -> R) (g : R) : R :=
  if p_of_z then p1 g * p2 g / dxdz c g ^ 2 else p1 g * p2 g.
(** 569-577: the double integral, with g the z (or x) grid *)
Definition limber (c : cosmology) (p_of_z : bool) (p1 p2 : R -> R) (xi : R -> R) (g u : list R) (theta : R) : R :=
  2 * simpx (map (distance c p_of_z) g)
        (map (fun t => simpx u (map (fun v => xi (sqrt (theta ^ 2 * distance c p_of_z t ^ 2 + v ^ 2)) * p_integ c p_of_z p1 p2 t) u)) g).
Definition selected (check : bool) (p : selection) (g : list R) : option (R -> R) := if check then check_p p g else Some (s_f p).
Definition angular_corr_gal (c : cosmology) (xi : R -> R) (p1 : selection) (p2 : option selection) (zmin zmax logu_min logu_max : R) (znum unum : nat)
    (check p_of_z : bool) (theta : R) : option R :=
  let u := logspace (Rpower 10 logu_min) (Rpower 10 logu_max) unum in
  let g := angular_grid c zmin zmax znum p_of_z in
  match selected check p1 g with
  | None => None
  | Some q1 =>
      match match p2 with None => Some q1 | Some p2 => selected check p2 g end with
      | None => None
      | Some q2 => Some (limber c p_of_z q1 q2 xi g u theta)
      end
  end.

(** AngularCF.xvec, integrate_corr.py:387-390: no factor h *)
Definition acf_xvec (c : cosmology) (zmin zmax : R) (znum : nat) : list R := map (c_dist c) (linspace zmin zmax znum).
(** AngularCF.r, integrate_corr.py:404-409: its two ends *)
Definition acf_rmin (c : cosmology) (zmin zmax : R) (znum : nat) (logu_min thmin : R) : R :=
  sqrt (Rpower 10 logu_min ^ 2 + thmin ^ 2 * lmin (acf_xvec c zmin zmax znum) ^ 2).
Definition acf_rmax (c : cosmology) (zmin zmax : R) (znum : nat) (logu_max thmax : R) : R :=
  sqrt (Rpower 10 logu_max ^ 2 + thmax ^ 2 * lmax (acf_xvec c zmin zmax znum) ^ 2).

(** _get_theta, integrate_corr.py:185-199; 2 ** x and y ** (-2a) with positive base *)
Definition get_theta (a : R) : R :=
  let s := sqrt (5 - 8 * a + 4 * a ^ 2) in
  Rpower 2 (1 + 2 * a) * (7 - 2 * a ^ 3 + 3 * s + a ^ 2 * (9 + s) - a * (13 + 3 * s)) * Rpower ((1 + s) / (a - 1)) (- 2 * a)
  / ((a - 1) ^ 2 * (-1 + 2 * a + s)).

(** ProjectedCF.rlim, integrate_corr.py:100-105 *)
Definition rlim (proj_limit : option R) (rp : list R) : R := if truthy proj_limit then match proj_limit with Some v => v | None => 0 end else Rmax 80 (5 * lmax rp).
(** ProjectedCF.r, 107-110 *)
Definition pcf_r (rl : R) (rp : list R) (rnum : nat) : list R := logspace (lmin rp) rl rnum.

(** the log slope on the i-th interval of the input, integrate_corr.py:159-163: None where xi is not positive (nan;
    xi = 0, an infinite logarithm, is treated as nan too) *)
Definition lnxi (x : R) : option R := if Rltb 0 x then Some (ln x) else None.
Definition logslope (r xir : list R) (i : nat) : option R :=
  match lnxi (nth (S i) xir 0), lnxi (nth i xir 0) with
  | Some a, Some b => Some ((a - b) / (ln (nth (S i) r 0) - ln (nth i r 0)))
  | _, _ => None
  end.
(** max(1.3, -ydiff): nan never wins the comparison *)
Definition floor13 (s : option R) : R := match s with Some v => if Rltb (13 / 10) (- v) then - v else 13 / 10 | None => 13 / 10 end.
(** the loop body's update of (a, theta), integrate_corr.py:156-165; theta unbound is None *)
Definition slope_step (r xir : list R) (i : nat) (st : R * option R) : R * option R :=
  let '(a, th) := st in
  if negb (Reqb a (13 / 10)) && (i <? length r - 1)%nat
  then let a := floor13 (logslope r xir i) in (a, Some (get_theta a)) else (a, th).
(** state used for the i-th output radius *)
Fixpoint slope_state (r xir : list R) (i : nat) : R * option R :=
  slope_step r xir i (match i with O => (0, None) | S k => slope_state r xir k end).

(** the lower limit, integrate_corr.py:167 *)
Definition min_y (theta rp : R) : R := theta * (1 / 100) ^ 2 * rp.
(** 173 *)
Definition y_grid (theta rl rp : R) : list R := logspace (min_y theta rp) (rl - rp) 1000.
(** 176-177 *)
Definition proj_integrand (fit : R -> R) (rp y : R) : R := (y + rp) * fit (y + rp) / sqrt ((y + 2 * rp) * y).
(** projected_corr_gal, integrate_corr.py:124-182: the i-th output.  [fit] is the cubic spline through (r, xir).
    Raise NameError-like failures: theta unbound. *)
Inductive proj_result := ProjOk (v : R) | ProjNan | ProjUnbound.
Definition projected_at (fit : R -> R) (r xir : list R) (rl : R) (rp_out : list R) (i : nat) : proj_result :=
  let rp := nth i rp_out 0 in
  match snd (slope_state r xir i) with
  | None => ProjUnbound
  | Some th =>
      if Rltb 0 (min_y th rp) && Rltb 0 (rl - rp)
      then ProjOk (simpx (y_grid th rl rp) (map (proj_integrand fit rp) (y_grid th rl rp)) * 2) else ProjNan
  end.
