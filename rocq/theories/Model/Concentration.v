(** Model of /repo/src/halomod/concentration.py and the concentration part of
    /repo/src/halomod/wdm.py.  Masses and redshifts are exact reals; growth
    factor, filter and profile are function arguments. *)
From Coq Require Import Reals Bool String List.
From Verif Require Import Model.RBool Model.SpecialFn Model.HODFloat Model.Profiles.
Import ListNotations.
Local Open Scope R_scope.

(** ** scipy.interpolate.interp1d(kind="linear"): points are sorted by abscissa
    (stable), then numpy.interp is used *)
Fixpoint insert_pt (p : R * R) (l : list (R * R)) : list (R * R) :=
  match l with
  | [] => [p]
  | q :: t => if Rleb (fst p) (fst q) then p :: l else q :: insert_pt p t
  end.
Definition sort_pts (l : list (R * R)) : list (R * R) := fold_right insert_pt [] l.
(** numpy.interp between the first and the last abscissa; [None] outside *)
Fixpoint np_interp (pts : list (R * R)) (x : R) : option R :=
  match pts with
  | [] => None
  | (a, ya) :: t =>
      match t with
      | [] => if Reqb x a then Some ya else None
      | (b, yb) :: _ => if Rltb x b then (if Rleb a x then Some (ya + (yb - ya) / (b - a) * (x - a)) else None) else np_interp t x
      end
  end.
(** interp1d with bounds_error=True (the default): ValueError outside *)
Definition interp1d (pts : list (R * R)) (x : R) : res R :=
  match np_interp (sort_pts pts) x with Some y => Ok y | None => Raise ValueError end.
(** interp1d with bounds_error=False, fill_value=(below, above) *)
Definition interp1d_fill (below above : R) (pts : list (R * R)) (x : R) : R :=
  match np_interp (sort_pts pts) x with
  | Some y => y
  | None => match sort_pts pts with [] => above | (a, _) :: _ => if Rltb x a then below else above end
  end.

(** ** interp_concentration, concentration.py:229-256: [base] is the array returned by the wrapped relation *)
Definition interp_conc (m base : list R) : list R :=
  let pos := filter (fun p => Rltb 0 (snd p)) (combine m base) in
  match pos with
  | [] => map (fun _ => 1) m
  | _ => map (interp1d_fill 1 1 pos) m
  end.

(** ** Bullock01, concentration.py:291-308 *)
(** np.linspace(0, 50, 5000) *)
Definition z_fine : list R := map (fun i => INR i * 50 / 4999) (seq 0 5000).
(** lines 297-300: g(sqrt(nu)) with g the tabulated inverse of the growth factor *)
Definition bullock_raw (growth : R -> R) (sqrt_nu : R) : R :=
  interp1d_fill 50 0 (rev (combine (map growth z_fine) z_fine)) sqrt_nu.
(** np.logical_or.accumulate *)
Fixpoint or_accumulate (acc : bool) (l : list bool) : list bool :=
  match l with [] => [] | b :: t => (acc || b)%bool :: or_accumulate (acc || b)%bool t end.
(** lines 301-305: array assignments through masks *)
Definition bullock_mask (raw : list R) (z : R) : list R :=
  let mn := lmin raw in
  let zc := map (fun p : bool * R => if fst p then mn else snd p) (combine (or_accumulate false (map (fun v => Reqb v mn) raw)) raw) in
  map (fun v => if Rltb v z then z else v) zc.
Definition bullock_zc (growth sqrt_nu : R -> R) (m : list R) (z : R) : list R :=
  bullock_mask (map (fun mm => bullock_raw growth (sqrt_nu mm)) m) z.
(** line 308 *)
Definition bullock_cm (norm K : R) (growth sqrt_nu : R -> R) (m : list R) (z : R) : list R :=
  map (fun zc => norm * K * (zc + 1) / (z + 1)) (bullock_zc growth sqrt_nu m z).

(** ** Bullock01Power, concentration.py:347-354; m > 0.  [ms = 0] is what a failed
    minimisation in mass_nonlinear returns (line 171): m / 0 is inf, inf**b is 0, 1 or inf *)
Definition power_cm (m ms a b c z : R) : fval :=
  if Reqb ms 0 then np_mul (Fin (a / Rpower (1 + z) c)) (if Rltb b 0 then Fin 0 else if Reqb b 0 then Fin 1 else PInf)
  else Fin (a / Rpower (1 + z) c * Rpower (m / ms) b).
Definition scale_f (norm : R) (v : fval) : fval := np_mul (Fin norm) v.
Definition bullock01power (norm a b c : R) (ms : option R) (mass_nonlinear : R -> R) (m z : R) : fval :=
  let ms' := if truthy ms then (match ms with Some v => v | None => 0 end) else mass_nonlinear z in
  scale_f norm (power_cm m ms' a b c z).
(** Zehavi11, concentration.py:502: other defaults, same code *)
Definition zehavi11 := bullock01power.

(** ** Maccio07, concentration.py:376-383 *)
Definition maccio07 (norm c0 gamma m z : R) : R :=
  norm * c0 * Rpower (m * Rpower 10 (-11)) (-0.109) * 4 / Rpower (1 + z) gamma.

(** ** Duffy08, concentration.py:427-474 *)
Definition duffy_row (sample : string) (full relaxed : R * R * R) : option (R * R * R) :=
  if String.eqb sample "full" then Some full else if String.eqb sample "relaxed" then Some relaxed else None.
Definition duffy_table (mdef sample : string) : option (R * R * R) :=
  if String.eqb mdef "200c" then duffy_row sample (5.71, -0.084, 0.47) (6.71, -0.091, 0.44)
  else if String.eqb mdef "vir" then duffy_row sample (7.85, -0.081, 0.71) (9.23, -0.09, 0.69)
  else if String.eqb mdef "200m" then duffy_row sample (10.14, -0.081, 1.01) (11.93, -0.09, 0.99)
  else duffy_row sample (5.71, -0.084, 0.47) (6.71, -0.091, 0.44).
(** Python's [x or y["key"]]: [y] is only subscripted (TypeError when it is None) if [x] is falsy *)
Definition py_or (x : option R) (y : res R) : res R :=
  if truthy x then (match x with Some v => Ok v | None => y end) else y.
Definition entry (row : option (R * R * R)) (f : R * R * R -> R) : res R := match row with Some t => Ok (f t) | None => Raise TypeError end.
Definition duffy_params (a b c : option R) (mdef sample : string) : res (R * R * R) :=
  let row := duffy_table mdef sample in
  bind (py_or a (entry row (fun t => fst (fst t)))) (fun a' =>
  bind (py_or b (entry row (fun t => snd (fst t)))) (fun b' =>
  bind (py_or c (entry row (fun t => snd t))) (fun c' => Ok (a', b', c')))).
Definition duffy08 (norm ms : R) (a b c : option R) (mdef sample : string) (m z : R) : res fval :=
  rmap (fun t => scale_f norm (power_cm m ms (fst (fst t)) (snd (fst t)) (snd t) z)) (duffy_params a b c mdef sample).

(** ** Ludlow16, concentration.py:539-605 *)
Record ludlow_env := mkLud {
  lu_h : R -> R;          (* profile._h *)
  lu_delta : R -> R;      (* halo_overdensity_crit at z *)
  lu_Om0 : R; lu_Ode0 : R;
  lu_growth : R -> R; lu_delta_c : R;
  lu_sigma2 : R -> R      (* filter.sigma(mass_to_radius(m))**2 *)
}.
(** np.logspace(0, 2, 400) *)
Definition lud_cvec : list R := map (fun i => pow10 (INR i * 2 / 399)) (seq 0 400).
Definition lud_brackets (E : ludlow_env) (C z c : R) : R :=
  let M2 := lu_h E 1 / lu_h E c in
  let rho_2 := lu_delta E z * c ^ 3 * M2 in
  let rhoc := rho_2 / C in
  (rhoc * (lu_Om0 E * (1 + z) ^ 3 + lu_Ode0 E) - lu_Ode0 E) / lu_Om0 E.
(** _eq6_zf (545-554) and the mask of lines 562-565 *)
Definition lud_zf (E : ludlow_env) (C z c : R) : R := Rpower (lud_brackets E C z c) 0.33333 - 1.
Definition lud_cs (E : ludlow_env) (C z : R) : list R :=
  filter (fun c => negb (Rltb (lud_zf E C z c) 0)) (filter (fun c => Rltb 0 (lud_brackets E C z c)) lud_cvec).
(** lhs - rhs at one candidate concentration, lines 567-578 *)
Definition lud_arg (E : ludlow_env) (f C m z c : R) : R :=
  let num := lu_delta_c E * (1 / lu_growth E (lud_zf E C z c) - 1 / lu_growth E z) in
  let den := sqrt (2 * (lu_sigma2 E (f * m) - lu_sigma2 E m)) in
  lu_h E 1 / lu_h E c - (1 - erf (num * (1 / den))).
(** the loop body, lines 592-602, for one mass; np.min of an empty array is a ValueError *)
Definition lud_pick (args cs : list R) : res R :=
  match cs with
  | [] => Raise ValueError
  | _ => if forallb (fun a => negb (Rleb a 0)) args then Ok (lmin cs)
         else if forallb (fun a => negb (Rleb 0 a)) args then Ok (lmax cs)
         else interp1d (combine args cs) 0
  end.
Definition lud_eq7 (E : ludlow_env) (f C m z : R) : res R :=
  let cs := lud_cs E C z in lud_pick (map (lud_arg E f C m z) cs) cs.
(** a scalar mass takes lines 588-591: no clamping *)
Definition lud_eq7_scalar (E : ludlow_env) (f C m z : R) : res R :=
  let cs := lud_cs E C z in interp1d (combine (map (lud_arg E f C m z) cs) cs) 0.
Definition ludlow16 (E : ludlow_env) (norm f C m z : R) : res R := rmap (Rmult norm) (lud_eq7 E f C m z).

(** ** Ludlow16Empirical, concentration.py:648-684 *)
Record ludemp := mkLE { c0_0 : R; c0_z : R; beta_0 : R; beta_z : R; gamma1_0 : R; gamma1_z : R; gamma2_0 : R; gamma2_z : R; le_norm : R }.
Definition le_ev (p0 pz z : R) : R := p0 * Rpower (1 + z) pz.
Definition le_nu0 (growth : R -> R) (z : R) : R :=
  let a := 1 / (1 + z) in (4.135 - 0.564 / a - 0.21 / a ^ 2 + 0.0557 / a ^ 3 - 0.00348 / a ^ 4) / growth z.
Definition le_sig (growth : R -> R) (m z : R) : R :=
  let xi := 10000000000 / m in growth z * 22.26 * Rpower xi 0.292 / (1 + 1.53 * Rpower xi 0.275 + 3.36 * Rpower xi 0.198).
(** a negative base to a non-integer power is NaN; exponents here are the negative of gamma1 and 1/beta *)
Definition np_fpow (x y : R) : fval := if Rltb x 0 then NaN else Fin (Rpower x y).
Definition ludlow16emp (P : ludemp) (growth : R -> R) (delta_c m z : R) : fval :=
  let c0 := le_ev (c0_0 P) (c0_z P) z in
  let beta := le_ev (beta_0 P) (beta_z P) z in
  let g1 := le_ev (gamma1_0 P) (gamma1_z P) z in
  let g2 := le_ev (gamma2_0 P) (gamma2_z P) z in
  let x := delta_c / le_sig growth m z / le_nu0 growth z in
  match np_fpow x (- g1), np_fpow x (1 / beta) with
  | Fin u, Fin v => Fin (le_norm P * c0 * u * Rpower (1 + v) (- beta * (g2 - g1)))
  | _, _ => NaN
  end.

(** ** CMRelationWDMRescaled.cm, wdm.py:30-37 *)
Definition wdm_cm (base g1 g2 b0 b1 m_hm m z : R) : R := base * Rpower (1 + g1 * m_hm / m) (- g2) * Rpower (1 + z) (b0 * z - b1).
