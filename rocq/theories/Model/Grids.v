(** Model of the grids and parameter checks of the frameworks:
    /repo/src/halomod/halo_model.py:180-191, 244-290, 336-367 (DMHaloModel), 993-995, 1063-1078 (TracerHaloModel),
    /repo/src/halomod/integrate_corr.py:38-110 (ProjectedCF), 257-409 (AngularCF).
    [None] in a grid is nan. *)
From Coq Require Import Reals List Bool Arith ZArith.
From Verif Require Import Model.RBool Model.Profiles Model.IntegrateCorr.
Import ListNotations.
Local Open Scope R_scope.

(** math.ceil *)
Definition rceil (x : R) : Z := (1 - up (- x))%Z.
(** np.arange(a, b, d): ceil((b - a)/d) points, none if that is negative; d = 0 raises (ZeroDivisionError, a ValueError here) *)
Definition arange (a b d : R) : res (list R) :=
  if Reqb d 0 then Raise ValueError else Ok (map (fun i => a + INR i * d) (seq 0 (Z.to_nat (rceil ((b - a) / d))))).

(** _r_table, halo_model.py:336-339, with _logr_table_min = -3 and _logr_table_max = 2.5 (160-161) *)
Definition logr_min : R := -3.
Definition logr_max : R := 5 / 2.
Definition r_table (dr_table : R) : res (list R) := rmap (map (Rpower 10)) (arange logr_min logr_max dr_table).
(** k_hm, halo_model.py:351-357 *)
Definition k_hm (hm_logk_min hm_logk_max hm_dlog10k : R) : res (list R) := rmap (map (Rpower 10)) (arange hm_logk_min hm_logk_max hm_dlog10k).

(** rmin is a number or an array, halo_model.py:244-247 *)
Inductive rmin_t := RScal (x : R) | RArr (l : list R).
(** np.linspace with a negative number of points raises ValueError *)
Definition np_linspace (a b : R) (n : Z) : res (list R) := if (n <? 0)%Z then Raise ValueError else Ok (linspace a b (Z.to_nat n)).
(** exp(linspace(log a, log b, n)): a logarithm that is not a number spoils every point but the last, which is b *)
Definition last_point (b : R) : option R := if Rltb b 0 then None else Some b.
Definition np_logspace (a b : R) (n : Z) : res (list (option R)) :=
  if (n <? 0)%Z then Raise ValueError
  else if Rltb 0 a && Rltb 0 b then Ok (map Some (logspace a b (Z.to_nat n)))
  else Ok (map (fun i => if (i =? Z.to_nat n - 1)%nat && (1 <? Z.to_nat n)%nat then last_point b
                         else None) (seq 0 (Z.to_nat n))).
(** r, halo_model.py:359-367 *)
Definition r_grid (rmin : rmin_t) (rmax : R) (rnum : Z) (rlog : bool) : res (list (option R)) :=
  match rmin with
  | RArr l => Ok (map Some l)
  | RScal x => if rlog then np_logspace x rmax rnum else rmap (map Some) (np_linspace x rmax rnum)
  end.
(** rmax setter, halo_model.py:249-260: does it warn? *)
Definition rmax_warns (rmax : R) : bool := Rltb (Rpower 10 logr_max) rmax.

Definition py_assert (b : bool) : res unit := if b then Ok tt else Raise AssertionError.
Definition nonempty {A} (l : list A) : bool := match l with [] => false | _ => true end.
(** validate, halo_model.py:180-191; [base] is the outcome of the validation done by hmf *)
Definition validate (base : res unit) (rmin : rmin_t) (rmax : R) (rnum : Z) (rlog : bool) (lkmin lkmax dlk : R) : res unit :=
  bind base (fun _ =>
  bind (match rmin with RScal x => py_assert (Rltb x rmax) | RArr _ => Ok tt end) (fun _ =>
  bind (r_grid rmin rmax rnum rlog) (fun r =>
  bind (py_assert (nonempty r)) (fun _ =>
  bind (py_assert (Rltb lkmin lkmax)) (fun _ =>
  bind (k_hm lkmin lkmax dlk) (fun k =>
  bind (py_assert (nonempty k)) (fun _ =>
  py_assert (Rltb logr_min logr_max)))))))).

(** _tm, halo_model.py:1063-1078: the mask over the mass grid and whether it warns *)
Definition tracer_mask (m : list R) (mmin : option R) : list bool :=
  match mmin with None => map (fun x => Rleb (lmin m) x) m | Some v => map (fun x => Rleb (Rpower 10 v) x) m end.
Definition tracer_mask_warns (Mmin : R) (mmin : option R) : bool := match mmin with None => false | Some v => Rltb v Mmin end.
(** TracerHaloModel.validate, halo_model.py:993-995 *)
Definition validate_tracer (dm : res unit) (m : list R) (mmin : option R) : res unit :=
  bind dm (fun _ => py_assert (1 <? length (filter (fun b => b) (tracer_mask m mmin)))%nat).

(** *** ProjectedCF *)
(** rp_num setter, integrate_corr.py:75-79; int() truncates towards zero *)
Definition py_int (x : R) : Z := if Rltb x 0 then rceil x else (up x - 1)%Z.
Definition set_rp_num (v : R) : res Z := if Rltb v 0 then Raise ValueError else Ok (py_int v).
(** rp, integrate_corr.py:87-97; rp_min may be a list or array *)
Definition rp_grid (rp_min : rmin_t) (rp_max : R) (rp_num : Z) (rp_log : bool) : res (list (option R)) := r_grid rp_min rp_max rp_num rp_log.
(** rlim and r, integrate_corr.py:99-110, when no projected radius is nan: max() of an empty array is a ValueError *)
Definition pcf_rlim (proj_limit : option R) (rp : list R) : res R :=
  if truthy proj_limit then Ok (rlim proj_limit rp) else match rp with [] => Raise ValueError | _ => Ok (rlim proj_limit rp) end.
Definition pcf_r_grid (proj_limit : option R) (rp : list R) (rnum : Z) : res (list (option R)) :=
  match rp with [] => Raise ValueError | _ => bind (pcf_rlim proj_limit rp) (fun rl => np_logspace (lmin rp) rl rnum) end.
(** default rnum, integrate_corr.py:48-49 *)
Definition pcf_rnum (kw : option R) (rp_num : R) : Z := match kw with Some v => py_int v | None => py_int (5 * rp_num) end.

(** *** AngularCF *)
(** theta_min and theta_max setters, integrate_corr.py:318-330 *)
Definition set_theta_min (v : R) : res R := if Rltb v 0 then Raise ValueError else Ok v.
Definition set_theta_max (v : R) : res R := if Rltb 180 v then Raise ValueError else Ok v.
(** theta, integrate_corr.py:392-401 *)
Definition theta_grid (theta_min theta_max : R) (theta_num : Z) (theta_log : bool) : res (list (option R)) :=
  if Rltb theta_max theta_min then Raise ValueError
  else if theta_log then np_logspace theta_min theta_max theta_num else rmap (map Some) (np_linspace theta_min theta_max theta_num).
(** the selection function stored by __init__, integrate_corr.py:283-286, and what update(zmin=, zmax=) does to it: nothing *)
Record acf := mkAcf { a_p1 : R -> R; a_zmin : R; a_zmax : R }.
Definition acf_init (p1 : option (R -> R)) (zmin zmax : R) : acf :=
  mkAcf (match p1 with None => flat_z_dist zmin zmax | Some p => p end) zmin zmax.
(** one update call; each keyword may be absent *)
Record acf_call := mkAcfCall { u_p1 : option (R -> R); u_zmin : option R; u_zmax : option R }.
Definition oget {A} (o : option A) (d : A) : A := match o with Some v => v | None => d end.
Definition acf_update (s : acf) (u : acf_call) : acf := mkAcf (oget (u_p1 u) (a_p1 s)) (oget (u_zmin u) (a_zmin s)) (oget (u_zmax u) (a_zmax s)).
Definition acf_run (s : acf) (l : list acf_call) : acf := fold_left acf_update l s.
(** angular_corr_gal of the class with a callable selection function without an integral method, integrate_corr.py:411-437 *)
Definition acf_angular (c : cosmology) (xi : R -> R) (s : acf) (logu_min logu_max : R) (znum unum : nat) (check p_of_z : bool) (theta : R) : option R :=
  angular_corr_gal c xi (mkSel (a_p1 s) None) None (a_zmin s) (a_zmax s) logu_min logu_max znum unum check p_of_z theta.
