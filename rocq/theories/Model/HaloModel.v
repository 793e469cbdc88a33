(** Model of /repo/src/halomod/halo_model.py: the mass integrals, power spectra and correlation
    functions of DMHaloModel (443-901) and TracerHaloModel (1186-1664).

    Arrays over mass, wavenumber and scale are functions of their indices with explicit lengths.
    What the framework gets from hmf (mass grid, dn/dm, linear power, ...), the bias, profile and HOD
    arrays are fields of the records below: any values.  scipy's splines and the Hankel transform are
    arbitrary functions (section variables); the Hankel transform itself is modelled in Hankel.v. *)
From Coq Require Import Reals List Bool Arith String.
From Verif Require Import Model.RBool Model.NumpyList Model.Quad Model.SplineInt Model.ExtSpline Model.Exclusion Model.Profiles Model.HOD.
Import ListNotations.
Local Open Scope R_scope.

(** an array of length n *)
Definition tab (n : nat) (f : nat -> R) : list R := map f (seq 0 n).
(** scipy.integrate.trapezoid(y, dx=h) *)
Definition np_trapezoid (n : nat) (h : R) (f : nat -> R) : R := cumulative_trapezoid h f (n - 1).

(** halo_model.py:206-218 *)
Inductive hc_spectrum := Linear | Nonlinear | FilteredLin | FilteredNl.
Definition filtered (s : hc_spectrum) : bool := match s with FilteredLin | FilteredNl => true | _ => false end.

Record dmhm : Type := mkDM {
  d_nm : nat; d_m : nat -> R; d_dndm : nat -> R;
  d_bias : nat -> R;                    (* halo_bias *)
  d_dlog10m : R;
  d_nk : nat; d_k : nat -> R;           (* k *)
  d_khm : list R;                       (* k_hm *)
  d_power : nat -> R;                   (* linear power at k *)
  d_phc : R -> R;                       (* _power_halo_centres_fnc *)
  d_plin : R -> R;                      (* linear_power_fnc *)
  d_hc : hc_spectrum;
  d_nr : nat; d_r : nat -> R;           (* _r_table *)
  d_ukm : nat -> nat -> R;              (* halo_profile_ukm, (k, m) *)
  d_lam : option (nat -> nat -> R);     (* halo_profile_lam, (r, m); None without has_lam *)
  d_rho0 : R;                           (* mean_density0 *)
  d_rhoh : R;                           (* mean_density_in_halos *)
  d_delta : R;                          (* halo_overdensity_mean *)
  d_turnover : bool;                    (* force_1halo_turnover *)
  d_unity : bool;                       (* force_unity_dm_bias *)
  d_noexcl : bool;                      (* exclusion_model is NoExclusion *)
  d_sd : option (nat -> R) }.           (* sd_bias_correction *)

(** how tools.hankel_transform is called: to scales with its default step h = 0.005 (halo_model.py:527, 543, 682, 1364, 1585,
    1633), to scales with h = 1e-4 (783), to wavenumbers with h = 0.001 (817) *)
Inductive tmode := ToR | ToRfine | ToK.

Section HM.
  Variable splint : list R -> list R -> R -> R -> R.        (* InterpolatedUnivariateSpline(x, y).integral(a, b) *)
  Variable spline : nat -> list R -> list R -> R -> R.
  Variable uspline : list R -> list R -> R -> R.
  Variable hankel : tmode -> (R -> R) -> R -> R.            (* tools.hankel_transform of one callable at one point *)

  (** tools.spline_integral(self.m, f, xmin=xmin) *)
  Definition mint (h : dmhm) (f : nat -> R) (xmin : option R) : R :=
    value (spline_integral splint (tab (d_nm h) (d_m h)) (tab (d_nm h) f) xmin None true).
  (** tools.ExtendedSpline(x, y, lower_func, upper_func, match_lower), called on a scalar *)
  Definition efun (x y : list R) (lower upper : ext_arg) (match_lower : bool) : res (R -> R) :=
    match ext_spline_init spline uspline x y lower upper match_lower true None None 3 10 10 with
    | CtorOk s => Ok (call_scalar s)
    | CtorValueError => Raise ValueError
    | CtorAssertionError => Raise AssertionError
    end.

  (** *** dark matter *)
  (** lower limit of the 1-halo integral at wavenumber k, halo_model.py:638-646 *)
  Definition mmin_1h (h : dmhm) (max_mmin k : R) : R :=
    if d_turnover h then Rmax max_mmin (4 * PI * d_rho0 h * d_delta h / 3 * (PI / k / 10) ^ 3) else max_mmin.
  (** _do_1halo_integral at the ik-th wavenumber, halo_model.py:635-649 *)
  Definition do_1halo (h : dmhm) (max_mmin : R) (integrand : nat -> nat -> R) (mean_dens : R) (ik : nat) : R :=
    mint h (integrand ik) (Some (mmin_1h h max_mmin (d_k h ik))) / mean_dens ^ 2.
  (** table of power_1h_auto_matter_fnc, halo_model.py:654-658 *)
  Definition p1h_matter (h : dmhm) (ik : nat) : R :=
    do_1halo h (d_m h 0%nat) (fun ik im => d_dndm h im * d_m h im ^ 2 * d_ukm h ik im ^ 2) (d_rho0 h) ik.
  Definition lower_1h (h : dmhm) : ext_arg := if d_turnover h then ExtCallable zero_ext else ExtBoundary.
  (** halo_model.py:651-665 *)
  Definition power_1h_matter (h : dmhm) : res (R -> R) :=
    efun (tab (d_nk h) (d_k h)) (tab (d_nk h) (p1h_matter h)) (lower_1h h) ExtPowerLaw true.
  (** halo_model.py:671-689 *)
  Definition corr_1h_matter (h : dmhm) : res (R -> R) :=
    bind (match d_lam h with
          | Some lam => Ok (fun ir => np_trapezoid (d_nm h) (ln 10 * d_dlog10m h) (fun im => d_dndm h im * d_m h im ^ 3 * lam ir im) / d_rho0 h ^ 2 - 1)
          | None => rmap (fun p ir => hankel ToR p (d_r h ir)) (power_1h_matter h)
          end)
      (fun table => efun (tab (d_nr h) (d_r h)) (tab (d_nr h) table) ExtPowerLaw (ExtCallable zero_ext) true).

  (** _matter_exclusion, halo_model.py:697-713 *)
  Definition the_bias (h : dmhm) : bias_arr :=
    match d_sd h with Some c => Bias2 (fun ir im => c ir * d_bias h im) | None => Bias1 (d_bias h) end.
  Definition matter_exclusion (h : dmhm) : exclusion :=
    let dens im := d_dndm h im * d_m h im / d_rhoh h in
    mkExcl (d_nm h) (d_m h) dens (fun ik im => dens im * d_ukm h ik im) (the_bias h) (d_r h) (d_delta h * d_rho0 h) None.

  (** eff_bias, halo_model.py:743-745 *)
  Definition excl_eff_bias (nr : nat) (e : exclusion) : R :=
    let b im := match e_bias e with Bias1 b => b im | Bias2 b => b (nr - 1)%nat im end in
    value (spline_integral splint (tab (e_nm e) (e_m e)) (tab (e_nm e) (fun im => e_density e im * b im)) None None true).
  (** factor multiplying the halo-centre power, halo_model.py:731-747; [integ] and [dmod] are
      exclusion.integrate() and exclusion.density_mod *)
  Definition factor_2h (h : dmhm) (e : exclusion) (integ : nat -> nat -> R) (dmod : nat -> R) (eff : R) (debias : bool) (ir ik : nat) : R :=
    integ ir ik * dmod ir * (if debias then (eff / excl_eff_bias (d_nr h) e) ^ 2 else 1).
  (** halo_model.py:748-769; the ir-th callable *)
  Definition prim_2h (h : dmhm) (e : exclusion) (integ : nat -> nat -> R) (dmod : nat -> R) (eff : R) (debias : bool) (ir : nat) : res (R -> R) :=
    efun (tab (d_nk h) (d_k h)) (tab (d_nk h) (fun ik => factor_2h h e integ dmod eff debias ir ik * d_phc h (d_k h ik)))
      (ExtCallable (d_plin h)) (if d_noexcl h && negb (filtered (d_hc h)) then ExtPowerLaw else ExtCallable zero_ext) true.
  (** does integrate() return more than one row? NoExclusion with 1D bias returns one *)
  Definition rows (h : dmhm) : nat := if d_noexcl h && match d_sd h with None => true | Some _ => false end then 1%nat else d_nr h.
  Fixpoint rseq {A} (l : list (res A)) : res (list A) :=
    match l with [] => Ok [] | x :: t => bind x (fun a => bind (rseq t) (fun u => Ok (a :: u))) end.
  (** _get_corr_2h_auto_fnc, halo_model.py:771-788 *)
  Definition corr_2h_auto (h : dmhm) (e : exclusion) (integ : nat -> nat -> R) (dmod : nat -> R) (eff : R) (debias : bool) : res (R -> R) :=
    bind (rseq (map (prim_2h h e integ dmod eff debias) (seq 0 (rows h)))) (fun ps =>
      let p ir := match ps with [p0] => p0 | _ => nth ir ps (fun _ => 0) end in
      efun (tab (d_nr h) (d_r h)) (tab (d_nr h) (fun ir => hankel ToRfine (p ir) (d_r h ir))) (ExtCallable zero_ext) (ExtCallable zero_ext) true).
  (** overwriting at low k, halo_model.py:821-828 *)
  Definition overwrite_lowk (h : dmhm) (eff : R) (out : nat -> R) : res (nat -> R) :=
    let mask := map (fun k => Rltb k (1 / 100)) (d_khm h) in
    if existsb (fun b => b) mask then
      if negb (List.length mask =? d_nk h)%nat then Raise IndexError
      else Ok (fun ik => if nth ik mask false then d_power h ik * eff else out ik)
    else Ok out.
  (** _get_power_2h_auto_fnc, halo_model.py:809-830 *)
  Definition power_2h_auto (h : dmhm) (e : exclusion) (integ : nat -> nat -> R) (dmod : nat -> R) (eff : R) (debias : bool) : res (R -> R) :=
    if d_noexcl h && match d_sd h with None => true | Some _ => false end
    then prim_2h h e integ dmod eff debias 0
    else bind (corr_2h_auto h e integ dmod eff debias) (fun xi =>
         bind (overwrite_lowk h eff (fun ik => hankel ToK xi (d_k h ik))) (fun out =>
         efun (tab (d_nk h) (d_k h)) (tab (d_nk h) out) ExtPowerLaw (ExtCallable zero_ext) true)).
  (** bias_effective_matter, halo_model.py:873-901 *)
  Definition bias_effective_matter (h : dmhm) : R :=
    if d_unity h then 1 else mint h (fun im => d_m h im * d_dndm h im * d_bias h im) None / d_rhoh h.
  Definition ius_of (n : nat) : ius_t := fun x y a b => splint (tab n x) (tab n y) a b.
  (** power_2h_auto_matter_fnc without exclusion, halo_model.py:832-840 *)
  Definition power_2h_matter_noexcl (h : dmhm) : res (R -> R) :=
    let e := matter_exclusion h in
    power_2h_auto h e (noexcl_integrate (ius_of (d_nm h)) e) (fun _ => 1) (bias_effective_matter h) (d_unity h).
  (** corr_auto_matter_fnc, halo_model.py:848-852 *)
  Definition corr_matter (xi2 : res (R -> R)) (h : dmhm) : res (R -> R) :=
    bind (corr_1h_matter h) (fun a => bind xi2 (fun b => Ok (sum_callable a b 1))).

  (** *** power_hh, halo_model.py:564-609.  [simp] is scipy's simpson(y, x=x); the boolean mask selects grid points.
      [None] arguments take the framework's Mmin/Mmax. *)
  Variable simp : list R -> list R -> R.
  Definition sel (h : dmhm) (mn mx : R) : list nat :=
    filter (fun i => Rleb (Rpower 10 mn) (d_m h i) && Rleb (d_m h i) (Rpower 10 mx)) (seq 0 (d_nm h)).
  Definition get_b (h : dmhm) (mn mx : R) : R :=
    simp (map (fun i => d_bias h i * d_dndm h i) (sel h mn mx)) (map (d_m h) (sel h mn mx)) / simp (map (d_dndm h) (sel h mn mx)) (map (d_m h) (sel h mn mx)).
  Definition dflt {A} (o : option A) (d : A) : A := match o with Some v => v | None => d end.
  (** equal limits: the code interpolates [self.bias] - a Bias instance, not an array - so scipy raises (TypeError here; which exception depends on the version of scipy, so the
      theorems only say that there is one) *)
  Definition power_hh (h : dmhm) (Mmin Mmax k : R) (mmin mmax mmin2 mmax2 : option R) : res R :=
    let a := dflt mmin Mmin in let b := dflt mmax Mmax in let a2 := dflt mmin2 a in let b2 := dflt mmax2 b in
    if Reqb a b || Reqb a2 b2 then Raise TypeError else Ok (get_b h a b * get_b h a2 b2 * d_phc h k).

  (** *** filtered halo-centre power, halo_model.py:468-477 and 479-488: the table.  [wk] is TopHat.k_space *)
  Definition first_nonpos (n : nat) (p : nat -> R) : option nat := find (fun i => Rleb (p i) 0) (seq 0 n).
  Definition filtered_table (n : nat) (k p : nat -> R) (wk : R -> R) (scale : R) : res (nat -> R) :=
    let q i := p i * wk (k i * scale) in
    match first_nonpos n q with
    | None => Raise IndexError
    | Some z => Ok (fun i => if (i <? z)%nat then q i else 0)
    end.
  Definition phc_filtered (n : nat) (k p : nat -> R) (wk : R -> R) (scale : R) (below : R -> R) : res (R -> R) :=
    bind (filtered_table n k p wk scale) (fun t => efun (tab n k) (tab n t) (ExtCallable below) (ExtCallable zero_ext) false).

  (** *** tracers *)
  Record tracer : Type := mkTr {
    t_hod : hod;
    t_ukm : nat -> nat -> R;              (* tracer_profile_ukm *)
    t_rho : nat -> nat -> R;              (* tracer_profile_rho, (r, m) *)
    t_lam : option (nat -> nat -> R) }.   (* tracer_profile_lam *)

  (** the condition of halo_model.py:1199 and 1221 *)
  Definition cut (hd : hod) : bool := h_sharp hd && (h_central hd || h_inherent hd).
  (** _central_occupation, halo_model.py:1190-1202 *)
  Definition cen_int (hd : hod) (m : R) : R := if cut hd then 1 else central_occupation hd m.
  (** _total_occupation, halo_model.py:1204-1210 *)
  Definition tot_int (hd : hod) (m : R) : R := cen_int hd m + satellite_occupation hd m.
  (** tracer_mmin, halo_model.py:1212-1224 *)
  Definition tracer_mmin (hd : hod) : option R := if cut hd then Some (Rpower 10 (h_mmin hd)) else None.
  (** tracer mass integrals with xmin = tracer_mmin *)
  Definition tint (h : dmhm) (t : tracer) (f : nat -> R) : R := mint h f (tracer_mmin (t_hod t)).
  (** halo_model.py:1229-1240 *)
  Definition mean_tracer_den (h : dmhm) (t : tracer) : R := tint h t (fun i => d_dndm h i * tot_int (t_hod t) (d_m h i)).
  (** halo_model.py:1247-1256 *)
  Definition bias_effective_tracer (h : dmhm) (t : tracer) : R :=
    tint h t (fun i => d_dndm h i * tot_int (t_hod t) (d_m h i) * d_bias h i) / mean_tracer_den h t.
  (** halo_model.py:1258-1266 *)
  Definition mass_effective (h : dmhm) (t : tracer) : R :=
    ln (tint h t (fun i => d_m h i * d_dndm h i * tot_int (t_hod t) (d_m h i)) / mean_tracer_den h t) / ln 10.
  (** halo_model.py:1268-1286 *)
  Definition satellite_fraction (h : dmhm) (t : tracer) : R :=
    tint h t (fun i => d_dndm h i * satellite_occupation (t_hod t) (d_m h i)) / mean_tracer_den h t.
  Definition central_fraction (h : dmhm) (t : tracer) : R := 1 - satellite_fraction h t.

  (** tables of power_1h_ss/cs_auto_tracer_fnc, halo_model.py:1318-1330 and 1378-1390: max_mmin is the HOD's
      mmin, a log10 mass *)
  Definition p1h_ss (h : dmhm) (t : tracer) (ik : nat) : R :=
    do_1halo h (h_mmin (t_hod t)) (fun ik im => t_ukm t ik im ^ 2 * d_dndm h im * ss_pairs (t_hod t) (d_m h im)) (mean_tracer_den h t) ik.
  Definition p1h_cs (h : dmhm) (t : tracer) (ik : nat) : R :=
    do_1halo h (h_mmin (t_hod t)) (fun ik im => d_dndm h im * 2 * cs_pairs (t_hod t) (d_m h im) * t_ukm t ik im) (mean_tracer_den h t) ik.
  Definition power_1h_ss (h : dmhm) (t : tracer) : res (R -> R) :=
    efun (tab (d_nk h) (d_k h)) (tab (d_nk h) (p1h_ss h t)) (lower_1h h) ExtPowerLaw true.
  Definition power_1h_cs (h : dmhm) (t : tracer) : res (R -> R) :=
    let p := tab (d_nk h) (p1h_cs h t) in
    efun (tab (d_nk h) (d_k h)) p (lower_1h h) (if forallb (fun v => Rltb 0 v) (py_last 10 p) then ExtPowerLaw else ExtCallable zero_ext) true.
  (** halo_model.py:1435-1440 *)
  Definition power_1h_tracer (h : dmhm) (t : tracer) : res (R -> R) :=
    bind (power_1h_cs h t) (fun a => bind (power_1h_ss h t) (fun b => Ok (sum_callable a b 0))).

  Definition rspline (h : dmhm) (table : nat -> R) : res (R -> R) :=
    efun (tab (d_nr h) (d_r h)) (tab (d_nr h) table) ExtPowerLaw (ExtCallable zero_ext) true.
  (** halo_model.py:1346-1367 *)
  Definition corr_1h_ss (h : dmhm) (t : tracer) : res (R -> R) :=
    match t_lam t with
    | Some lam => rspline h (fun ir => tint h t (fun im => lam ir im * d_dndm h im * ss_pairs (t_hod t) (d_m h im)) / mean_tracer_den h t ^ 2 - 1)
    | None => bind (power_1h_ss h t) (fun p => rspline h (fun ir => hankel ToR p (d_r h ir)))
    end.
  (** halo_model.py:1407-1425 *)
  Definition corr_1h_cs (h : dmhm) (t : tracer) : res (R -> R) :=
    rspline h (fun ir => tint h t (fun im => d_dndm h im * 2 * cs_pairs (t_hod t) (d_m h im) * t_rho t ir im) / mean_tracer_den h t ^ 2 - 1).
  (** halo_model.py:1447-1478; the fallback of 1473-1474, for an HOD class whose pair functions raise AttributeError, is not
      modelled (no class of hod.py does) *)
  Definition corr_1h_tracer (h : dmhm) (t : tracer) : res (R -> R) :=
    match t_lam t with
    | Some lam => rspline h (fun ir =>
        tint h t (fun im => d_dndm h im * (ss_pairs (t_hod t) (d_m h im) * lam ir im + 2 * cs_pairs (t_hod t) (d_m h im) * t_rho t ir im)
                              * (if h_central (t_hod t) then cen_int (t_hod t) (d_m h im) else 1)) / mean_tracer_den h t ^ 2)
    | None => bind (corr_1h_cs h t) (fun a => bind (corr_1h_ss h t) (fun b => Ok (sum_callable a b 1)))
    end.
  (** _tracer_exclusion, halo_model.py:1485-1507 *)
  Definition tracer_exclusion (h : dmhm) (t : tracer) : exclusion :=
    let dens im := d_dndm h im * tot_int (t_hod t) (d_m h im) / mean_tracer_den h t in
    mkExcl (d_nm h) (d_m h) dens (fun ik im => dens im * t_ukm t ik im) (the_bias h) (d_r h) (d_delta h * d_rho0 h) (tracer_mmin (t_hod t)).
  (** power_2h_auto_tracer_fnc without exclusion, halo_model.py:1509-1516 *)
  Definition power_2h_tracer_noexcl (h : dmhm) (t : tracer) : res (R -> R) :=
    let e := tracer_exclusion h t in
    power_2h_auto h e (noexcl_integrate (ius_of (d_nm h)) e) (fun _ => 1) (bias_effective_tracer h t) false.
  (** corr_auto_tracer_fnc, halo_model.py:1544-1547 *)
  Definition corr_tracer (xi2 : res (R -> R)) (h : dmhm) (t : tracer) : res (R -> R) :=
    bind (corr_1h_tracer h t) (fun a => bind xi2 (fun b => Ok (fun r => a r + b r))).

  (** *** tracer-matter cross, halo_model.py:1557-1662 *)
  Definition tcen (h : dmhm) (t : tracer) (ik im : nat) : R :=
    cen_int (t_hod t) (d_m h im) + satellite_occupation (t_hod t) (d_m h im) * t_ukm t ik im.
  (** halo_model.py:1563-1574 *)
  Definition p1h_tm (h : dmhm) (t : tracer) (ik : nat) : R :=
    tint h t (fun im => d_dndm h im * d_m h im * d_ukm h ik im * tcen h t ik im) / (mean_tracer_den h t * d_rho0 h).
  (** halo_model.py:1595-1616 *)
  Definition bt_tm (h : dmhm) (t : tracer) (ik : nat) : R := tint h t (fun im => d_dndm h im * d_bias h im * tcen h t ik im).
  Definition bm_tm (h : dmhm) (ik : nat) : R := mint h (fun im => d_dndm h im * d_bias h im * d_m h im * d_ukm h ik im) None.
  Definition p2h_tm (h : dmhm) (t : tracer) (ik : nat) : R :=
    bt_tm h t ik * bm_tm h ik * d_phc h (d_k h ik) / (mean_tracer_den h t * d_rho0 h).
  (** halo_model.py:1575, 1618-1623 *)
  Definition power_1h_tm (h : dmhm) (t : tracer) : res (R -> R) := efun (tab (d_nk h) (d_k h)) (tab (d_nk h) (p1h_tm h t)) ExtPowerLaw ExtPowerLaw true.
  Definition power_2h_tm (h : dmhm) (t : tracer) : res (R -> R) :=
    efun (tab (d_nk h) (d_k h)) (tab (d_nk h) (p2h_tm h t)) ExtPowerLaw (if filtered (d_hc h) then ExtCallable zero_ext else ExtPowerLaw) true.
  Definition to_corr (md : tmode) (h : dmhm) (p : res (R -> R)) : res (R -> R) := bind p (fun f => rspline h (fun ir => hankel md f (d_r h ir))).
  (** halo_model.py:1582-1588, 1630-1636, 1655-1662 *)
  Definition corr_tm (h : dmhm) (t : tracer) : res (R -> R) :=
    bind (to_corr ToR h (power_1h_tm h t)) (fun a => bind (to_corr ToR h (power_2h_tm h t)) (fun b => Ok (sum_callable a b 1))).

  (** *** total power spectra and the linear spectrum *)
  (** power_auto_matter_fnc, halo_model.py:859-862; [p2] is power_2h_auto_matter_fnc *)
  Definition power_matter (p2 : res (R -> R)) (h : dmhm) : res (R -> R) :=
    bind (power_1h_matter h) (fun a => bind p2 (fun b => Ok (sum_callable a b 0))).
  (** power_auto_tracer_fnc, halo_model.py:1535-1537; [p2] is power_2h_auto_tracer_fnc *)
  Definition power_tracer (p2 : res (R -> R)) (h : dmhm) (t : tracer) : res (R -> R) :=
    bind (power_1h_tracer h t) (fun a => bind p2 (fun b => Ok (fun k => a k + b k))).
  (** power_cross_tracer_matter_fnc, halo_model.py:1643-1648 *)
  Definition power_tm (h : dmhm) (t : tracer) : res (R -> R) :=
    bind (power_1h_tm h t) (fun a => bind (power_2h_tm h t) (fun b => Ok (sum_callable a b 0))).
  (** linear_power_fnc and nonlinear_power_fnc, halo_model.py:502-522: [p] is self.power or self.nonlinear_power, [ns] the
      spectral index; the domain is (0, inf) *)
  Definition linear_power_fnc (n : nat) (k p : nat -> R) (ns : R) : res (R -> R) :=
    match ext_spline_init spline uspline (tab n k) (tab n p) (ExtCallable (power_law_k ns)) ExtPowerLaw true true (Some 0) None 3 10 10 with
    | CtorOk s => Ok (call_scalar s)
    | CtorValueError => Raise ValueError
    | CtorAssertionError => Raise AssertionError
    end.
  (** corr_linear_mm_fnc and corr_halofit_mm_fnc, halo_model.py:524-549, for the spectrum [p] *)
  Definition corr_of_power (h : dmhm) (p : res (R -> R)) : res (R -> R) := to_corr ToR h p.
End HM.
