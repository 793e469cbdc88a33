(** Model of Leauthaud11, /repo/src/halomod/hod.py:678-920: the one HOD whose
    methods write to [self.params].  Methods are state transformers
    [obj -> obj * R]; masses are handled element by element. *)
From Coq Require Import Reals Bool List.
From Coquelicot Require Import Coquelicot.
From Verif Require Import Model.RBool Model.SpecialFn.
Import ListNotations.
Local Open Scope R_scope.

Record leau_params := mkLeau {
  l_redshift : R; l_sm_thresh : R;
  l_m0_0 : R; l_m0_a : R; l_m1_0 : R; l_m1_a : R; l_beta_0 : R; l_beta_a : R;
  l_delta_0 : R; l_delta_a : R; l_gamma_0 : R; l_gamma_a : R;
  l_sig_logmstar : R; l_alphasat : R; l_betasat : R; l_bsat : R; l_betacut : R; l_bcut : R;
  l_Mmin : R }.

Definition set_Mmin (p : leau_params) (v : R) : leau_params :=
  mkLeau (l_redshift p) (l_sm_thresh p) (l_m0_0 p) (l_m0_a p) (l_m1_0 p) (l_m1_a p)
    (l_beta_0 p) (l_beta_a p) (l_delta_0 p) (l_delta_a p) (l_gamma_0 p) (l_gamma_a p)
    (l_sig_logmstar p) (l_alphasat p) (l_betasat p) (l_bsat p) (l_betacut p) (l_bcut p) v.

(** [self.params], [self._msat], [self._mcut], [self._central] *)
Record leau_obj := mkObj { lo_params : leau_params; lo_msat : option R; lo_mcut : option R; lo_central : bool }.

(** hod.py:854-889, mean_log_halo_mass *)
Definition evolve (p0 pa z : R) : R := p0 + pa * (1 / (1 + z) - 1).
Definition mean_log_halo_mass (p : leau_params) (log_stellar_mass : R) : R :=
  let z := l_redshift p in
  let m0 := pow10 (evolve (l_m0_0 p) (l_m0_a p) z) in
  let s := pow10 log_stellar_mass / m0 in
  evolve (l_m1_0 p) (l_m1_a p) z
  + evolve (l_beta_0 p) (l_beta_a p) z * log10 s
  + Rpower s (evolve (l_delta_0 p) (l_delta_a p) z)
    / (1 + Rpower s (- evolve (l_gamma_0 p) (l_gamma_a p) z))
  - 0.5.

Section Interp.
  (** scipy.interpolate.interp1d(x, y, kind="cubic", fill_value="extrapolate"):
      an arbitrary function of the table and the point *)
  Variable interp1d : list R -> list R -> R -> R.

  (** np.linspace(0, 14, 1000) *)
  Definition log_sm_table : list R := map (fun i => INR i * 14 / 999) (seq 0 1000).

  (** hod.py:891-920 *)
  Definition mean_log_stellar_mass (p : leau_params) (m : R) : R :=
    interp1d (map (mean_log_halo_mass p) log_sm_table) log_sm_table (log10 m).

  (** hod.py:835-836 *)
  Definition update_M_min (o : leau_obj) : leau_obj :=
    mkObj (set_Mmin (lo_params o) (mean_log_halo_mass (lo_params o) (l_sm_thresh (lo_params o))))
      (lo_msat o) (lo_mcut o) (lo_central o).

  Definition knee_mass : R := 10 ^ 12 * 0.72.
  (** hod.py:838-852 *)
  Definition leau_msat (p : leau_params) : R :=
    knee_mass * l_bsat p * Rpower (pow10 (mean_log_halo_mass p (l_sm_thresh p)) / knee_mass) (l_betasat p).
  Definition leau_mcut (p : leau_params) : R :=
    knee_mass * l_bcut p * Rpower (pow10 (mean_log_halo_mass p (l_sm_thresh p)) / knee_mass) (l_betacut p).
  Definition update_satellite_params (o : leau_obj) : leau_obj :=
    mkObj (lo_params o) (Some (leau_msat (lo_params o))) (Some (leau_mcut (lo_params o))) (lo_central o).

  (** hod.py:777-804 *)
  Definition leau_co (o : leau_obj) (m : R) : leau_obj * R :=
    let o := update_M_min o in
    let p := lo_params o in
    (o, 0.5 * (1 - erf ((l_sm_thresh p - mean_log_stellar_mass p m) / (sqrt 2 * l_sig_logmstar p)))).

  (** hod.py:806-833; reading an unset attribute cannot happen here because
      [update_satellite_params] has just set both *)
  Definition leau_so (o : leau_obj) (m : R) : leau_obj * R :=
    let o := update_satellite_params (update_M_min o) in
    let mcut := match lo_mcut o with Some v => v | None => 0 end in
    let msat := match lo_msat o with Some v => v | None => 0 end in
    let v := exp (- mcut / m) * Rpower (m / msat) (l_alphasat (lo_params o)) in
    let '(o, c) := leau_co o m in
    (o, v * c).

  (** the public methods of the HODPoisson interface, hod.py:158-175, 233-258 *)
  Inductive leau_op := QCentral (m : R) | QSat (m : R) | QTotal (m : R) | QNc (m : R) | QNs (m : R)
    | QSS (m : R) | QCS (m : R) | QMmin.

  Definition leau_sat (o : leau_obj) (m : R) : leau_obj * R :=
    if lo_central o then
      let '(o, n) := leau_co o m in let '(o, s) := leau_so o m in (o, n / 1 * s)
    else leau_so o m.

  Definition leau_run (o : leau_obj) (q : leau_op) : leau_obj * R :=
    match q with
    | QCentral m => leau_co o m
    | QNc m => let '(o, v) := leau_co o m in (o, v / 1)
    | QSat m => leau_sat o m
    | QNs m => let '(o, v) := leau_sat o m in (o, v / 1)
    | QTotal m => let '(o, c) := leau_co o m in let '(o, s) := leau_sat o m in (o, c + s)
    | QSS m => let '(o, s) := leau_sat o m in (o, s ^ 2)
    | QCS m => if lo_central o then let '(o, s) := leau_sat o m in (o, s * 1)
               else let '(o, c) := leau_co o m in let '(o, s) := leau_sat o m in (o, c * s)
    | QMmin => (o, l_Mmin (lo_params o))
    end.

  Fixpoint leau_history (o : leau_obj) (qs : list leau_op) : leau_obj :=
    match qs with [] => o | q :: rest => leau_history (fst (leau_run o q)) rest end.
End Interp.
