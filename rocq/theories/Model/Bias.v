(** Model of /repo/src/halomod/bias.py.  A bias model is modelled at one peak
    height nu = (delta_c/sigma)^2 (or mass); numpy broadcasts element-wise. *)
From Coq Require Import Reals Bool String List.
From Verif Require Import Model.RBool Model.SpecialFn Model.Profiles.
Import ListNotations.
Local Open Scope R_scope.

(** UnityBias, bias.py:180-181 *)
Definition unity_bias (nu : R) : R := 1.
(** Mo96, bias.py:207-208 *)
Definition mo96 (delta_c nu : R) : R := 1 + (nu - 1) / delta_c.
(** Jing98, bias.py:240-246 *)
Definition jing98 (a b c n_eff delta_c nu : R) : R := Rpower (a / nu ^ 2 + 1) (b - c * n_eff) * (1 + (nu - 1) / delta_c).
(** ST99, bias.py:280-285; Mandelbaum05 and Manera10 only change the default q, p *)
Definition st99 (q p delta_c nu : R) : R := 1 + (q * nu - 1) / delta_c + 2 * p / delta_c / (1 + Rpower (q * nu) p).
(** SMT01, bias.py:323-333; Tinker05 only changes the default a, b, c *)
Definition smt01 (a b c delta_c nu : R) : R :=
  let sa := sqrt a in
  1 + (sa * (a * nu) + sa * b * Rpower (a * nu) (1 - c)
       - Rpower (a * nu) c / (Rpower (a * nu) c + b * (1 - c) * (1 - c / 2))) / (delta_c * sa).
(** Seljak04, bias.py:374-383, in terms of x = m/mstar *)
Definition seljak04 (a b c d e f g x : R) : R := a + b * Rpower x c + d / (e * x + 1) + f * Rpower x g.
(** Seljak04Cosmo, bias.py:432-440, for an array of masses; [base] is the inherited bias *)
Definition seljak04cosmo (base a1 a2 Om0 n sigma_8 h x : R) : R :=
  let lx := log10 x in
  let lx := if Rltb lx (-1) then -1 else lx in
  base + lx * (a1 * (Om0 - 0.3 + n - 1) + a2 * (sigma_8 - 0.9 + h - 0.7)).
(** Pillepich10, bias.py:518-523 *)
Definition pillepich10 (B0 B1 B2 nu : R) : R := B0 + B1 * sqrt nu + B2 * nu.
(** Tinker10, bias.py:605-614 *)
Definition tinker10 (B b c delta_halo delta_c nu2 : R) : R :=
  let y := log10 delta_halo in
  let A := 1 + 0.24 * y * exp (- (4 / y) ^ 4) in
  let a := 0.44 * y - 0.88 in
  let C := 0.019 + 0.107 * y + 0.19 * exp (- (4 / y) ^ 4) in
  let nu := sqrt nu2 in
  1 - A * Rpower nu a / (Rpower nu a + Rpower delta_c a) + B * Rpower nu b + C * Rpower nu c.

(** Tinker10PBSplit, bias.py:658-749.  [tab name d] is the parameter
    "name_d" of the table, [spl] the interpolating spline through the nine
    tabulated values. *)
Definition delta_virs : list R := [200; 300; 400; 600; 800; 1200; 1600; 2400; 3200].
Definition in_table (d : R) : bool := existsb (Reqb d) delta_virs.
Record pbparams := mkPB { p_tab : string -> R -> R; beta_exp : R; phi_exp : R; eta_exp : R; gamma_exp : R; max_z : R }.
Section PBSplit.
  Variables (spl : list R -> list R -> R -> R) (P : pbparams).
  Definition param0 (name : string) (delta_halo : R) : R :=
    if in_table delta_halo then p_tab P name delta_halo else spl delta_virs (map (p_tab P name) delta_virs) delta_halo.
  Definition zfactor (z e : R) : R := Rpower (1 + Rmin z (max_z P)) e.
  Definition pb_form (beta gamma phi eta delta_c nu : R) : R :=
    1 + (gamma * nu - (1 + 2 * eta)) / delta_c + 2 * phi / delta_c / (1 + Rpower (beta ^ 2 * nu) phi).
  Definition tinker10pb (delta_halo delta_c z nu : R) : R :=
    let beta := param0 "beta" delta_halo * zfactor z (beta_exp P) in
    let phi := param0 "phi" delta_halo * zfactor z (phi_exp P) in
    let eta := param0 "eta" delta_halo * zfactor z (eta_exp P) in
    let gamma := param0 "gamma" delta_halo * zfactor z (gamma_exp P) in
    pb_form beta gamma phi eta delta_c nu.
  (** DMHaloModel.bias, halo_model.py:369-383: the bias model is constructed
      without its [z] argument, whose default is 0.0 (bias.py:132) *)
  Definition framework_tinker10pb (delta_halo delta_c z nu : R) : R := tinker10pb delta_halo delta_c 0 nu.
End PBSplit.

(** TinkerSD05.bias_scale, bias.py:794-799 *)
Definition tinkersd05 (a b c d xi : R) : R := sqrt (Rpower (1 + a * xi) b / Rpower (1 + c * xi) d).
