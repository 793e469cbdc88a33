(** Model of /repo/src/halomod/hod.py:77-675 (all models but Leauthaud11, for
    which see HODLeauthaud.v).

    Every occupation method maps over the mass array element by element, so a
    method is modelled as a function of one halo mass.  Parameters are the
    entries of [self.params] (log10 masses stay log10 masses). *)
From Coq Require Import Reals Bool.
From Coquelicot Require Import Coquelicot.
From Verif Require Import Model.RBool Model.SpecialFn.
Local Open Scope R_scope.

(** Which abstract base class: HODPoisson (223-267), HODBulk (211-220) over
    HODNoCentral (187-208). *)
Inductive hod_kind := Poisson | Bulk.

Record hod : Type := mkHod {
  h_kind : hod_kind;
  h_flag : bool;           (* constructor argument central *)
  h_inherent : bool;       (* central_condition_inherent *)
  h_sharp : bool;          (* sharp_cut *)
  h_co : R -> R;           (* _central_occupation *)
  h_so : R -> R;           (* _satellite_occupation *)
  h_tpc : R -> R;          (* _tracer_per_central *)
  h_tps : R -> R;          (* _tracer_per_satellite *)
  h_sigc : option (R -> R); (* overridden sigma_central *)
  h_sigs : option (R -> R); (* overridden sigma_satellite *)
  h_mmin : R }.            (* mmin *)

(** hod.py:112 and HODNoCentral.__init__ 190-192 *)
Definition h_central (h : hod) : bool :=
  match h_kind h with Poisson => h_flag h | Bulk => false end.

(** hod.py:158-160; HODNoCentral._central_occupation returns 0 *)
Definition central_occupation (h : hod) (m : R) : R :=
  match h_kind h with Poisson => h_co h m | Bulk => 0 end.

(** hod.py:233-235, 194-196 *)
Definition nc (h : hod) (m : R) : R :=
  match h_kind h with Poisson => central_occupation h m / h_tpc h m | Bulk => 0 end.

(** hod.py:162-167 *)
Definition satellite_occupation (h : hod) (m : R) : R :=
  if h_central h && negb (h_inherent h) then nc h m * h_so h m else h_so h m.

(** hod.py:237-239, 214-216 *)
Definition ns (h : hod) (m : R) : R :=
  match h_kind h with Poisson => satellite_occupation h m / h_tps h m | Bulk => 0 end.

(** hod.py:169-171 *)
Definition total_occupation (h : hod) (m : R) : R := central_occupation h m + satellite_occupation h m.

(** hod.py:249-251, 218-220 *)
Definition ss_pairs (h : hod) (m : R) : R := satellite_occupation h m ^ 2.

(** hod.py:253-258, 198-200 *)
Definition cs_pairs (h : hod) (m : R) : R :=
  match h_kind h with
  | Poisson => if h_central h then satellite_occupation h m * h_tpc h m
               else central_occupation h m * satellite_occupation h m
  | Bulk => 0
  end.

(** hod.py:173-175 *)
Definition total_pair_function (h : hod) (m : R) : R := ss_pairs h m + cs_pairs h m.

(** hod.py:260-263, 206-208 *)
Definition sigma_central (h : hod) (m : R) : R :=
  match h_kind h, h_sigc h with
  | Bulk, _ => 0
  | Poisson, Some s => s m
  | Poisson, None => let co := central_occupation h m in sqrt (co * (1 - co))
  end.
(** hod.py:265-267 *)
Definition sigma_satellite (h : hod) (m : R) : R :=
  match h_sigs h with Some s => s m | None => sqrt (satellite_occupation h m) end.

Definition one (_ : R) : R := 1.
Definition poisson_hod (central inherent sharp : bool) (co so tpc : R -> R) (mmin : R) : hod :=
  mkHod Poisson central inherent sharp co so tpc tpc None None mmin.

(** Zehavi05, hod.py:270-302 *)
Definition zehavi_co (Mmin m : R) : R := if Rltb m (pow10 Mmin) then 0 else 1.
Definition zehavi_so (M1 alpha m : R) : R := Rpower (m / pow10 M1) alpha.
Definition Zehavi05 (central : bool) (Mmin M1 alpha : R) : hod :=
  poisson_hod central false true (zehavi_co Mmin) (zehavi_so M1 alpha) one Mmin.

(** Zheng05, hod.py:305-353 *)
Definition zheng_co (Mmin sig m : R) : R := 0.5 * (1 + erf ((log10 m - Mmin) / sig)).
Definition zheng_so (M1 alpha M0 m : R) : R :=
  if Rltb (pow10 M0) m then Rpower ((m - pow10 M0) / pow10 M1) alpha else 0.
Definition Zheng05 (central : bool) (Mmin M1 alpha M0 sig : R) : hod :=
  poisson_hod central false false (zheng_co Mmin sig) (zheng_so M1 alpha M0) one (Mmin - 5 * sig).

(** Contreras13, hod.py:356-423, and Geach12 (426-437), which inherits
    everything - including a free x *)
Definition contreras_co (Mmin sig fca fcb x m : R) : R :=
  fcb * (1 - fca) * exp (- (log10 (m / pow10 Mmin) ^ 2) / (2 * (x * sig) ^ 2))
  + fca * (1 + erf (log10 (m / pow10 Mmin) / x / sig)).
Definition contreras_so (M1 alpha fs delta m : R) : R :=
  fs * (1 + erf (log10 (m / pow10 M1) / delta)) * Rpower (m / pow10 M1) alpha.
Definition Contreras13 (central : bool) (Mmin M1 alpha M0 sig fca fcb fs delta x : R) : hod :=
  poisson_hod central false false (contreras_co Mmin sig fca fcb x) (contreras_so M1 alpha fs delta) one Mmin.
Definition Geach12 := Contreras13.

(** Tinker05, hod.py:440-465.  At m = 10**M_min numpy divides by zero and
    exp(-inf) = 0.  Below it the exponent is positive; where exp overflows numpy
    computes 0 * inf = nan, see [tinker_so_float] in HODFloat.v; this real-valued
    version ignores overflow. *)
Definition tinker_so (Mmin M1 Mcut m : R) : R :=
  let out := zehavi_co Mmin m in
  let ex := if Reqb m (pow10 Mmin) then 0 else exp (- pow10 Mcut / (m - pow10 Mmin)) in
  out * ex * (m / pow10 M1).
Definition Tinker05 (central : bool) (Mmin M1 Mcut : R) : hod :=
  poisson_hod central true true (zehavi_co Mmin) (tinker_so Mmin M1 Mcut) one Mmin.

(** Zehavi05WithMax, hod.py:468-487 *)
Definition withmax_co (Mmin Mmax m : R) : R :=
  if Rleb (pow10 Mmin) m && Rleb m (pow10 Mmax) then 1 else 0.
Definition Zehavi05WithMax (central : bool) (Mmin M1 alpha Mmax : R) : hod :=
  poisson_hod central false true (withmax_co Mmin Mmax) (zehavi_so M1 alpha) one Mmin.

(** Zehavi05Marked, hod.py:490-520 *)
Definition marked_tpc (logA : R) : R -> R := fun _ => pow10 logA.
Definition Zehavi05Marked (central : bool) (Mmin M1 logA alpha Mmax : R) : hod :=
  mkHod Poisson central false true
    (fun m => withmax_co Mmin Mmax m * marked_tpc logA m)
    (fun m => zehavi_so M1 alpha m * marked_tpc logA m)
    (marked_tpc logA) (marked_tpc logA)
    (Some (fun m => sqrt (marked_tpc logA m * withmax_co Mmin Mmax m * (1 - withmax_co Mmin Mmax m))))
    None Mmin.

(** ContinuousPowerLaw, hod.py:523-555 *)
Definition cpl_so (Mmin M1 logA alpha Mmax m : R) : R :=
  if Rleb (pow10 Mmin) m && Rleb m (pow10 Mmax)
  then pow10 logA * (Rpower (m / pow10 M1) alpha + 1) else 0.
Definition ContinuousPowerLaw (central : bool) (Mmin M1 logA alpha Mmax sigmaA : R) : hod :=
  mkHod Bulk central false true (fun _ => 0) (cpl_so Mmin M1 logA alpha Mmax) one one None
    (Some (fun _ => 1 * sigmaA)) Mmin.

(** Constant, hod.py:558-569 *)
Definition constant_so (logA Mmin m : R) : R := if Rltb (pow10 Mmin) m then pow10 logA else 0.
Definition ConstantHOD (central : bool) (logA Mmin sigmaA : R) : hod :=
  mkHod Bulk central false false (fun _ => 0) (constant_so logA Mmin) one one None
    (Some (fun _ => 1 * sigmaA)) Mmin.

(** Spinelli19, hod.py:572-675; the parameters eta, a, b, M_max, sigma_A are
    never read.  [10**11] in the satellite occupation is a literal. *)
Record spinelli_params := mkSpin {
  sp_a1 : R; sp_a2 : R; sp_alpha : R; sp_beta : R; sp_Mmin : R; sp_Mbreak : R; sp_M1 : R;
  sp_M0 : R; sp_Mbreak_sat : R; sp_alpha_sat : R; sp_beta_sat : R;
  sp_M1_counts : R; sp_alpha_counts : R; sp_Mmin_counts : R; sp_Mmax_counts : R }.
Definition spinelli_co (p : spinelli_params) (m : R) : R :=
  m * (sp_a1 p * Rpower (m / 10 ^ 10) (sp_beta p) * exp (- Rpower (m / pow10 (sp_Mbreak p)) (sp_alpha p)) + sp_a2 p)
    * exp (- Rpower (pow10 (sp_M1 p) / m) 0.5).
Definition spinelli_so (p : spinelli_params) (m : R) : R :=
  let m1 := pow10 (sp_Mbreak_sat p) in
  pow10 (sp_M0 p) * Rpower (m / m1) (sp_beta_sat p) * exp (- Rpower (m1 / m) (sp_alpha_sat p))
    * b2R (Rleb (10 ^ 11) m).
Definition spinelli_in (p : spinelli_params) (m : R) : bool :=
  Rleb (pow10 (sp_Mmin_counts p)) m && Rleb m (pow10 (sp_Mmax_counts p)).
Definition spinelli_tpc (p : spinelli_params) (m : R) : R := if spinelli_in p m then 1 else 0.
Definition spinelli_tps (p : spinelli_params) (m : R) : R :=
  if spinelli_in p m then Rpower (m / pow10 (sp_M1_counts p)) (sp_alpha_counts p) else 0.
Definition Spinelli19 (central : bool) (p : spinelli_params) : hod :=
  mkHod Poisson central false false (spinelli_co p) (spinelli_so p) (spinelli_tpc p) (spinelli_tps p)
    None None (sp_Mmin p).
