(** Which background the profiles of a halo model are built for: /repo/src/halomod/profiles.py:110-127 and
    /repo/src/halomod/halo_model.py:408-419, 700-716, 1143-1159, 1495-1510.

    A cosmology is a value of an arbitrary type.  A mass definition (hmf, external) is what Profile.__init__ uses of it: the overdensity with
    respect to the mean and the mean density, at a redshift in a cosmology. *)
From Coq Require Import Reals.
From Verif Require Import Model.Profiles Model.Exclusion.
Local Open Scope R_scope.

Section Background.
  Variable Cosmo : Type.
  Variable planck15 : Cosmo.
  Record massdef := mkMdef { md_delta : R -> Cosmo -> R; md_mean : R -> Cosmo -> R }.

  (** Profile.__init__, profiles.py:110-127; cosmo defaults to Planck15 *)
  Definition profile_init (cm : R -> R) (d : massdef) (z : R) (cosmo : option Cosmo) (nu : R -> R) (eta : R) : inst :=
    let cosmo := match cosmo with None => planck15 | Some c => c end in
    mkInst (md_delta d z cosmo) (md_mean d z cosmo) (md_mean d 0 cosmo) eta nu cm.

  (** what a halo model passes on: its mass definition, redshift, peak heights, concentration relations and bloating parameters of the matter and of
      the tracer profile; and its cosmology *)
  Record halomodel := mkHM { hm_mdef : massdef; hm_z : R; hm_cosmo : Cosmo; hm_nu : R -> R; hm_cm : R -> R; hm_eta : R; hm_tcm : R -> R; hm_teta : R }.
  (** DMHaloModel.halo_profile, halo_model.py:410-419: no cosmo argument *)
  Definition halo_profile_of (h : halomodel) : inst := profile_init (hm_cm h) (hm_mdef h) (hm_z h) None (hm_nu h) (hm_eta h).
  (** TracerHaloModel.tracer_profile, halo_model.py:1153-1159: no cosmo argument *)
  Definition tracer_profile_of (h : halomodel) : inst := profile_init (hm_tcm h) (hm_mdef h) (hm_z h) None (hm_nu h) (hm_teta h).
  (** halo_density of the exclusion, halo_model.py:711, 1504: halo_overdensity_mean * mean_density0 of the framework's own cosmology (hmf) *)
  Definition exclusion_density (h : halomodel) : R := md_delta (hm_mdef h) (hm_z h) (hm_cosmo h) * md_mean (hm_mdef h) 0 (hm_cosmo h).
End Background.
