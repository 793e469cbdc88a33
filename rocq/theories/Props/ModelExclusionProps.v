(** The exclusion the halo model itself configures (C31).  Code under study: /repo/src/halomod/halo_model.py:697-713, 1485-1507, halo_exclusion.py:267-270, 301-470. *)
From Coq Require Import Reals List Bool Arith Lia Lra.
From Verif Require Import Model.RBool Model.Quad Model.ExtSpline Model.Exclusion Model.Profiles Model.HOD Model.HaloModel.
From Verif Require Import Spec.HMSpec Spec.ExclSpec Proofs.HMProofs Proofs.ExclusionProofs Props.HaloModelProps Props.ExclusionProps.
Import ListNotations.
Local Open Scope R_scope.

(** C31, for the exclusion objects the halo model builds for the matter and for a tracer: with the radius of a sphere of delta_halo times the mean density holding the mass of a halo,
    Sphere drops at separation r exactly the tabulated haloes of more than r/2, DblSphere exactly the pairs whose radii add up to more than r - the same haloes for matter and tracer *)
Theorem c31_model_exclusion : forall I h t ir im jm R1 R2, grid (d_nm h) (d_m h) -> (2 <= d_nm h)%nat -> 0 < d_delta h * d_rho0 h -> 0 < d_r h ir -> (im < d_nm h)%nat -> (jm < d_nm h)%nat ->
  sphere_radius (d_delta h * d_rho0 h) (d_m h im) R1 -> sphere_radius (d_delta h * d_rho0 h) (d_m h jm) R2 ->
  (sphere_mask (matter_exclusion h) ir im = true <-> R1 > d_r h ir / 2) /\ (sphere_mask (tracer_exclusion I h t) ir im = true <-> R1 > d_r h ir / 2) /\
  (dblsphere_mask (matter_exclusion h) ir im jm = true <-> R1 + R2 > d_r h ir) /\ (dblsphere_mask (tracer_exclusion I h t) ir im jm = true <-> R1 + R2 > d_r h ir).
Proof.
  intros I h t ir im jm R1 R2 G N D Hr Hi Hj H1 H2.
  assert (OK : forall e, e_nm e = d_nm h -> e_m e = d_m h -> e_hd e = d_delta h * d_rho0 h -> excl_ok e).
  { intros e A B C. unfold excl_ok. rewrite A, B, C. destruct G as (_ & G1 & G2). split; [auto|]. split; [auto|]. split; [apply G1; lia|]. intros i j L M. apply G2; lia. }
  assert (K1 : excl_ok (matter_exclusion h)) by (apply OK; reflexivity). assert (K2 : excl_ok (tracer_exclusion I h t)) by (apply OK; reflexivity).
  split; [|split; [|split]].
  - apply (sphere_cut_is_radius_cut (matter_exclusion h)); auto.
  - apply (sphere_cut_is_radius_cut (tracer_exclusion I h t)); auto.
  - apply (dblsphere_cut_is_pair_cut (matter_exclusion h)); auto.
  - apply (dblsphere_cut_is_pair_cut (tracer_exclusion I h t)); auto.
Qed.
Print Assumptions c31_model_exclusion.
(** a concrete case: two haloes of radius 1 and 2 *)
Example c31_model_met : sphere_radius (200 * 10) (4 / 3 * PI * 2000) 1 /\ sphere_radius (200 * 10) (4 / 3 * PI * 16000) 2.
Proof. split; split; try lra; field. Qed.
