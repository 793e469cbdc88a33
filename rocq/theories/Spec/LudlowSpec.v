(** The two equations of Ludlow et al. (2016) that the relation is documented to solve, written from the paper's description
    (docs and comments of /repo/src/halomod/concentration.py:520-605) and not from the code's intermediate quantities.
    [ludlow_env] only bundles the inputs: enclosed-mass function, overdensity, densities, growth factor, sigma^2. *)
From Coq Require Import Reals Lra.
From Coquelicot Require Import Coquelicot.
From Verif Require Import Model.Concentration.
Local Open Scope R_scope.

(** 400 candidates, equally spaced in log c from 1 to 100 *)
Definition candidate (c : R) : Prop := exists i : nat, (i < 400)%nat /\ c = Rpower 10 (2 * INR i / 399).
(** squared expansion rate in units of its present value, matter diluting as (1+z)^p (p = 3 physically) *)
Definition expansion (E : ludlow_env) (p z : R) : R := lu_Om0 E * Rpower (1 + z) p + lu_Ode0 E.
(** fraction of the halo's mass inside the radius where the density slope is -2 *)
Definition inner_fraction (E : ludlow_env) (c : R) : R := lu_h E 1 / lu_h E c.
(** a halo of concentration c formed at zf >= 0 when its mean inner density, in units of the critical density at z, is C times the
    critical density at zf.  The code's cube root is the power 0.33333, so matter at zf is diluted with the exponent 1/0.33333 *)
Definition formed_at (E : ludlow_env) (C z c zf : R) : Prop :=
  0 <= zf /\ lu_delta E z * c ^ 3 * inner_fraction E c * expansion E 3 z = C * expansion E (/ 0.33333) zf.
(** extended Press-Schechter: fraction of the mass already in progenitors heavier than f m at zf *)
Definition collapsed_fraction (E : ludlow_env) (f m z zf : R) : R :=
  let x := lu_delta_c E * (/ lu_growth E zf - / lu_growth E z) / sqrt (2 * (lu_sigma2 E (f * m) - lu_sigma2 E m)) in
  1 - 2 / sqrt PI * RInt (fun t => exp (- t ^ 2)) 0 x.
(** c is the concentration: between two candidates at which the inner fraction is below and above the collapsed fraction, or the
    smallest (largest) candidate with a formation redshift if it is above (below) at all of them *)
Definition between (a b x : R) : Prop := Rmin a b <= x <= Rmax a b.
Definition ludlow_solution (E : ludlow_env) (f C m z c : R) : Prop :=
  let below c' zf := inner_fraction E c' <= collapsed_fraction E f m z zf in
  let above c' zf := collapsed_fraction E f m z zf <= inner_fraction E c' in
  let cand c' zf := candidate c' /\ formed_at E C z c' zf in
  (exists c1 z1 c2 z2, cand c1 z1 /\ cand c2 z2 /\ below c1 z1 /\ above c2 z2 /\ between c1 c2 c) \/
  (exists zf, cand c zf) /\
    ((forall c' zf, cand c' zf -> ~ below c' zf /\ c <= c') \/ (forall c' zf, cand c' zf -> ~ above c' zf /\ c' <= c)).
