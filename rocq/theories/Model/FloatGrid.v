(** np.arange in double precision, as used for the exponents of k_hm and _r_table (/repo/src/halomod/halo_model.py:336-339, 351-357) - and
    for every grid given by its ends and its step.

    numpy computes the number of points as ceil((stop - start)/step), in doubles (_calc_length in numpy's ctors.c), stores start and
    start + step, and fills the rest as start + i*delta with delta = (start + step) - start (DOUBLE_fill in arraytypes.c.src).  The exact-real
    counterpart is [Grids.arange].  The power 10 ** of the exponents is not modelled here. *)
From Coq Require Import Reals ZArith List.
From Flocq Require Import Core.
From Verif Require Import Model.Float64.
Import ListNotations.
Local Open Scope R_scope.

Definition float_arange_len (start stop step : R) : nat := Z.to_nat (Zceil (rnd (rnd (stop - start) / step))).
Definition float_arange_delta (start step : R) : R := rnd (rnd (start + step) - start).
Definition float_arange_at (start step : R) (i : nat) : R :=
  match i with
  | O => start
  | S O => rnd (start + step)
  | _ => rnd (start + rnd (INR i * float_arange_delta start step))
  end.
Definition float_arange (start stop step : R) : list R := map (float_arange_at start step) (seq 0 (float_arange_len start stop step)).
