(** Model of /repo/src/halomod/halo_model.py:1672-1715, TracerHaloModel._find_m_min, for HODs with a sharp cut and for the others.

    [n] is the number of masses selected by the clone's tracer mask (all of them in exact arithmetic, since the
    clone has M_min = Mmin), [nall] the length of c.m, [m] the selected masses, [g] the integrand
    m * dndm * total_occupation at them (with M_min = Mmin), [h] = log(c.m[1] / c.m[0]).
    [spl] is scipy's InterpolatedUnivariateSpline(x, y, k=3) called at one point; it raises ValueError for fewer
    than four points or abscissae that do not increase.  Logarithms of non-positive numbers (nan in numpy) are
    excluded by the hypotheses of the theorems. *)
From Coq Require Import Reals List Bool Arith.
From Verif Require Import Model.RBool Model.SpecialFn Model.Quad Model.Profiles Model.HOD.
Import ListNotations.
Local Open Scope R_scope.

Fixpoint increasing (l : list R) : bool :=
  match l with a :: ((b :: _) as t) => Rltb a b && increasing t | _ => true end.

Section Find.
  Variable spl : list R -> list R -> R -> R.
  Variables (n nall : nat) (h : R) (m g : nat -> R).

  (** a[::-1][j], halo_model.py:1688 *)
  Definition rev_at (f : nat -> R) (j : nat) : R := f (n - 1 - j)%nat.
  (** intg.cumtrapz(integrand[::-1], dx)[j], j < n - 1, halo_model.py:1688 *)
  Definition integral (j : nat) : R := cumulative_trapezoid h (rev_at g) (S j).
  (** halo_model.py:1695-1696: max(ind - 4, 0), and min(ind + 4, len(c.m)) clipped to the array by slicing *)
  Definition win_lo (ind : nat) : nat := (ind - 4)%nat.
  Definition win_hi (ind : nat) : nat := Nat.min (Nat.min (ind + 4) nall) (n - 1).
  Definition window (ind : nat) : list nat := seq (win_lo ind) (win_hi ind - win_lo ind).
  (** halo_model.py:1687-1699 *)
  Definition find_m_min_sharp (ng : R) : res R :=
    if (n <=? 1)%nat then Raise IndexError
    else if Rltb (integral (n - 2)) ng then Raise NGException
    else match find (fun j => Rltb ng (integral j)) (seq 0 (n - 1)) with
         | None => Raise IndexError
         | Some ind =>
             let x := map (fun j => ln (integral j)) (window ind) in
             let y := map (fun j => ln (m (n - 1 - (j + 1))%nat)) (window ind) in
             if (4 <=? List.length x)%nat && increasing x then Ok (spl x y (ln ng) / ln 10) else Raise ValueError
         end.
End Find.

(** the other HODs, halo_model.py:1700-1713 (scalar cosmology part fixed: only the HOD's M_min changes in [model]). *)
Section Smooth.
  (** the clone's masses, mass function and log spacing; the HOD as a function of its M_min (the other parameters fixed) *)
  Variables (n : nat) (h : R) (m dndm : nat -> R) (hd : R -> hod).
  (** scipy.optimize.minimize(f, x0, method="Nelder-Mead").x[0] *)
  Variable minimise : (R -> R) -> R -> R.
  (** c._tm for the clone with this M_min, halo_model.py:1063-1078 *)
  Definition tm_indices (M : R) : list nat := filter (fun i => Rleb (pow10 (h_mmin (hd M))) (m i)) (seq 0 n).
  (** intg.simpson(c.m[c._tm] * c.dndm[c._tm] * c.total_occupation[c._tm], dx), halo_model.py:1680, 1702, 1708-1709 *)
  Definition smooth_density (M : R) : R :=
    scipy_simpson (List.length (tm_indices M)) h (fun j => let i := nth j (tm_indices M) 0%nat in m i * dndm i * total_occupation (hd M) (m i)).
  Definition find_m_min_smooth (Mmin ng : R) : res R :=
    if Rltb (smooth_density Mmin) ng then Raise NGException
    else Ok (minimise (fun x => Rabs (smooth_density x - ng)) 12).
End Smooth.

(** _find_m_min, halo_model.py:1672-1715: the branch taken is the HOD class's sharp_cut flag.  [hd M] is the HOD with M_min = M and its other
    parameters unchanged; the clone's M_min is Mmin, so its mask keeps all masses (line 1678). *)
Definition find_m_min (spl : list R -> list R -> R -> R) (minimise : (R -> R) -> R -> R) (n nall : nat) (h : R) (m dndm : nat -> R) (hd : R -> hod) (Mmin ng : R) : res R :=
  if h_sharp (hd Mmin)
  then find_m_min_sharp spl n nall h m (fun i => m i * dndm i * total_occupation (hd Mmin) (m i)) ng
  else find_m_min_smooth n h m dndm hd minimise Mmin ng.
