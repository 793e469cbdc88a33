(** What power_to_corr_ogata samples, sums and warns about. *)
From Coq Require Import Reals List.
From Coquelicot Require Import Coquelicot.
From Verif Require Import Model.RBool Model.Hankel Model.Ogata2 Spec.HankelSpec.
Import ListNotations.
Local Open Scope R_scope.

(** the wave number at which the n-th term samples the spectrum for the separation [r] *)
Definition abscissa (h : R) (n : nat) (r : R) : R := PI * INR n * tanh (PI / 2 * sinh (h * INR n)) / r.
(** Ogata's double-exponential substitution, and the weight of the n-th term: that of the integral of x sin x p(x/r) *)
Definition psi (t : R) : R := t * tanh (PI / 2 * sinh t).
Definition weight (h : R) (n : nat) : R :=
  PI * sin (abscissa h n 1) * abscissa h n 1 * Derive psi (h * INR n).
(** [N] terms are summed: the largest number with [N h <= 3.2] *)
Definition terms (h : R) (N : nat) : Prop := INR N * h <= 32 / 10 < (INR N + 1) * h.
(** the line through two points *)
Definition two_point (x0 y0 x1 y1 x : R) : R := y0 + (y1 - y0) / (x1 - x0) * (x - x0).
(** the sample: the spline inside the table; outside it the line through the two end points, in (ln k, ln p) if the flag of
    that end is set and in (ln k, p) otherwise *)
Definition sample (spline3 : list R -> list R -> R -> R) (pp : bool * bool) (k p : list R) (u : R) : R :=
  let lk := map ln k in let n := length p in
  let line (logs : bool) i j :=
    if logs then exp (two_point (nth i lk 0) (ln (nth i p 0)) (nth j lk 0) (ln (nth j p 0)) (ln u))
    else two_point (nth i lk 0) (nth i p 0) (nth j lk 0) (nth j p 0) (ln u) in
  if Rlt_dec (ln u) (lmin lk) then line (fst pp) 0%nat 1%nat
  else if Rlt_dec (lmax lk) (ln u) then line (snd pp) (n - 1)%nat (n - 2)%nat
  else spline3 lk p (ln u).
Definition ogata_sum (spline3 : list R -> list R -> R -> R) (pp : bool * bool) (k p : list R) (h r : R) (n : nat) : R :=
  partial_sum (fun j => weight h j * sample spline3 pp k p (abscissa h j r)) n.

(** [j] is the first of the [N] terms that samples beyond the table *)
Definition first_beyond (N : nat) (h : R) (k : list R) (r : R) (j : nat) : Prop :=
  (1 <= j <= N)%nat /\ lmax k < abscissa h j r /\ forall q, (1 <= q < j)%nat -> abscissa h q r <= lmax k.
(** [sums] is close to its previous value at [j]; the first sum is compared with the whole sum *)
Definition settled (atol rtol : R) (nmax : nat) (sums : nat -> R) (j : nat) : Prop :=
  close atol rtol (sums j) (if Nat.eqb j 1 then sums nmax else sums (j - 1)%nat).

(** the separations given a warning of kind [w] *)
Definition is_kind (w v : warning) : bool :=
  match w, v with ExtrapolatedBelow, ExtrapolatedBelow | ExtrapolatedAbove, ExtrapolatedAbove | NotConverged, NotConverged => true | _, _ => false end.
Definition warned (ws : list (warning * R)) (w : warning) : list R := map snd (filter (fun q => is_kind w (fst q)) ws).
(** the warnings [l] name the first element of [r] with the property, if there is one, and nothing else *)
Definition names_first (Q : nat -> R -> Prop) (r l : list R) : Prop :=
  (l = [] /\ forall i, (i < length r)%nat -> ~ Q i (nth i r 0)) \/
  (exists i, (i < length r)%nat /\ l = [nth i r 0] /\ Q i (nth i r 0) /\ forall j, (j < i)%nat -> ~ Q j (nth j r 0)).
