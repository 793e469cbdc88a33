(** Model of the halo-exclusion models, /repo/src/halomod/halo_exclusion.py:138-660.

    Arrays over mass, scale and wavenumber are functions of their indices (only
    the indices below the lengths matter).  [ius x y a b] stands for scipy's
    [InterpolatedUnivariateSpline(x, y).integral(a, b)] and is an arbitrary
    function in the definitions.  The first argument of [ius] is the list of
    knots as an index function. *)
From Coq Require Import Reals List Bool Arith.
From Verif Require Import Model.RBool Model.Quad.
Import ListNotations.
Local Open Scope R_scope.

(** 1D bias b(m), or 2D (scale dependent) bias b(r, m) *)
Inductive bias_arr : Type :=
| Bias1 (b : nat -> R)
| Bias2 (b : nat -> nat -> R).

(** constructor arguments, halo_exclusion.py:179-195 *)
Record exclusion : Type := mkExcl {
  e_nm : nat;                    (* len(m) *)
  e_m : nat -> R;
  e_density : nat -> R;
  e_power : nat -> nat -> R;     (* power_integrand, (k, m) *)
  e_bias : bias_arr;
  e_r : nat -> R;
  e_hd : R;                      (* halo_density *)
  e_xmin_arg : option R }.

(** halo_exclusion.py:196 *)
Definition e_dlnx (e : exclusion) : R := ln (e_m e 1%nat / e_m e 0%nat).
(** halo_exclusion.py:198 *)
Definition e_xmin (e : exclusion) : option R :=
  match e_xmin_arg e with
  | Some x => if Rltb (e_m e 0%nat) x then Some x else None
  | None => None
  end.

(** halo_exclusion.py:200-209 *)
Definition raw_integrand (e : exclusion) (ir ik im : nat) : R :=
  match e_bias e with
  | Bias1 b => 1 * (e_power e ik im * b im * e_m e im)
  | Bias2 b => e_power e ik im * e_m e im * b ir im
  end.

Definition ius_t : Type := (nat -> R) -> (nat -> R) -> R -> R -> R.

(** halo_exclusion.py:211-239 *)
Definition spline_integrate (ius : ius_t) (e : exclusion) (arr : nat -> R) : R :=
  match e_xmin e with
  | None => scipy_simpson (e_nm e) (e_dlnx e) arr
  | Some x => ius (fun i => ln (e_m e i)) arr (ln x) (ln (e_m e (e_nm e - 1)%nat))
  end.

(** halo_exclusion.py:267-270 *)
Definition r_halo (e : exclusion) (i : nat) : R :=
  Rpower (3 * e_m e i / (4 * PI * e_hd e)) (1 / 3).

(** halo_exclusion.py:276-298; the 1D branch returns shape (1, k), which
    broadcasts over r *)
Definition noexcl_integrate (ius : ius_t) (e : exclusion) (ir ik : nat) : R :=
  match e_bias e with
  | Bias1 b => (spline_integrate ius e (fun im => e_power e ik im * b im * e_m e im)) ^ 2
  | Bias2 _ => (spline_integrate ius e (raw_integrand e ir ik)) ^ 2
  end.

(** halo_exclusion.py:330-333 *)
Definition mlim (e : exclusion) (r : R) : R := 4 * PI * (r / 2) ^ 3 * e_hd e / 3.
(** halo_exclusion.py:325-328 *)
Definition sphere_mask (e : exclusion) (ir im : nat) : bool := Rltb (mlim e (e_r e ir)) (e_m e im).
(** [arr[mask] = 0] *)
Definition zero_where (mask : nat -> bool) (arr : nat -> R) : nat -> R :=
  fun i => if mask i then 0 else arr i.
(** halo_exclusion.py:312-323 *)
Definition sphere_density_mod (ius : ius_t) (e : exclusion) (ir : nat) : R :=
  spline_integrate ius e (zero_where (sphere_mask e ir) (fun im => 1 * (e_density e im * e_m e im))).
(** halo_exclusion.py:335-346 *)
Definition sphere_integrate (ius : ius_t) (e : exclusion) (ir ik : nat) : R :=
  (spline_integrate ius e (zero_where (sphere_mask e ir) (raw_integrand e ir ik))) ^ 2.

(** halo_exclusion.py:360-364 *)
Definition dblsphere_mask (e : exclusion) (ir im jm : nat) : bool :=
  Rltb (e_r e ir) (r_halo e im + r_halo e jm).
(** halo_exclusion.py:366-375 *)
Definition dblsphere_density_mod (ius : ius_t) (e : exclusion) (ir : nat) : R :=
  sqrt (spline_integrate ius e (fun im =>
    spline_integrate ius e (zero_where (dblsphere_mask e ir im)
      (fun jm => (e_density e im * e_m e im) * (e_density e jm * e_m e jm))))).
(** halo_exclusion.py:377-430: inner integral always Simpson over the whole
    grid, outer integral from xmin when it is set *)
Definition dblsphere_integrate (ius : ius_t) (e : exclusion) (ir ik : nat) : R :=
  spline_integrate ius e (fun im =>
    scipy_simpson (e_nm e) (e_dlnx e) (zero_where (dblsphere_mask e ir im)
      (fun jm => raw_integrand e ir ik im * raw_integrand e ir ik jm))).

(** one pass of the two innermost loops of halo_exclusion.py:447-452 and
    559-562: entries on and above the diagonal are assigned, the others keep
    the content of the buffer *)
Definition fill_upper (n : nat) (g buf : mat) : mat :=
  fun i j => if (i <? n)%nat && (j <? n)%nat && (i <=? j)%nat then g i j else buf i j.
(** halo_exclusion.py:436-454: [integrand] is one buffer reused by every
    (ir, ik); [todo] is the list of (ir, ik) in loop order *)
Fixpoint dblsphere_numba_loop (e : exclusion) (todo : list (nat * nat)) (buf : mat)
  : list (nat * nat * R) :=
  match todo with
  | [] => []
  | (ir, ik) :: rest =>
      let buf' := fill_upper (e_nm e)
        (fun im jm => if dblsphere_mask e ir im jm then 0
                      else raw_integrand e ir ik im * raw_integrand e ir ik jm) buf in
      ((ir, ik), dblsimps_ (e_nm e) (e_nm e) buf' (e_dlnx e) (e_dlnx e))
        :: dblsphere_numba_loop e rest buf'
  end.
Definition loop_order (nr nk : nat) : list (nat * nat) :=
  flat_map (fun ir => map (fun ik => (ir, ik)) (seq 0 nk)) (seq 0 nr).
(** halo_exclusion.py:456-462, starting from [np.zeros] *)
Definition dblsphere_numba_integrate (e : exclusion) (nr nk : nat) : list (nat * nat * R) :=
  dblsphere_numba_loop e (loop_order nr nk) (fun _ _ => 0).

(** halo_exclusion.py:488-495: np.clip(x, 0, 1) then 3x^2 - 2x^3 *)
Definition clip01 (x : R) : R := if Rltb x 0 then 0 else if Rltb 1 x then 1 else x.
Definition ell_prob (e : exclusion) (ir im jm : nat) : R :=
  let x := e_r e ir * (1 / (r_halo e im + r_halo e jm)) in
  let x := clip01 ((x - 8/10) / (29/100)) in
  3 * x ^ 2 - 2 * x ^ 3.
(** halo_exclusion.py:497-507 *)
Definition ell_density_mod (ius : ius_t) (e : exclusion) (ir : nat) : R :=
  let integrand : mat := fun im jm =>
    ell_prob e ir im jm * (1 * ((e_density e im * e_m e im) * (e_density e jm * e_m e jm))) in
  match e_xmin e with
  | None => sqrt (dbltrapz (e_nm e) (e_nm e) integrand (e_dlnx e) None)
  | Some _ => sqrt (spline_integrate ius e (fun im => spline_integrate ius e (integrand im)))
  end.
(** halo_exclusion.py:509-521 *)
Definition ell_integrate (ius : ius_t) (e : exclusion) (ir ik : nat) : R :=
  spline_integrate ius e (fun im =>
    scipy_simpson (e_nm e) (e_dlnx e)
      (fun jm => ell_prob e ir im jm * (raw_integrand e ir ik im * raw_integrand e ir ik jm))).

(** halo_exclusion.py:575-611 (prob_inner_ and prob_inner_r_ are the same
    computation); [buf] is the content of np.empty *)
Definition prob_numba (e : exclusion) (ir : nat) (buf : mat) : mat :=
  fill_upper (e_nm e) (fun irv jrv =>
    let x := (e_r e ir / (r_halo e irv + r_halo e jrv) - 8/10) / (29/100) in
    if Rleb x 0 then 0 else if Rleb 1 x then 1 else 3 * x ^ 2 - 2 * x ^ 3) buf.
(** halo_exclusion.py:566-573 and 529-537: note [xmin] is ignored *)
Definition ell_density_mod_numba (e : exclusion) (ir : nat) (buf : mat) : R :=
  sqrt (dbltrapz_ (e_nm e) (e_nm e)
    (fun i j => prob_numba e ir buf i j * ((e_density e i * e_m e i) * (e_density e j * e_m e j)))
    (e_dlnx e) (e_dlnx e)).
(** halo_exclusion.py:544-564, loops as in [dblsphere_numba_loop] *)
Fixpoint ell_numba_loop (e : exclusion) (prob : nat -> mat) (todo : list (nat * nat)) (buf : mat)
  : list (nat * nat * R) :=
  match todo with
  | [] => []
  | (ir, ik) :: rest =>
      let buf' := fill_upper (e_nm e)
        (fun im jm => raw_integrand e ir ik im * raw_integrand e ir ik jm * prob ir im jm) buf in
      ((ir, ik), dbltrapz_ (e_nm e) (e_nm e) buf' (e_dlnx e) (e_dlnx e))
        :: ell_numba_loop e prob rest buf'
  end.
Definition ell_numba_integrate (e : exclusion) (nr nk : nat) (pbuf : nat -> mat) : list (nat * nat * R) :=
  ell_numba_loop e (fun ir => prob_numba e ir (pbuf ir)) (loop_order nr nk) (fun _ _ => 0).

(** halo_exclusion.py:620-630 *)
Definition ng_mask (ius : ius_t) (e : exclusion) (ir im : nat) : bool :=
  Rltb (10001 / 10000 * (ell_density_mod ius e ir * 1))
    (1 * cumulative_trapezoid (e_dlnx e) (fun i => e_density e i * e_m e i) im).
(** halo_exclusion.py:632-636 *)
Definition ng_integrate (ius : ius_t) (e : exclusion) (ir ik : nat) : R :=
  (spline_integrate ius e (zero_where (ng_mask ius e ir) (raw_integrand e ir ik))) ^ 2.

(** NgMatched_.mask, halo_exclusion.py:645-655: [self.density_mod] is the one inherited from DblEllipsoid_ (529-537) *)
Definition ng_mask_numba (e : exclusion) (buf : nat -> mat) (ir im : nat) : bool :=
  Rltb (10001 / 10000 * (ell_density_mod_numba e ir (buf ir) * 1))
    (1 * cumulative_trapezoid (e_dlnx e) (fun i => e_density e i * e_m e i) im).
(** NgMatched_.integrate, halo_exclusion.py:657-661: the assignment goes through a transposed view of the integrand; the
    integral is always scipy's Simpson rule over the whole grid *)
Definition ng_numba_integrate (e : exclusion) (buf : nat -> mat) (ir ik : nat) : R :=
  (scipy_simpson (e_nm e) (e_dlnx e) (zero_where (ng_mask_numba e buf ir) (raw_integrand e ir ik))) ^ 2.
