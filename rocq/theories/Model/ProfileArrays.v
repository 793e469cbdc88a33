(** Array arguments of the profile methods, /repo/src/halomod/profiles.py:240-506 and 689-725: numpy shapes,
    broadcasting and the final [_reduce].  Radii/wavenumbers and masses are scalars or 1-D arrays (radii given in
    units of the scale radius may be 2-D).  The dimensionless functions _f, _h, _p act element by element; the
    element functions are those of Model/Profiles.v.

    An array has a rank (0, 1 or 2), a number of rows and of columns, and entries; a scalar is 1 x 1 and a 1-D array
    1 x n, as numpy's broadcasting treats them.  Sizes are what Python's len and shape report. *)
From Coq Require Import Reals Bool String List Arith.
From Verif Require Import Model.RBool Model.Profiles.
From Verif Require Model.IntegrateCorr.
Import ListNotations.
Local Open Scope R_scope.

Record arr := mkArr { rank : nat; rows : nat; cols : nat; ent : nat -> nat -> R }.
Definition sc (x : R) : arr := mkArr 0 1 1 (fun _ _ => x).
Definition v1 (n : nat) (f : nat -> R) : arr := mkArr 1 1 n (fun _ j => f j).
Definition m2 (n p : nat) (f : nat -> nat -> R) : arr := mkArr 2 n p f.

Definition amap (f : R -> R) (a : arr) : arr := mkArr (rank a) (rows a) (cols a) (fun i j => f (ent a i j)).
(** one dimension of a broadcast: equal sizes, or one of them is 1 *)
Definition bdim (n p : nat) : option nat := if (n =? p)%nat then Some n else if (n =? 1)%nat then Some p else if (p =? 1)%nat then Some n else None.
(** the index used in a dimension of size n *)
Definition bidx (n i : nat) : nat := if (n =? 1)%nat then 0%nat else i.
Definition bent (a : arr) (i j : nat) : R := ent a (bidx (rows a) i) (bidx (cols a) j).
(** a numpy ufunc of two arguments: "operands could not be broadcast together" is a ValueError *)
Definition ufunc2 (op : R -> R -> R) (a b : arr) : res arr :=
  match bdim (rows a) (rows b), bdim (cols a) (cols b) with
  | Some n, Some p => Ok (mkArr (Nat.max (rank a) (rank b)) n p (fun i j => op (bent a i j) (bent b i j)))
  | _, _ => Raise ValueError
  end.
(** np.divide.outer(a, b) of scalars and 1-D arrays: the shapes are concatenated *)
Definition divide_outer (a b : arr) : arr :=
  match rank a, rank b with
  | O, _ => mkArr (rank b) (rows b) (cols b) (fun i j => ent a 0 0 / ent b i j)
  | _, O => mkArr (rank a) (rows a) (cols a) (fun i j => ent a i j / ent b 0 0)
  | _, _ => m2 (cols a) (cols b) (fun i j => ent a 0 i / ent b 0 j)
  end.
(** np.outer(a, b) of scalars and 1-D arrays: always 2-D *)
Definition np_outer (a b : arr) : arr := m2 (cols a) (cols b) (fun i j => ent a 0 i * ent b 0 j).
(** np.atleast_1d *)
Definition atleast_1d (a : arr) : arr := mkArr (Nat.max 1 (rank a)) (rows a) (cols a) (ent a).

(** Profile._reduce, profiles.py:498-506: squeeze, and a scalar when one element is left *)
Definition reduce (a : arr) : arr :=
  if (rows a =? 1)%nat && (cols a =? 1)%nat then sc (ent a 0 0)
  else if (rows a =? 1)%nat then v1 (cols a) (fun j => ent a 0 j)
  else if (cols a =? 1)%nat then v1 (rows a) (fun i => ent a i 0)
  else m2 (rows a) (cols a) (ent a).

(** a[mask] = 0.0 with mask = (x > c), profiles.py:360: a scalar does not support item assignment; a mask of
    another shape is an IndexError.  (The rank of the mask is never below that of a here.) *)
Definition zero_where (a x c : arr) : res arr :=
  bind (ufunc2 (fun u v => if Rltb v u then 1 else 0) x c) (fun mask =>
    match rank a with
    | O => Raise TypeError
    | _ => if (rank a =? rank mask)%nat && (rows a =? rows mask)%nat && (cols a =? cols mask)%nat
           then Ok (mkArr (rank a) (rows a) (cols a) (fun i j => if Reqb (ent mask i j) 1 then 0 else ent a i j))
           else Raise IndexError
    end).

Section ArrMethods.
  Variables (s : shape) (o : inst).
  (** the class's _f returns the float 1.0 whatever its argument (Constant, profiles.py:877-878) *)
  Variable const_f_scalar : bool.

  (** _rs_from_m, profiles.py:149-166 and Moore 827-829, elementwise in (m, c) *)
  Definition rs_el (m c : R) : R := if s_moore s then base_rs o m c false * c / Rpower (c / 1.7) 0.9 else base_rs o m c false.
  (** cm_relation of an array of masses *)
  Definition conc_of (m : arr) (c : option arr) : arr := match c with None => amap (cm_relation s o) m | Some c => c end.

  (** _get_r_variables, profiles.py:447-473 *)
  Definition get_r_arr (r m : arr) (c : option arr) (coord : string) : res (arr * arr * arr) :=
    let c := conc_of m c in
    bind (ufunc2 rs_el m c) (fun r_s =>
      if (coord =? "r")%string then Ok (c, r_s, divide_outer r r_s)
      else if (coord =? "x")%string then Ok (c, r_s, r)
      else if (coord =? "s")%string then Ok (c, r_s, np_outer r c)
      else Raise ValueError).
  (** _get_k_variables, profiles.py:475-496; scalars are not iterable *)
  Definition get_k_arr (k m : arr) (c : option arr) (coord : string) : res (arr * arr) :=
    let c := conc_of m c in
    bind (ufunc2 rs_el m c) (fun r_s =>
      if (coord =? "k")%string then
        rmap (fun K => (c, K)) (if (1 <=? rank k)%nat && (1 <=? rank r_s)%nat then Ok (np_outer k r_s) else ufunc2 Rmult k r_s)
      else if (coord =? "kappa")%string then Ok (c, k)
      else Raise UnboundLocalError).
  (** _rho_s, profiles.py:315-337 *)
  Definition rho_s_arr (c r_s : arr) (norm : option string) : res arr :=
    match norm with
    | None => Ok (reduce (amap (fun c => c ^ 3 * delta_halo o * mean_dens o / (3 * s_h s c)) c))
    | Some n =>
        if (n =? "m")%string then rmap reduce (ufunc2 (fun r_s c => 1 / (4 * PI * r_s ^ 3 * s_h s c)) r_s c)
        else if (n =? "rho")%string then Ok (reduce (amap (fun c => c ^ 3 * delta_halo o / (3 * s_h s c)) c))
        else Raise UnboundLocalError
    end.
  Definition f_arr (x : arr) : arr := if const_f_scalar then sc 1 else amap (s_f s) x.
  (** rho, profiles.py:339-362; ProfileInf 551-574 does not truncate *)
  Definition rho_arr (r m : arr) (norm : option string) (c : option arr) (coord : string) : res arr :=
    bind (get_r_arr r m c coord) (fun '(c, r_s, x) =>
    bind (rho_s_arr c r_s norm) (fun a =>
    bind (ufunc2 Rmult (f_arr x) a) (fun rho =>
      if s_inf s then Ok (reduce rho) else rmap reduce (zero_where rho x c)))).

  (** Profile._p, profiles.py:240-313, the numerical transform of a class without an analytic one: K must be 2-D with
      one column per halo (a 1-D K is turned into a row or, if as long as c, a column); the transform is tabulated on
      100 wavenumbers spaced logarithmically between the smallest and the largest of ALL the K, by cumulative
      quadrature over the concentrations ([quad k a b], [argsort]; Model/Profiles.v numeric_p), and each element is
      read off an interpolating spline.  The spline refuses a grid that is not strictly increasing (ValueError):
      equal smallest and largest K, no K at all, or a K <= 0 (the grid is then not finite).  K = k*r_s a plain number: no len()
      (TypeError for numpy numbers; a Python float has no ndim, an AttributeError, not distinguished here). *)
  Variables (quad : R -> R -> R -> R) (argsort : list R -> list nat) (spl : list R -> list R -> R -> R).
  Definition aall (p : R -> bool) (a : arr) : bool := forallb (fun i => forallb (fun j => p (ent a i j)) (seq 0 (cols a))) (seq 0 (rows a)).
  Definition flat (a : arr) : list R := flat_map (fun i => map (ent a i) (seq 0 (cols a))) (seq 0 (rows a)).
  Definition numeric_p_arr (K c : arr) : res arr :=
    let c := atleast_1d c in
    bind (if (rank K <? 2)%nat
          then match rank K with
               | O => Raise TypeError
               | _ => if negb (cols K =? cols c)%nat then Ok (m2 1 (cols K) (fun _ j => ent K 0 j))
                      else Ok (m2 (cols K) 1 (fun i _ => ent K 0 i))
               end
          else Ok K) (fun K =>
      if (cols K =? cols c)%nat then
        let order := argsort (map (ent c 0) (seq 0 (cols c))) in
        let kk := IntegrateCorr.logspace (lmin (flat K)) (lmax (flat K)) 100 in
        if negb (aall (Rltb 0) K) || negb (Rltb (lmin (flat K)) (lmax (flat K))) then Raise ValueError
        else Ok (m2 (rows K) (cols K) (fun i j => spl kk (map (fun k => numeric_p (quad k) (ent c 0) order j) kk) (ent K i j)))
      else Raise AssertionError).
  (** u *= m, profiles.py:387, works in place: an array keeps its shape (ValueError if the product has another one), a number is rebound *)
  Definition imul (u m : arr) : res arr :=
    bind (ufunc2 Rmult u m) (fun v =>
      if (rank u =? 0)%nat || ((rank v =? rank u)%nat && (rows v =? rows u)%nat && (cols v =? cols u)%nat) then Ok v else Raise ValueError).
  (** u, profiles.py:364-392, for truncated profiles; [numeric]: the class has no analytic _p *)
  Variable numeric : bool.
  Definition u_arr (k m : arr) (norm : option string) (c : option arr) (coord : string) : res arr :=
    bind (get_k_arr k m c coord) (fun '(c, K) =>
    bind (if numeric then numeric_p_arr K c else ufunc2 (s_p s) K c) (fun p =>
    bind (ufunc2 Rdiv p (amap (s_h s) c)) (fun u =>
      match norm with
      | None => rmap reduce (imul u m)
      | Some n => if (n =? "m")%string then Ok (reduce u) else Raise ValueError
      end))).

  (** cdf, profiles.py:423-441: not reduced *)
  Definition cdf_arr (r : arr) (c : option arr) (m : arr) (coord : string) : res arr :=
    bind (get_r_arr r m c coord) (fun '(c, _, x) => ufunc2 Rdiv (amap (s_h s) x) (amap (s_h s) c)).
End ArrMethods.

(** NFW._l, profiles.py:689-725.  [x[mask]] with a mask of another shape than x is an IndexError; the masks are only used if they select something
    (the second one's guard excludes x = 2c, where the value is zero anyway). *)
Definition nfw_l_arr (x c : arr) : res arr :=
  let x := atleast_1d x in
  let c := atleast_1d c in
  bind (ufunc2 (fun x c => if Rltb (2 * c) x then 1 else 0) x c) (fun far =>
    if aall (fun v => Reqb v 1) far then Ok (amap (fun _ => 0) x)
    else
      bind (if (rank x =? 2)%nat then Ok (m2 (rows x) (cols c) (fun _ j => ent c 0 j))
            else ufunc2 Rmult (v1 (cols x) (fun _ => 1)) c) (fun c =>
      bind (ufunc2 (fun x c => if Rleb x c then 1 else 0) x c) (fun lo =>
      bind (ufunc2 (fun x c => if Rltb x (2 * c) && Rltb c x then 1 else 0) x c) (fun mid =>
        (* np.any(x <= c), np.any(np.logical_and(x < 2 * c, x > c)) guard the use of the two masks *)
        let any_lo := negb (aall (fun v => Reqb v 0) lo) in
        let any_hi := negb (aall (fun v => Reqb v 0) mid) in
        if (any_lo || any_hi) && negb ((rank x =? rank lo)%nat && (rows x =? rows lo)%nat && (cols x =? cols lo)%nat) then Raise IndexError
        else Ok (mkArr (rank x) (rows x) (cols x) (fun i j =>
                let xx := ent x i j in let cc := bent c i j in
                if any_lo && Rleb xx cc then nfw_l_lo xx cc
                else if any_hi && Rltb cc xx && Rleb xx (2 * cc) then nfw_l_hi xx cc else 0)))))).
(** Profile.lam, profiles.py:394-421, for NFW *)
Definition nfw_lam_arr (s : shape) (o : inst) (r m : arr) (norm : option string) (c : option arr) (coord : string) : res arr :=
  bind (get_r_arr s o r m c coord) (fun '(c, r_s, x) =>
    match norm with
    | None | Some "m"%string =>
        bind (nfw_l_arr x c) (fun l =>
        bind (ufunc2 (fun l r_s => l * r_s ^ 3) l r_s) (fun lr =>
        bind (rho_s_arr s o c r_s norm) (fun a =>
        rmap reduce (ufunc2 (fun lr a => lr * a ^ 2) lr a))))
    | _ => Raise ValueError
    end).
