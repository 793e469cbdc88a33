(** Model of the Ogata Hankel transforms of halomod.tools,
    /repo/src/halomod/tools.py:32-273, and of [exclusion_window], 330-346. *)
From Coq Require Import Reals String List Bool ZArith.
From Verif Require Import Model.RBool Model.NumpyList.
Import ListNotations.
Local Open Scope R_scope.

(** [_get_sumspace], tools.py:32-44, for one root [n]. *)
Definition og_t (h : R) (n : nat) : R := h * INR n.
Definition og_s (h : R) (n : nat) : R := PI * sinh (og_t h n).
Definition og_x (h : R) (n : nat) : R := PI * INR n * tanh (og_s h n / 2).
Definition og_dpsi (h : R) (n : nat) : R :=
  let d := 1 + cosh (og_s h n) in
  if Reqb d 0 then d
  else (PI * og_t h n * cosh (og_t h n) + sinh (og_s h n)) / d.
Definition og_sumpart (h : R) (n : nat) : R :=
  PI * sin (og_x h n) * og_dpsi h n * og_x h n.

(** [np.isclose(a, b, atol, rtol)] *)
Definition isclose (atol rtol a b : R) : bool := Rleb (Rabs (a - b)) (atol + rtol * Rabs b).

(** [nmax = int(3.2 / h)], tools.py:61, 136 *)
Definition og_nmax (h : R) : nat := Z.to_nat (Int_part (32 / 10 / h)).

(** [pk[np.isnan(pk)] = 0], tools.py:78; a sample is [None] when it is NaN *)
Definition nan_to_zero (v : option R) : R := match v with Some y => y | None => 0 end.

(** one Ogata term of the integrand [p] at output point [rr] *)
Definition og_term (h : R) (p : R -> option R) (rr : R) (n : nat) : R :=
  og_sumpart h n * nan_to_zero (p (og_x h n / rr)).

(** The loop of tools.py:70-81, on fuel; [None] = fuel exhausted. *)
Fixpoint hankel_loop (h atol rtol : R) (chunksize : nat) (p : R -> option R) (rr : R)
    (fuel nn : nat) (prev_res res : R) : option R :=
  if negb (isclose atol rtol prev_res res) && Nat.ltb nn (og_nmax h) then
    match fuel with
    | O => None
    | S fuel' =>
        let chunk := map (og_term h p rr) (seq nn chunksize) in
        hankel_loop h atol rtol chunksize p rr fuel' (nn + chunksize) res (res + lsum chunk)
    end
  else Some res.

(** [trns_var_name not in "kr"]: Python substring test, tools.py:57 *)
Fixpoint py_in (s t : string) : bool :=
  prefix s t || match t with EmptyString => false | String _ t' => py_in s t' end.

Inductive hankel_result :=
| HankelOk (out : list R)
| HankelValueError
| HankelDiverges.

Fixpoint all_some (l : list (option R)) : option (list R) :=
  match l with
  | [] => Some []
  | Some v :: l' => match all_some l' with Some r => Some (v :: r) | None => None end
  | None :: _ => None
  end.

(** tools.py:47-88.  [f] is indexed by the output point ([f[ir]]); a single
    callable is the constant family. *)
Definition hankel_transform (fuel : nat) (f : nat -> R -> option R) (trns_var : list R)
    (name : string) (h : R) (chunksize : nat) (atol rtol : R) : hankel_result :=
  if negb (py_in name "kr") then HankelValueError
  else
    match all_some (map (fun irr => hankel_loop h atol rtol chunksize (f (fst irr)) (snd irr)
                                      fuel 1 100 0)
                        (combine (seq 0 (length trns_var)) trns_var)) with
    | None => HankelDiverges
    | Some out =>
        HankelOk
          (map (fun p =>
                  if String.eqb name "r" then fst p / (2 * PI ^ 2 * (snd p) ^ 3)
                  else fst p * 4 * PI / (snd p) ^ 3)
               (combine out trns_var))
    end.

(** ** power_to_corr_ogata, tools.py:91-239 *)

(** tools.py:148-152: downgrade of [power_pos].  [rows] = the rows of a 2D power
    array (one row when it is 1D). *)
Definition first2_pos (p : list R) : bool := forallb (fun v => Rltb 0 v) (firstn 2 p).
Definition last2_pos (p : list R) : bool :=
  forallb (fun v => Rltb 0 v) (skipn (length p - 2) p).
Definition downgrade (power_pos : bool * bool) (rows : list (list R)) : bool * bool :=
  let pp0 := if fst power_pos && negb (forallb first2_pos rows) then false else fst power_pos in
  let pp1 := if snd power_pos && negb (forallb last2_pos rows) then false else snd power_pos in
  (pp0, pp1).

Inductive pfunc_result := PfOk (v : R) | PfValueError.

(** [pfunc(logk, p)] at one point, tools.py:154-185.  [spl] is the cubic
    interpolating spline of (lnk, p). *)
Definition pfunc (pp : bool * bool) (lnk p : list R) (spl : R -> R) (logk : R)
    : pfunc_result :=
  let n := length p in
  let a i := nth i p 0 in
  let l i := nth i lnk 0 in
  (* the check of tools.py:174-175 is made whatever the masks are *)
  if snd pp && (Rleb (a (n - 1)%nat) 0 || Rleb (a (n - 2)%nat) 0) then PfValueError
  else if Rltb logk (lmin lnk) then
    if fst pp then
      PfOk (exp ((ln (a 1%nat) - ln (a 0%nat)) * (logk - l 0%nat) / (l 1%nat - l 0%nat)
                 + ln (a 0%nat)))
    else PfOk ((a 1%nat - a 0%nat) * (logk - l 0%nat) / (l 1%nat - l 0%nat) + a 0%nat)
  else if Rltb (lmax lnk) logk then
    if snd pp then
      PfOk (exp ((ln (a (n-1)%nat) - ln (a (n-2)%nat)) * (logk - l (n-1)%nat)
                 / (l (n-1)%nat - l (n-2)%nat) + ln (a (n-1)%nat)))
    else PfOk ((a (n-1)%nat - a (n-2)%nat) * (logk - l (n-1)%nat)
                 / (l (n-1)%nat - l (n-2)%nat) + a (n-1)%nat)
  else PfOk (spl logk).

(** [np.cumsum] of reals *)
Fixpoint rcumsum_from (acc : R) (l : list R) : list R :=
  match l with [] => [] | x :: l' => (acc + x) :: rcumsum_from (acc + x) l' end.
Definition rcumsum (l : list R) : list R := rcumsum_from 0 l.

(** first index satisfying a predicate: [np.where(..)[0][0]] *)
Fixpoint first_where (f : R -> bool) (l : list R) (i : nat) : option nat :=
  match l with [] => None | x :: l' => if f x then Some i else first_where f l' (S i) end.

(** Python indexing [a[i-1]] with [i = 0] meaning the last element *)
Definition py_prev (l : list R) (i : nat) : R :=
  match i with O => last l 0 | S j => nth j l 0 end.

(** The choice of the returned sum for one output point, tools.py:192-237;
    [kk] are the abscissae, [summand] the terms. *)
Definition ogata_select (atol rtol kmax : R) (kk summand : list R) : R :=
  let cs := rcumsum summand in
  if Rleb (lmax kk) kmax then last cs 0
  else match first_where (fun v => Rltb kmax v) kk 0 with
       | Some indx => if isclose atol rtol (nth indx cs 0) (py_prev cs indx)
                      then nth indx cs 0 else last cs 0
       | None => last cs 0
       end.

Section Ogata.
  Variable spline3 : list R -> list R -> R -> R.

  Definition pf_val (r : pfunc_result) : R := match r with PfOk v => v | PfValueError => 0 end.
  Definition pf_ok (r : pfunc_result) : bool := match r with PfOk _ => true | _ => false end.

  (** one output point; [None] = ValueError, from tools.py:175, or from the minimum of no abscissae at all (tools.py:200) when
      nmax is 0 *)
  Definition ogata_point (h atol rtol : R) (pp : bool * bool) (k p : list R) (rr : R)
      : option R :=
    let roots := seq 1 (og_nmax h) in
    let kk := map (fun n => og_x h n / rr) roots in
    let lnk := map ln k in
    let vals := map (fun v => pfunc pp lnk p (spline3 lnk p) (ln v)) kk in
    if forallb pf_ok vals && negb (Nat.eqb (og_nmax h) 0) then
      Some (ogata_select atol rtol (lmax k) kk
              (map (fun q => og_sumpart h (fst q) * pf_val (snd q)) (combine roots vals)))
    else None.

  (** tools.py:91-239 for a 1D power *)
  Definition power_to_corr_ogata (power k r : list R) (h : R) (power_pos : bool * bool)
      (rtol atol : R) : option (list R) :=
    let pp := downgrade power_pos [power] in
    match all_some (map (ogata_point h atol rtol pp k power) r) with
    | Some out => Some (map (fun q => fst q / (2 * PI ^ 2 * (snd q) ^ 3)) (combine out r))
    | None => None
    end.

  (** tools.py:242-273 *)
  Definition corr_to_power_ogata (corr r k : list R) (h : R) (power_pos : bool * bool)
      (atol rtol : R) : option (list R) :=
    match power_to_corr_ogata corr r k h power_pos rtol atol with
    | Some l => Some (map (fun v => 8 * PI ^ 3 * v) l)
    | None => None
    end.
End Ogata.

(** tools.py:330-346 *)
Definition exclusion_window (k r : R) : R :=
  let x := k * r in 3 * (sin x - x * cos x) / x ^ 3.
