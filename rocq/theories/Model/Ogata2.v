(** power_to_corr_ogata with all its inputs and effects: a 1-D or 2-D power array, and the warnings it gives
    (/repo/src/halomod/tools.py:91-239).  The samples [pfunc], the weights and the downgrade of power_pos are those of
    Model/Hankel.v, which has the 1-D value only. *)
From Coq Require Import Reals String List Bool Arith.
From Verif Require Import Model.RBool Model.Hankel Model.Profiles Model.IntArgs.
Import ListNotations.
Local Open Scope R_scope.

(** the argument [power] *)
Inductive power_arg := P1D (p : list R) | P2D (rows : list (list R)).
(** the rows whose ends are examined, tools.py:148-152 *)
Definition power_rows (P : power_arg) : list (list R) := match P with P1D p => [p] | P2D rows => rows end.
(** [power[ir] if power.ndim == 2 else power], tools.py:197 *)
Definition power_row (P : power_arg) (ir : nat) : res (list R) :=
  match P with
  | P1D p => Ok p
  | P2D rows => match nth_error rows ir with Some p => Ok p | None => Raise IndexError end
  end.

Inductive warning := ExtrapolatedBelow | ExtrapolatedAbove | NotConverged.
(** what one output point does: its sum, and the warnings it calls for *)
Record og_out := mkOg { og_v : R; og_low : bool; og_up : bool; og_conv : bool }.

Section Ogata2.
  Variable spline3 : list R -> list R -> R -> R.

  (** the body of the loop, tools.py:195-237; [cs[-2]] of a single sum is an IndexError (228) *)
  Definition og_step (h atol rtol : R) (pp : bool * bool) (k p : list R) (rr : R) : res og_out :=
    let roots := seq 1 (og_nmax h) in
    let kk := map (fun n => og_x h n / rr) roots in
    let vals := map (fun v => pfunc pp (map ln k) p (spline3 (map ln k) p) (ln v)) kk in
    if negb (forallb pf_ok vals) then Raise ValueError                    (* tools.py:175 *)
    else if Nat.eqb (og_nmax h) 0 then Raise ValueError                   (* tools.py:200: minimum of nothing *)
    else
      let cs := rcumsum (map (fun q => og_sumpart h (fst q) * pf_val (snd q)) (combine roots vals)) in
      let low := Rltb (lmin kk) (lmin k) in
      if Rleb (lmax kk) (lmax k) then Ok (mkOg (last cs 0) low false false)
      else match first_where (fun v => Rltb (lmax k) v) kk 0 with
           | None => Raise IndexError
           | Some indx =>
               if isclose atol rtol (nth indx cs 0) (py_prev cs indx) then Ok (mkOg (nth indx cs 0) low false false)
               else if Nat.eqb (og_nmax h) 1 then Raise IndexError
               else Ok (mkOg (last cs 0) low true (negb (isclose atol rtol (last cs 0) (nth (og_nmax h - 2) cs 0))))
           end.

  (** the flags [warn_lower], [warn_upper], [warn_conv], tools.py:189-192: each warning is given at the first output point
      that calls for it; an exception loses the result (the warnings given before it are not modelled) *)
  Definition say (flag here : bool) (w : warning) (rr : R) : list (warning * R) := if flag && here then [(w, rr)] else [].
  Fixpoint og_loop (pts : list (res og_out * R)) (wl wu wc : bool) : res (list R * list (warning * R)) :=
    match pts with
    | [] => Ok ([], [])
    | (x, rr) :: rest =>
        bind x (fun o =>
        bind (og_loop rest (wl && negb (og_low o)) (wu && negb (og_up o)) (wc && negb (og_conv o))) (fun '(vs, ws) =>
          Ok (og_v o / (2 * PI ^ 2 * rr ^ 3) :: vs,
              say wl (og_low o) ExtrapolatedBelow rr ++ say wu (og_up o) ExtrapolatedAbove rr ++ say wc (og_conv o) NotConverged rr ++ ws)))
    end.

  (** tools.py:91-239 *)
  Definition ogata_full (P : power_arg) (k r : list R) (h : R) (power_pos : bool * bool) (rtol atol : R)
      : res (list R * list (warning * R)) :=
    let pp := downgrade power_pos (power_rows P) in
    og_loop (map (fun q => (bind (power_row P (fst q)) (fun p => og_step h atol rtol pp k p (snd q)), snd q))
                 (combine (seq 0 (length r)) r)) true true true.
End Ogata2.
