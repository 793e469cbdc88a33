(** List models of the numpy array primitives used by halomod.

    These are models of numpy itself (external to /repo); each is listed with
    the place in /repo that uses it.  Arrays are lists; shapes that numpy
    would reject (length mismatches) are excluded by the length hypotheses of
    the theorems. *)
From Coq Require Import List Arith.
Import ListNotations.

Section Prims.
  Context {A B : Type}.

  (** [a[mask]]: boolean-mask selection
      (tools.py:401, 404-405, 432-438, 569-571). *)
  Fixpoint bmask (mask : list bool) (l : list A) : list A :=
    match mask, l with
    | b :: mask', x :: l' => if b then x :: bmask mask' l' else bmask mask' l'
    | _, _ => []
    end.

  (** [out[mask] = vals]: boolean-mask assignment, values consumed in order
      (tools.py:574-576).  An empty [vals] leaves the rest untouched (numpy
      would raise; excluded by length hypotheses). *)
  Fixpoint scatter (mask : list bool) (vals out : list A) : list A :=
    match mask, out with
    | true :: mask', o :: out' =>
        match vals with
        | v :: vals' => v :: scatter mask' vals' out'
        | [] => o :: scatter mask' [] out'
        end
    | false :: mask', o :: out' => o :: scatter mask' vals out'
    | _, _ => out
    end.

  (** [a[idx]] with an integer index array (tools.py:432). *)
  Definition take (d : A) (idx : list nat) (l : list A) : list A :=
    map (fun j => nth j l d) idx.

  (** [np.repeat(a, n)] (tools.py:442). *)
  Fixpoint np_repeat (l : list A) (n : list nat) : list A :=
    match l, n with
    | x :: l', k :: n' => repeat x k ++ np_repeat l' n'
    | _, _ => []
    end.

  (** [a[start:start+len(vals)] = vals] (tools.py:421-425, 448). *)
  Definition set_slice (a : list A) (start : nat) (vals : list A) : list A :=
    firstn start a ++ vals ++ skipn (start + length vals) a.
End Prims.

(** [np.sum] of a count array (tools.py:414-415). *)
Definition nsum (l : list nat) : nat := fold_right Nat.add 0 l.

(** [np.cumsum] (tools.py:443). *)
Fixpoint cumsum_from (acc : nat) (l : list nat) : list nat :=
  match l with
  | [] => []
  | x :: l' => (acc + x) :: cumsum_from (acc + x) l'
  end.
Definition cumsum (l : list nat) : list nat := cumsum_from 0 l.

(** [np.arange(n)] (tools.py:401, 432, 434). *)
Definition arange (n : nat) : list nat := seq 0 n.

(** number of distinct elements, [len(set(l))] (tools.py:456). *)
Definition n_distinct (l : list nat) : nat := length (nodup Nat.eq_dec l).
