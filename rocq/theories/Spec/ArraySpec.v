(** What array arguments and tables of results are, independently of numpy's broadcasting. *)
From Coq Require Import Reals Arith Bool.
From Verif Require Import Model.ProfileArrays.
Local Open Scope R_scope.
(** an argument is a number or a 1-D array of n numbers *)
Inductive arg := Num (x : R) | Arr (n : nat) (f : nat -> R).
Definition to_arr (a : arg) : arr := match a with Num x => sc x | Arr n f => v1 n f end.
Definition size (a : arg) : nat := match a with Num _ => 1 | Arr n _ => n end.
Definition elt (a : arg) (i : nat) : R := match a with Num x => x | Arr _ f => f i end.
(** arguments of the same kind and length *)
Definition same_shape (a b : arg) : Prop := match a, b with Num _, Num _ => True | Arr n _, Arr p _ => n = p | _, _ => False end.
Definition arg_is_num (a : arg) : bool := match a with Num _ => true | _ => false end.
(** an array with the given rank and dimensions (a 1-D array is one row) and entries *)
Definition like (a : arr) (rk n p : nat) (F : nat -> nat -> R) : Prop :=
  rank a = rk /\ rows a = n /\ cols a = p /\ forall i j, (i < n)%nat -> (j < p)%nat -> ent a i j = F i j.
(** the n x p table F, squeezed: a scalar if 1 x 1, 1-D if one of the sizes is 1, else 2-D with one row per radius *)
Definition is_table (a : arr) (n p : nat) (F : nat -> nat -> R) : Prop :=
  if Nat.eqb n 1 then (if Nat.eqb p 1 then like a 0 1 1 F else like a 1 1 p F)
  else if Nat.eqb p 1 then like a 1 1 n (fun _ j => F j 0%nat) else like a 2 n p F.
