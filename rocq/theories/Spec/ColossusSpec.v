(** What a colossus component should answer, and which component was constructed last. *)
From Coq Require Import Reals List String.
From Verif Require Import Model.Colossus.
Import ListNotations.
Local Open Scope R_scope.

Section Spec.
  Variables Cosmo Params : Type.
  (** the components constructed by a history, in order *)
  Fixpoint constructed (l : list (op Cosmo Params)) : list (component Cosmo Params) :=
    match l with [] => [] | New _ _ c :: l' => c :: constructed l' | _ :: l' => constructed l' end.
  (** the cosmology of the last one *)
  Definition last_cosmo (l : list (op Cosmo Params)) (c : Cosmo) : Prop :=
    exists before k, constructed l = before ++ [k] /\ cosmo_of _ _ k = c.
End Spec.
