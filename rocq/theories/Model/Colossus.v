(** Components computed by the colossus package: make_colossus_bias (/repo/src/halomod/bias.py:802-832) and make_colossus_cm
    (/repo/src/halomod/concentration.py:188-226).

    colossus keeps one current cosmology per process: [fromAstropy] sets it, and the functions that compute biases and
    concentrations read it.  That is how the package is documented; its numbers are the arguments [lib_conc] and [lib_bias]
    here.  Constructing a component calls fromAstropy (bias.py:818, concentration.py:208-210); evaluating one does not. *)
From Coq Require Import Reals List String.
Import ListNotations.
Local Open Scope R_scope.

Section Colossus.
  Variables Cosmo Params : Type.                 (* an astropy cosmology with sigma8 and ns; the model's parameters *)
  (* colossus.halo.concentration.concentration(M, mdef, z, model, **params) and lss.bias.haloBiasFromNu(nu, z, mdef, model, **params)
     under a current cosmology *)
  Variable lib_conc : Cosmo -> R -> string -> R -> string -> Params -> R.
  Variable lib_bias : Cosmo -> R -> R -> string -> string -> Params -> R.

  Inductive component :=
  | ColossusCM (cosmo : Cosmo) (norm : R) (mdef model : string) (p : Params)
  | ColossusBias (cosmo : Cosmo) (nu : list R) (z : R) (mdef model : string) (p : Params).
  Definition cosmo_of (c : component) : Cosmo := match c with ColossusCM x _ _ _ _ => x | ColossusBias x _ _ _ _ _ => x end.

  (** cm, concentration.py:212-221, and bias, bias.py:820-827 ([nu] is the square of the peak height), under the current
      cosmology *)
  Definition cm_under (cur : Cosmo) (c : component) (m z : R) : option (list R) :=
    match c with ColossusCM _ norm mdef model p => Some [norm * lib_conc cur m mdef z model p] | _ => None end.
  Definition bias_under (cur : Cosmo) (c : component) : option (list R) :=
    match c with ColossusBias _ nu z mdef model p => Some (map (fun v => lib_bias cur (sqrt v) z mdef model p) nu) | _ => None end.

  (** what a process does with such components; objects are numbered in the order of their construction *)
  Inductive op := New (c : component) | CallCM (i : nat) (m z : R) | CallBias (i : nat).
  Record process := mkProc { current : option Cosmo; objects : list component }.
  Definition start : process := mkProc None [].
  Definition step (s : process) (o : op) : process * option (list R) :=
    match o with
    | New c => (mkProc (Some (cosmo_of c)) (objects s ++ [c]), None)
    | CallCM i m z => (s, match current s, nth_error (objects s) i with Some cur, Some c => cm_under cur c m z | _, _ => None end)
    | CallBias i => (s, match current s, nth_error (objects s) i with Some cur, Some c => bias_under cur c | _, _ => None end)
    end.
  (** the answers of a history of operations *)
  Fixpoint run (s : process) (l : list op) : list (option (list R)) :=
    match l with [] => [] | o :: l' => snd (step s o) :: run (fst (step s o)) l' end.
  Definition answers (l : list op) : list (option (list R)) := run start l.
End Colossus.
