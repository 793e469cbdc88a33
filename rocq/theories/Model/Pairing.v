(** Which mass function goes with which bias model, and the warnings given about it:
    /repo/src/halomod/bias.py (class attribute pair_hmf), halo_model.py:129-139 and tools.py:698-715.
    Mass-function classes live in hmf, outside this repository: they are identified by their name, and whether one is
    normalised is a universally quantified argument.  Not modelled: the text of the warnings. *)
From Coq Require Import Bool String List.
Import ListNotations.
Local Open Scope string_scope.

(** the classes of bias.py:78-717 *)
Inductive biascls := BBias | BUnity | BMo96 | BJing98 | BST99 | BSMT01 | BSeljak04 | BSeljak04Cosmo | BTinker05 | BMandelbaum05
                   | BPillepich10 | BManera10 | BTinker10 | BTinker10PBSplit.
(** bias.py:78, 171, 184, 211, 249, 288, 336, 386, 443, 464, 487, 526, 554, 617: base class *)
Definition base_class (c : biascls) : option biascls :=
  match c with
  | BBias => None
  | BSeljak04Cosmo => Some BSeljak04
  | BTinker05 => Some BSMT01
  | BMandelbaum05 | BManera10 => Some BST99
  | _ => Some BBias
  end.
(** the mass functions known when halomod.bias is imported, in order: name and the class attribute normalized *)
Definition registry := list (string * bool).
(** pair_hmf in the body of the class itself, bias.py:116, 178, 205, 277, 320, 550, 715 *)
Definition own_pair (reg : registry) (c : biascls) : option (list string) :=
  match c with
  | BBias => Some []
  | BUnity => Some (map fst (filter snd reg))
  | BMo96 => Some ["PS"]
  | BST99 => Some ["SMT"]
  | BSMT01 => Some ["SMT"]
  | BManera10 => Some ["Manera"]
  | BTinker10PBSplit => Some ["Tinker10"]
  | _ => None
  end.
(** attribute lookup along the base classes (at most two of them) *)
Fixpoint lookup (fuel : nat) (reg : registry) (c : biascls) : list string :=
  match own_pair reg c with
  | Some l => l
  | None => match fuel, base_class c with S n, Some b => lookup n reg b | _, _ => [] end
  end.
Definition pair_hmf (reg : registry) (c : biascls) : list string := lookup 3 reg c.

(** the framework as far as the pairing goes *)
Record fw := mkFw { f_bias : biascls; f_hmf : string }.
(** DMHaloModel.__init__, halo_model.py:129-139; [hmf] is the keyword hmf_model *)
Definition fw_init (reg : registry) (b : biascls) (hmf : option string) : fw :=
  let d := match pair_hmf reg b with h :: _ => h | [] => "Tinker10" end in
  mkFw b (match hmf with Some h => h | None => d end).
(** update(bias_model=, hmf_model=) of the parameters bias_model (halo_model.py:193-196) and hmf_model: each given one is set *)
Record fw_call := mkFwCall { c_bias : option biascls; c_hmf : option string }.
Definition fw_update (s : fw) (u : fw_call) : fw :=
  mkFw (match c_bias u with Some b => b | None => f_bias s end) (match c_hmf u with Some h => h | None => f_hmf s end).
Definition fw_run (s : fw) (l : list fw_call) : fw := fold_left fw_update l s.
(** norm_warn, tools.py:698-715, called by corr_2h_auto_matter_fnc and power_2h_auto_matter_fnc (halo_model.py:795, 835) *)
Inductive warning := Unnormalised | Unpaired.
Definition norm_warn (reg : registry) (normalized : string -> bool) (s : fw) : list warning :=
  (if negb (normalized (f_hmf s)) then [Unnormalised] else []) ++
  (if negb (existsb (String.eqb (f_hmf s)) (pair_hmf reg (f_bias s))) then [Unpaired] else []).
