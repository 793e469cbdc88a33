(** Which half-mode mass the concentrations of a WDM framework use: /repo/src/halomod/wdm.py:18-43, 118-138 and halo_model.py:1081-1140.
    A concentration-mass class is an identity number, whether the WDM rescaling was generated for it, and the relation it rescales
    (as a function of mass, redshift and its other parameters, which are left out). *)
From Coq Require Import Reals Bool Arith.
From Verif Require Import Model.RBool Model.Concentration.
Local Open Scope R_scope.

Record cmcls := mkCm { k_id : nat; k_rescaled : bool; k_base : R -> R -> R }.
(** the parameter dictionary of a relation, as far as m_hm goes *)
Definition cmparams := option R.
Record cmrel := mkRel { r_cls : cmcls; r_mhm : R }.
(** K.__init__(m_hm=1000, ...), wdm.py:25-27 *)
Definition new_relation (k : cmcls) (p : cmparams) : cmrel := mkRel k (match p with Some m => m | None => 1000 end).
(** cm(m, z): wdm.py:29-37 for a generated class with its default parameters, the relation itself otherwise *)
Definition rel_cm (r : cmrel) (m z : R) : R :=
  if k_rescaled (r_cls r) then wdm_cm (k_base (r_cls r) m z) 60 0.17 0.026 0.04 (r_mhm r) m z else k_base (r_cls r) m z.
(** HaloModelWDM.halo_concentration, wdm.py:124-132; [w] is self.wdm.m_hm *)
Definition halo_concentration (k : cmcls) (p : cmparams) (w : R) : cmrel :=
  let r := new_relation k p in if k_rescaled k then mkRel k w else r.
(** TracerHaloModel.tracer_concentration, halo_model.py:1081-1136, inherited by TracerHaloModelWDM (wdm.py:135-138);
    [p] are the halo's parameters, [tp] the tracer's (an empty dictionary is None) *)
Definition tracer_concentration (k : cmcls) (p : cmparams) (tk : option cmcls) (tp : cmparams) (w : R) : cmrel :=
  match tk with
  | None => halo_concentration k p w
  | Some t => new_relation t (match tp with None => if Nat.eqb (k_id t) (k_id k) then p else tp | Some _ => tp end)
  end.
