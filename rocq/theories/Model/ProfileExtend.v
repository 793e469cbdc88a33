(** How the profile methods call the shape functions of a class, and optional arguments: /repo/src/halomod/profiles.py:241-440, 548-623, 992-1033. *)
From Coq Require Import Reals List Bool String.
From Verif Require Import Model.RBool Model.Profiles.
Local Open Scope R_scope.

(** the signature of a class's _p: (self, K), (self, K, c=None), (self, K, c) *)
Inductive p_method :=
| OnlyK (p : R -> R)
| OptionalC (p : R -> option R -> R)
| RequiresC (p : R -> R -> R).
(** self._p(K) and self._p(K, c): a wrong number of arguments is a TypeError *)
Definition call1 (p : p_method) (K : R) : res R := match p with OnlyK p => Ok (p K) | OptionalC p => Ok (p K None) | RequiresC _ => Raise TypeError end.
Definition call2 (p : p_method) (K c : R) : res R := match p with OnlyK _ => Raise TypeError | OptionalC p => Ok (p K (Some c)) | RequiresC p => Ok (p K c) end.

Inductive profile_class := CNFW | CNFWInf | CHernquist | CHernquistInf | CMoore | CMooreInf | CConstant | CGenNFW | CGenNFWInf | CEinasto | CCoredNFW | CPowerLawExp
| CustomTruncated | CustomInf.     (* a user's subclass of Profile or of ProfileInf that defines _f (and _h) only *)
Definition from_inf (k : profile_class) : bool := match k with CNFWInf | CHernquistInf | CMooreInf | CGenNFWInf | CPowerLawExp | CustomInf => true | _ => false end.
(** which _p the class has, by signature; the function itself is [p]: NFW 684, NFWInf 731, Hernquist 767, HernquistInf 781, MooreInf 835, Constant 883, GeneralizedNFWInf 930, Einasto 1010,
    CoredNFW 1067, PowerLawWithExpCut 1115; Moore and GeneralizedNFW have Profile's (241), a new subclass of ProfileInf has ProfileInf's (606) *)
Definition p_of (k : profile_class) (p : R -> R -> R) : p_method :=
  match k with
  | CHernquistInf | CMooreInf | CGenNFWInf => OnlyK (fun K => p K 0)
  | CNFW | CNFWInf | CPowerLawExp => OptionalC (fun K c => p K (match c with Some c => c | None => 0 end))
  | _ => RequiresC p
  end.
Section U.
  Variables (s : shape) (o : inst) (k : profile_class).
  (** Profile.u, 364-392, and ProfileInf.u, 576-604, with the call of _p spelt out *)
  Definition u_call (kk m : R) (norm : option string) (c : option R) (coord : string) : res R :=
    bind (if from_inf k then get_k_variables s o kk m None "k" else get_k_variables s o kk m c coord) (fun '(c, K) =>
    bind (if from_inf k then call1 (p_of k (s_p s)) K else call2 (p_of k (s_p s)) K c) (fun p =>
      let v := p / s_h s c in
      match norm with
      | None => Ok (v * m)
      | Some n => if (n =? "m")%string then Ok v else Raise ValueError
      end)).

  (** cdf with its optional arguments, 423-441: _get_r_variables (447-473) asks the relation for the concentration of None - [cm_none] is whatever that does - and _rs_from_m (149-166; Moore
      827-829) computes 3 * None *)
  Variable cm_none : res R.
  Definition cdf_call (r : R) (c m : option R) (coord : string) : res R :=
    match m with
    | Some m => cdf s o r c m coord
    | None => bind (match c with Some c => Ok c | None => cm_none end) (fun _ => Raise TypeError)
    end.
End U.

(** Einasto.__init__, 992-1000: the use_interp in effect and whether it warns *)
Definition einasto_init (alpha : R) (use_interp : bool) : bool * bool :=
  if negb (Reqb alpha 0.18) && use_interp then (false, true) else (use_interp, false).
(** Einasto._p, 1010-1033: the table or the numerical transform *)
Definition einasto_p (alpha : R) (use_interp : bool) (table : R -> R -> R) (numerical : R -> R -> R -> R) (K c : R) : R :=
  if fst (einasto_init alpha use_interp) then table K c else numerical alpha K c.
