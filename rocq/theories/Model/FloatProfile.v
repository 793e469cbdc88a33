(** The mass integrals _h of the NFW, Hernquist and Moore profiles in double precision, /repo/src/halomod/profiles.py:681-682, 764-765, 818-819: one rounding per operation.
    [lib_log] and [lib_pow] are the library's log and x ** 1.5; numpy squares by multiplying. *)
From Coq Require Import Reals.
From Verif Require Import Model.Float64.
Local Open Scope R_scope.

(** profiles.py:681-682: np.log(1.0 + c) - c / (1.0 + c) *)
Definition float_nfw_h (lib_log : R -> R) (c : R) : R := rnd (lib_log (rnd (1 + c)) - rnd (c / rnd (1 + c))).
(** profiles.py:764-765: c**2 / (2 * (1 + c) ** 2) *)
Definition float_hernquist_h (c : R) : R := rnd (rnd (c * c) / rnd (2 * rnd (rnd (1 + c) * rnd (1 + c)))).
(** profiles.py:818-819: 2.0 * np.log(1 + c**1.5) / 3 *)
Definition float_moore_h (lib_log lib_pow : R -> R) (c : R) : R := rnd (rnd (2 * lib_log (rnd (1 + lib_pow c))) / 3).
(** cdf, profiles.py:440-441: _h(x) / _h(c) *)
Definition float_cdf (hx hc : R) : R := rnd (hx / hc).
