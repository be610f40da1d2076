(** UnitSpec.v -- what a unit name means, independently of the tables in the
    code: an SI prefix followed by a base symbol; the scale is a power of ten. *)
From Coq Require Import String Reals ZArith List.
Import ListNotations.
Open Scope string_scope.

(** SI prefixes with their exponents. *)
Inductive si_prefix : string -> Z -> Prop :=
| si_none : si_prefix "" 0
| si_m : si_prefix "m" (-3)
| si_u : si_prefix "u" (-6)
| si_n : si_prefix "n" (-9)
| si_p : si_prefix "p" (-12)
| si_f : si_prefix "f" (-15)
| si_k : si_prefix "k" 3
| si_M : si_prefix "M" 6
| si_G : si_prefix "G" 9
| si_T : si_prefix "T" 12.

(** [is_unit base lo hi u k]: [u] is a prefixed [base] whose exponent [k] lies
    in the documented range. *)
Definition is_unit (base : string) (lo hi : Z) (u : string) (k : Z) : Prop :=
  exists p, si_prefix p k /\ u = p ++ base /\ (lo <= k <= hi)%Z.

(** API documentation: THz..Hz, F..fF, H..fH, s..fs. *)
Definition freq_unit (u : string) (k : Z) : Prop := is_unit "Hz" 0 12 u k.
Definition farad_unit (u : string) (k : Z) : Prop := is_unit "F" (-15) 0 u k.
Definition henry_unit (u : string) (k : Z) : Prop := is_unit "H" (-15) 0 u k.
Definition time_unit (u : string) (k : Z) : Prop := is_unit "s" (-15) 0 u k.

Definition valid_freq u := exists k, freq_unit u k.
Definition valid_cap u := (exists k, freq_unit u k) \/ (exists k, farad_unit u k).
Definition valid_ind u := (exists k, freq_unit u k) \/ (exists k, henry_unit u k).

(** The scale of exponent [k]. *)
Definition scale (k : Z) : R := powerRZ 10 k.
