(** Units.v -- model of SQcircuit/units.py. *)
From Verif.Model Require Import Base.
Open Scope string_scope.
Open Scope R_scope.

(** units.py 4-16: the four unit tables (Python dict literals). *)
Definition henry_list : list (string * R) :=
  [("H", 1); ("mH", 1e-3); ("uH", 1e-6); ("nH", 1e-9); ("pH", 1e-12); ("fH", 1e-15)].
Definition farad_list : list (string * R) :=
  [("F", 1); ("mF", 1e-3); ("uF", 1e-6); ("nF", 1e-9); ("pF", 1e-12); ("fF", 1e-15)].
Definition freq_list : list (string * R) :=
  [("Hz", 1); ("kHz", 1e3); ("MHz", 1e6); ("GHz", 1e9); ("THz", 1e12)].
Definition time_list : list (string * R) :=
  [("s", 1); ("ms", 1e-3); ("us", 1e-6); ("ns", 1e-9); ("ps", 1e-12); ("fs", 1e-15)].

(** units.py 19-27: physical constants (decimal literals read exactly). *)
Definition hbar : R := 1.0545718e-34.
Definition Phi0 : R := 2.067833e-15.
Definition e_charge : R := 1.6021766e-19.
Definition k_B : R := 1.38e-23.

(** units.py 29-39: the module globals.  [_unit_freq] holds the number, the
    three others hold the unit name. *)
Record ustate : Type := mkU {
  unit_freq : R;
  unit_cap : string;
  unit_ind : string;
  unit_JJ : string
}.

(** Import-time values: [_unit_freq = freq_list['GHz']] etc. *)
Definition ustate_init : ustate := mkU 1e9 "GHz" "GHz" "GHz".

(** units.py 42-55.  The unit test precedes the assignment. *)
Definition set_unit_freq (u : string) (st : ustate) : ustate * res unit :=
  match lookup freq_list u with
  | None => (st, Err ValueError)
  | Some x => (mkU x (unit_cap st) (unit_ind st) (unit_JJ st), Ok tt)
  end.

(** units.py 70-84 *)
Definition set_unit_cap (u : string) (st : ustate) : ustate * res unit :=
  if negb (mem freq_list u) && negb (mem farad_list u) then (st, Err ValueError)
  else (mkU (unit_freq st) u (unit_ind st) (unit_JJ st), Ok tt).

(** units.py 99-113 *)
Definition set_unit_ind (u : string) (st : ustate) : ustate * res unit :=
  if negb (mem freq_list u) && negb (mem henry_list u) then (st, Err ValueError)
  else (mkU (unit_freq st) (unit_cap st) u (unit_JJ st), Ok tt).

(** units.py 128-142 *)
Definition set_unit_JJ (u : string) (st : ustate) : ustate * res unit :=
  if negb (mem freq_list u) then (st, Err ValueError)
  else (mkU (unit_freq st) (unit_cap st) (unit_ind st) u, Ok tt).

(** units.py 58-67, 87-96, 116-125, 145-154: the getters. *)
Definition get_unit_freq (st : ustate) : R := unit_freq st.
Definition get_unit_cap (st : ustate) : string := unit_cap st.
Definition get_unit_ind (st : ustate) : string := unit_ind st.
Definition get_unit_JJ (st : ustate) : string := unit_JJ st.

(** A user program is a list of setter calls; a call that raises is caught by
    the user and the program goes on (no simplification of the callee). *)
Inductive unit_call : Set :=
| CallFreq (u : string) | CallCap (u : string) | CallInd (u : string) | CallJJ (u : string).

Definition unit_step (st : ustate) (c : unit_call) : ustate * res unit :=
  match c with
  | CallFreq u => set_unit_freq u st
  | CallCap u => set_unit_cap u st
  | CallInd u => set_unit_ind u st
  | CallJJ u => set_unit_JJ u st
  end.

Definition unit_run (calls : list unit_call) (st : ustate) : ustate :=
  fold_left (fun s c => fst (unit_step s c)) calls st.
