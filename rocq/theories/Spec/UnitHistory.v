(** UnitHistory.v -- how a setting should depend on the history of calls: it is
    the last valid name passed to its own setter. *)
From Verif.Model Require Import Base Units Settings.
Open Scope string_scope.

(** [r] is the last element of [l] satisfying [valid], or [d] if there is none. *)
Definition last_valid {A} (valid : A -> Prop) (d : A) (l : list A) (r : A) : Prop :=
  (Forall (fun x => ~ valid x) l /\ r = d) \/
  (exists l1 l2, l = (l1 ++ r :: l2)%list /\ valid r /\ Forall (fun x => ~ valid x) l2).

(** The names passed to each setter, in call order. *)
Definition caps (l : list unit_call) := flat_map (fun c => match c with CallCap u => [u] | _ => [] end) l.
Definition inds (l : list unit_call) := flat_map (fun c => match c with CallInd u => [u] | _ => [] end) l.
Definition jjs (l : list unit_call) := flat_map (fun c => match c with CallJJ u => [u] | _ => [] end) l.
Definition freqs (l : list unit_call) := flat_map (fun c => match c with CallFreq u => [u] | _ => [] end) l.

(** The engine each call asks for, lower-cased. *)
Definition engines (l : list eng_call) :=
  map (fun c => match c with CallEngine s => lower s | CallOptim true => "pytorch" | CallOptim false => "numpy" end) l.
