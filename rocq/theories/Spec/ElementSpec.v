(** ElementSpec.v -- the physics an element value stands for. *)
From Coq Require Import String Reals.
From Verif.Model Require Import Base Units Elements.
From Verif.Spec Require Import UnitSpec.
Open Scope R_scope.

(** Energy quantum of a frequency [f] in hertz: E = h f, h = 2 pi hbar. *)
Definition photon (f : R) : R := 2 * PI * hbar * f.

(** [denotes k u v x]: "value [v] in unit [u]" describes the component whose
    internal SI value is [x]: capacitance in farad, inductance in henry,
    junction energy as an angular frequency. *)
Inductive denotes : kind -> string -> R -> R -> Prop :=
| den_farad u k v x : farad_unit u k -> x = v * scale k -> denotes KCap u v x
| den_EC u k v x : freq_unit u k -> x <> 0 ->
    photon (v * scale k) = e_charge * e_charge / (2 * x) -> denotes KCap u v x
| den_henry u k v x : henry_unit u k -> x = v * scale k -> denotes KInd u v x
| den_EL u k v x : freq_unit u k -> x <> 0 ->
    photon (v * scale k) = (Phi0 / (2 * PI)) * (Phi0 / (2 * PI)) / x -> denotes KInd u v x
| den_EJ u k v x : freq_unit u k -> x = 2 * PI * (v * scale k) -> denotes KJJ u v x.

(** The documented allowed units of each element kind. *)
Definition allowed (k : kind) (u : string) : Prop :=
  match k with KCap => valid_cap u | KInd => valid_ind u | KJJ => valid_freq u end.
