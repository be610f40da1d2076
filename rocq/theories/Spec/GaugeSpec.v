(** GaugeSpec.v -- turning the phase of every charge state, and the external phases
    of the junctions with it. *)
From Coq Require Import Reals ZArith.
From Verif.Model Require Import Base Units Edge Accuracy HamConst.
From mathcomp Require Import all_ssreflect all_algebra.
From mathcomp Require Import complex.
From Verif.Numerics Require Import RStruct Bridge.
From Verif.Model Require Import Op Transform Ham.
From Verif.Spec Require Import OpSpec LevelsSpec.

Set Implicit Arguments.
Unset Strict Implicit.
Unset Printing Implicit Defensive.
Import GRing.Theory.
Local Open Scope ring_scope.
Local Open Scope complex_scope.

(** Phase of the basis state with digits [d]: angle times charge, over the charge modes. *)
Definition state_phase (h : hin) (theta : nat -> R) (d : nat -> nat) : R :=
  \sum_(k < hn h | hcharge h k) theta k * charge_at (hm h k) (d k).
(** [A'] is [A] with every basis state turned by its phase. *)
Definition turned (h : hin) (theta : nat -> R) (A A' : op) : Prop :=
  dim A' = dim A /\ forall d e, legal (hm h) d (hn h) -> legal (hm h) e (hn h) ->
    ent A' (posn (hm h) d (hn h)) (posn (hm h) e (hn h)) =
    expi (state_phase h theta d - state_phase h theta e) * ent A (posn (hm h) d (hn h)) (posn (hm h) e (hn h)).

(** The phase a junction (row [w] of the couplings) sees. *)
Definition row_phase (h : hin) (theta : nat -> R) (w : nat) : R :=
  \sum_(k < hn h | hcharge h k) theta k * t_wT (h_st h) w k.
(** Two sets of external phases that differ by the angles [theta] of the charge modes
    and by whole turns; the inductors see the same flux. *)
Definition gauge (h : hin) (theta : nat -> R) (ks : keys) (loops loops' : seq R) (B B' : arr) : Prop :=
  (forall i, List.In i (k_ind ks) -> ext_flux loops' B' i.2 = ext_flux loops B i.2) /\
  (forall j, List.In j (k_jj ks) -> exists z : Z,
     ext_flux loops' B' j.1.2 = ext_flux loops B j.1.2 + row_phase h theta j.2 + (IZR z * (PI + PI))%R).
(** The junctions move 0 or 1 Cooper pair through every charge mode (C25). *)
Definition unit_rows (h : hin) (ks : keys) : Prop :=
  forall j k, List.In j (k_jj ks) -> (k < hn h)%N -> hcharge h k ->
    t_wT (h_st h) j.2 k = 0 \/ t_wT (h_st h) j.2 k = 1 \/ t_wT (h_st h) j.2 k = - 1.
