(** DecSpec.v -- conditions on the components of a circuit for the decoherence
    rates, and sums over its components. *)
From Coq Require Import Reals ZArith.
From Verif.Model Require Import Base Edge Elements LCWB Noise.
From Verif.Spec Require Import ThermalSpec.
From mathcomp Require Import all_ssreflect all_algebra.
From mathcomp Require Import complex.
From Verif.Numerics Require Import RStruct.
From Verif.Model Require Import Op Diag CircuitSM DecRate.

Set Implicit Arguments.
Unset Strict Implicit.
Unset Printing Implicit Defensive.
Import GRing.Theory.
Local Open Scope ring_scope.
Local Open Scope complex_scope.

(** Every capacitor, inductor and junction has a positive value, and the quality
    factors and admittances are positive where they are numbers. *)
Record positive (s : store) (q : quality) : Prop := mkPos {
  pos_val : forall el, Rlt 0 (evalue s el);
  pos_qcap : forall el Q w, q_cap q el = Some Q -> Rlt 0 (Q w);
  pos_qind : forall el w T Q, q_ind q el w T = Some Q -> Rlt 0 Q;
  pos_y : forall el w T Y, q_jj q el w T = Some Y -> Rle 0 Y }.

(** The rate depends on the temperature factor. *)
Definition thermal_type (dt : option dec_type) : bool :=
  match dt with Some DCap | Some DInd | Some DQp => true | _ => false end.

(** matrix element <v|A|w> and its squared modulus *)
Definition braket (v : cvec) (A : op) (w : cvec) : C :=
  \sum_(i < dim A) \sum_(j < dim A) (v i)^* * ent A i j * w j.
Definition modulus2 (z : C) : R :=
  (complex.Re z) ^+ 2 + (complex.Im z) ^+ 2.

(** Capacitors of the circuit with the edge they are on: the capacitors placed on
    the edges and those of the inductors and junctions placed there. *)
Definition capacitors (s : store) (x : circ) : seq (edge * nat) :=
  [seq (ee.1, match ekind s el with KCap => el | _ => ecap s el end) | ee <- x_dict x, el <- ee.2].

(** Two rates added; a call that raises makes the sum raise, and a sum with an
    infinite or undefined rate is not finite. *)
Definition both_rates (a b : res (option R)) : res (option R) :=
  match a, b with
  | Err e, _ => Err e
  | _, Err e => Err e
  | Ok (Some u), Ok (Some v) => Ok (Some (u + v))
  | _, _ => Ok None
  end.

(** Thermal weight of the transition from state m to state n (downwards if n < m),
    or of both directions. *)
Definition weight (total : bool) (m n : Z) (omega temp : R) : R :=
  if total then emission omega temp + absorption omega temp
  else if Z.ltb n m then emission omega temp else absorption omega temp.

(** Noise strength common to all dephasing rates. *)
Definition low_frequency (E : env) (K : R) : Prop :=
  Rlt 0 (omega_low E * t_exp E) /\ K = sqrt (Rmult (IZR 2) (Rabs (ln (omega_low E * t_exp E)))).

(** Difference of the slopes of two levels under a perturbation. *)
Definition slope (v w : cvec) (P : op) : R := complex.Re (braket v P v - braket w P w).
