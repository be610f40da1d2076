(** GradSpec.v -- what it means for an operator to be the derivative of another. *)
From Coq Require Import Reals ZArith.
From Verif.Model Require Import Base Edge Elements LCWB.
From Verif.Spec Require Import ThermalSpec.
From mathcomp Require Import all_ssreflect all_algebra.
From mathcomp Require Import complex.
From Verif.Numerics Require Import RStruct.
From Verif.Model Require Import Op.

Set Implicit Arguments.
Unset Strict Implicit.
Unset Printing Implicit Defensive.
Import GRing.Theory.
Local Open Scope ring_scope.
Local Open Scope complex_scope.

(** A complex-valued function of a real parameter. *)
Definition cderiv (f : R -> C) (t : R) (z : C) : Prop :=
  has_derivative (fun u => complex.Re (f u)) t (complex.Re z) /\
  has_derivative (fun u => complex.Im (f u)) t (complex.Im z).

(** Matrix entries of a result; the Python number 0 is the zero operator. *)
Definition opt_entry (P : option op) (a b : nat) : C := if P is Some A then ent A a b else 0.
Definition res_entry (r : res op) (a b : nat) : C := if r is Ok A then ent A a b else 0.
Definition grad_entry (r : res (option op)) (a b : nat) : C := if r is Ok P then opt_entry P a b else 0.

(** The components with one value replaced: the flux of a loop, the value of an
    element. *)
Definition with_flux (s : store) (l : nat) (t : R) : store :=
  mkStore (ekind s) (evalue s) (ereq s) (eleaf s) (ecap s) (eloops s)
    (fun j => if Nat.eqb j l then t else lvalue s j) (lreq s) (lleaf s).
Definition with_value (s : store) (el : nat) (v : R) : store :=
  mkStore (ekind s) (fun j => if Nat.eqb j el then v else evalue s j) (ereq s) (eleaf s) (ecap s)
    (eloops s) (lvalue s) (lreq s) (lleaf s).

From Verif.Model Require Import Diag CircuitSM Partial.
(** What [_get_partial_H] returns once the Hamiltonian has been formed for the
    values [s]. *)
Definition reported_grad (s : store) (x : circ) (c : LCWB.comp) (b : option nat) : res (option op) :=
  partial_H s (hamil s x).1 c b.
