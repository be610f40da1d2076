(** HalfSpec.v -- unitary matrices and the half-angle identity. *)
From Coq Require Import Reals.
From mathcomp Require Import all_ssreflect all_algebra.
From mathcomp Require Import complex.
From Verif.Numerics Require Import RStruct.
From Verif.Model Require Import Op.

Set Implicit Arguments.
Unset Strict Implicit.
Unset Printing Implicit Defensive.
Import GRing.Theory.
Local Open Scope ring_scope.
Local Open Scope complex_scope.

Definition unitary (A : op) : Prop :=
  eqop (omul A (oadj A)) (oeye (dim A)) /\ eqop (omul (oadj A) A) (oeye (dim A)).
Definition square_root (A B : op) : Prop := eqop (omul A A) B.

(** 2 sin(X/2)^2 = 1 - cos X *)
Definition half_angle (cosX sinhalf : op) : Prop :=
  eqop (oscale 2%:R (omul sinhalf sinhalf)) (osub (oeye (dim cosX)) cosX).
(** [A] is [z] times the identity. *)
Definition multiple (z : C) (A : op) : Prop :=
  forall i j, (i < dim A)%N -> (j < dim A)%N -> ent A i j = if i == j then z else 0.
