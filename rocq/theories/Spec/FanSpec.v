(** FanSpec.v -- orthonormal sets of as many states as there are dimensions, and the sum of
    the lowest energies. *)
From Coq Require Import Reals.
From mathcomp Require Import all_ssreflect all_algebra.
From mathcomp Require Import complex.
From Verif.Numerics Require Import RStruct Bridge.
From Verif.Model Require Import Op.

Set Implicit Arguments.
Unset Strict Implicit.
Unset Printing Implicit Defensive.
Import GRing.Theory.
Local Open Scope ring_scope.
Local Open Scope complex_scope.

Definition basis (N : nat) (u : nat -> nat -> C) : Prop :=
  forall i j, (i < N)%N -> (j < N)%N -> \sum_(a < N) (u i a)^* * u j a = if i == j then 1 else 0.
Definition lowest_sum (k : nat) (E : nat -> R) : R := \sum_(j < k) E j.
