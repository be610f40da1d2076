(** OrderSpec.v -- circuits that differ in their capacitances. *)
From Coq Require Import Reals ZArith.
From Verif.Model Require Import Base Units Edge LCWB Accuracy HamConst.
From mathcomp Require Import all_ssreflect all_algebra.
From mathcomp Require Import complex.
From Verif.Numerics Require Import RStruct Bridge.
From Verif.Model Require Import Op Transform Ham.

Set Implicit Arguments.
Unset Strict Implicit.
Unset Printing Implicit Defensive.
Import GRing.Theory.
Local Open Scope ring_scope.

(** The quadratic form of an array. *)
Definition quad (n : nat) (A : nat -> nat -> R) (y : nat -> R) : R :=
  \sum_(i < n) \sum_(j < n) A i j * (y i * y j).
(** [A] is at most [A'] as a quadratic form. *)
Definition below (n : nat) (A A' : nat -> nat -> R) : Prop := forall y, Rle (quad n A y) (quad n A' y).
Definition symmetric (n : nat) (A : nat -> nat -> R) : Prop :=
  forall i j, (i < n)%N -> (j < n)%N -> A i j = A j i.

(** Every mode is a charge mode. *)
Definition islands (h : hin) : Prop := forall i, (i < hn h)%N -> hcharge h i.
(** The same charge states, gate charges and couplings to the junctions. *)
Definition same_islands (h h' : hin) : Prop :=
  [/\ islands h, islands h', hn h = hn h', h_m h = h_m h' &
      (forall i, (i < hn h)%N -> h_ng h i = h_ng h' i) /\
      (forall i j, (j < hn h)%N -> t_wT (h_st h) i j = t_wT (h_st h') i j)].
