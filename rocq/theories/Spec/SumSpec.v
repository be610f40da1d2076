(** SumSpec.v -- junctions that move charge between islands. *)
From Coq Require Import Reals.
From Verif.Model Require Import Base.
From mathcomp Require Import all_ssreflect all_algebra.
From mathcomp Require Import complex.
From Verif.Numerics Require Import RStruct Bridge.
From Verif.Model Require Import Edge Op Transform Ham.

Set Implicit Arguments.
Unset Strict Implicit.
Unset Printing Implicit Defensive.
Import GRing.Theory.
Local Open Scope ring_scope.

(** The junctions with row [w] of W change the charge of some island. *)
Definition moves_charge (h : hin) (w : nat) : Prop :=
  exists i, [/\ (i < hn h)%N, hcharge h i & t_wT (h_st h) w i <> 0].
