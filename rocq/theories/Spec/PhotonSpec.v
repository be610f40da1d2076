(** PhotonSpec.v -- more photon states in the harmonic modes. *)
From Coq Require Import Reals ZArith.
From Verif.Model Require Import Base Units Edge Accuracy HamConst.
From mathcomp Require Import all_ssreflect all_algebra.
From mathcomp Require Import complex.
From Verif.Numerics Require Import RStruct Bridge.
From Verif.Model Require Import Op Transform Ham.
From Verif.Spec Require Import OpSpec LevelsSpec.

Set Implicit Arguments.
Unset Strict Implicit.
Unset Printing Implicit Defensive.
Import GRing.Theory.
Local Open Scope ring_scope.
Local Open Scope complex_scope.

(** At least as many photon states, and room for the charge states of [l] moved by [z]. *)
Definition wider (h : hin) (z : nat -> Z) (l l' : seq nat) : Prop := forall k, (k < hn h)%N ->
  if hcharge h k then (0 < nth 0 l k)%N /\ Z.le (Z.add (Z.of_nat (nth 0%N l k)) (Z.abs (z k))) (Z.of_nat (nth 0%N l' k))
  else (nth 0 l k <= nth 0 l' k)%N.

(** A junction whose phase contains no harmonic mode. *)
Definition charge_only (h : hin) (w : nat) : Prop :=
  forall k, (k < hn h)%N -> ~~ hcharge h k -> t_wT (h_st h) w k = 0.
