(** LossSpec.v -- quadratic forms of transition amplitudes, and transitions of one
    photon. *)
From Coq Require Import Reals ZArith.
From Verif.Model Require Import Base.
From mathcomp Require Import all_ssreflect all_algebra.
From mathcomp Require Import complex.
From Verif.Numerics Require Import RStruct.
From Verif.Model Require Import Op CircuitSM.
From Verif.Spec Require Import DecSpec.

Set Implicit Arguments.
Unset Strict Implicit.
Unset Printing Implicit Defensive.
Import GRing.Theory.
Local Open Scope ring_scope.
Local Open Scope complex_scope.

(** sum_ij A_ij Re(z_i conj z_j) over the first [n] indices. *)
Definition form (n : nat) (A : nat -> nat -> R) (z : nat -> C) : R :=
  \sum_(i < n) \sum_(j < n)
    A i j * (complex.Re (z i) * complex.Re (z j) + complex.Im (z i) * complex.Im (z j)).

(** The state [v] is one of the product states, at position [a], up to a phase. *)
Definition only_at (a N : nat) (v : nat -> C) : Prop :=
  modulus2 (v a) = 1 /\ forall b, (b < N)%N -> b != a -> v b = 0.

(** [y] has one photon more than [x] in mode [i], and is the same otherwise. *)
Definition one_more (n : nat) (x y : nat -> nat) (i : nat) : Prop :=
  y i = (x i).+1 /\ forall k, (k < n)%N -> k != i -> y k = x k.

(** Calls that change no element value and rebuild nothing. *)
Definition leaves (c : call) : bool :=
  match c with SetComp _ _ | SetParams _ _ | Update _ => false | _ => true end.
