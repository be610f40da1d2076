(** SweetSpec.v -- bias points unchanged by reversal of the fluxes and charges. *)
From Coq Require Import Reals ZArith.
From Verif.Model Require Import Base Units Edge LCWB Accuracy HamConst.
From mathcomp Require Import all_ssreflect all_algebra.
From mathcomp Require Import complex.
From Verif.Numerics Require Import RStruct Bridge.
From Verif.Model Require Import Op Transform Ham.
From Verif.Spec Require Import OpSpec EigSpec SymmetrySpec.

Set Implicit Arguments.
Unset Strict Implicit.
Unset Printing Implicit Defensive.
Import GRing.Theory.
Local Open Scope ring_scope.
Local Open Scope complex_scope.

(** A level without another one at the same energy. *)
Definition lone (A : op) (z : R) (v : nat -> C) : Prop :=
  eigenpair A z%:C v /\
  forall w, eigenpair A z%:C w -> exists c : C, forall i, (i < dim A)%N -> w i = c * v i.

(** No external flux across any inductor, and across any junction a whole number of
    half flux quanta. *)
Definition still (loops : seq R) (B : arr) (ks : keys) : Prop :=
  (forall k, List.In k (k_ind ks) -> ext_flux loops B k.2 = 0) /\
  (forall k, List.In k (k_jj ks) -> sin (ext_flux loops B k.1.2) = 0).
(** No external flux anywhere. *)
Definition unbiased (loops : seq R) : Prop := forall x, x \in loops -> x = 0.
(** All gate charges zero. *)
Definition uncharged (h : hin) : Prop := forall i, h_ng h i = 0.

(** States unchanged ([true]) or reversed in sign ([false]) by reversal of all
    phases and charges. *)
Definition of_parity (h : hin) (p : bool) (v : nat -> C) : Prop :=
  forall I, (I < \prod_(k < hn h) hm h k)%N -> mir_state h v I = (if p then 1 else -1) * v I.
