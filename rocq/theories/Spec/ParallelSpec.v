(** ParallelSpec.v -- what an edge contributes to a circuit. *)
From Coq Require Import Reals ZArith List.
From Verif.Model Require Import Base Units Edge Elements LCWB.
From Verif.Spec Require Import CircuitSpec.
From mathcomp Require Import all_ssreflect all_algebra.
From mathcomp Require Import complex.
From mathcomp Require Import ssrZ.
From Verif.Numerics Require Import RStruct Bridge.
From Verif.Model Require Import Op.

Set Implicit Arguments.
Unset Strict Implicit.
Unset Printing Implicit Defensive.
Import GRing.Theory.
Local Open Scope ring_scope.
Local Open Scope complex_scope.

(** The elements between the same two nodes have the same total capacitance, the same total
    inverse inductance, and are alike in having junctions and in having inductors. *)
Definition same_edge (s s' : store) (p q : edge * seq nat) : Prop :=
  [/\ p.1 = q.1, edge_cap s p.2 = edge_cap s' q.2, edge_invind s p.2 = edge_invind s' q.2,
      existsb (is_jj s) p.2 = existsb (is_jj s') q.2 & existsb (is_ind s) p.2 = existsb (is_ind s') q.2].

(** Sum of E_J e^(i phase) over the junctions of the edge with row [w] of W. *)
Definition amplitude (s : store) (phase : nat -> R) (ks : seq (edge * nat * nat * nat)) (w : nat) : C :=
  \sum_(k <- ks | k.2 == w) (evalue s k.1.1.2)%:C * expi (phase k.1.2).
(** Sum of phase / L over the inductors of edge [e]. *)
Definition pull (s : store) (phase : nat -> R) (ks : seq (edge * nat * nat)) (e : edge) : R :=
  \sum_(k <- ks | k.1.1 == e) Rdiv (phase k.2) (evalue s k.1.2).

(** The same for a list of junctions of one edge. *)
Definition total_amplitude (jjs : seq (R * R)) : C := \sum_(j <- jjs) j.1%:C * expi j.2.
