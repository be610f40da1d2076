(** LowestSpec.v -- what the eigensolver of the NumPy engine promises. *)
From Coq Require Import Reals ZArith.
From Verif.Model Require Import Base Units HamConst.
From mathcomp Require Import all_ssreflect all_algebra.
From mathcomp Require Import complex.
From Verif.Numerics Require Import RStruct Bridge.
From Verif.Model Require Import Op Diag.
From Verif.Spec Require Import LevelsSpec.

Set Implicit Arguments.
Unset Strict Implicit.
Unset Printing Implicit Defensive.
Import GRing.Theory.
Local Open Scope ring_scope.
Local Open Scope complex_scope.

(** scipy.sparse.linalg.eigs(H, k, which='SR'): if it answers, with the [k] eigenvalues
    of smallest real part, each as often as it occurs, in any order. *)
Definition smallest (eigs : eigs_fun) (A : op) (k : nat) : Prop := forall ncv lam V,
  eigs A (Z.of_nat k) ncv = EigsOk lam V ->
  exists2 E, energies A E & (k <= dim A)%N /\ perm_eq lam [seq (E i)%:C | i <- iota 0 k].

(** Angular frequency of one unit of frequency. *)
Definition unit_rad (u : ustate) : R := Rmult (Rmult (IZR 2) PI) (get_unit_freq u).
