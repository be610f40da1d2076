(** ResidualSpec.v -- eigensolvers that answer up to a residual. *)
From Coq Require Import Reals ZArith.
From Verif.Model Require Import Base Units HamConst.
From mathcomp Require Import all_ssreflect all_algebra.
From mathcomp Require Import complex.
From Verif.Numerics Require Import RStruct Bridge.
From Verif.Model Require Import Op Transform Ham Diag.
From Verif.Spec Require Import OpSpec LevelsSpec.

Set Implicit Arguments.
Unset Strict Implicit.
Unset Printing Implicit Defensive.
Import GRing.Theory.
Local Open Scope ring_scope.
Local Open Scope complex_scope.

(** |A v - z v| <= eps |v| with [v] not zero. *)
Definition residual (A : op) (z : C) (v : nat -> C) : nat -> C :=
  fun a => \sum_(b < dim A) ent A a b * v b - z * v a.
Definition near_pair (eps : R) (A : op) (z : C) (v : nat -> C) : Prop :=
  Rlt 0 (weight (dim A) v) /\
  Rle (weight (dim A) (residual A z v)) (Rmult (Rmult eps eps) (weight (dim A) v)).
(** Every pair the solver answers with. *)
Definition near_solver (eps : R) (eigs : eigs_fun) (A : op) (k : Z) : Prop := forall ncv lam V,
  eigs A k ncv = EigsOk lam V -> forall i, (i < size lam)%N -> near_pair eps A (nth 0 lam i) (fun x => V x i).
(** [k] orthonormal vectors in [N] dimensions. *)
Definition orthonormal (N k : nat) (u : nat -> nat -> C) : Prop :=
  forall i j, (i < k)%N -> (j < k)%N -> \sum_(a < N) (u i a)^* * u j a = if i == j then 1 else 0.
