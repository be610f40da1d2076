(** RuleSpec.v -- matrix elements, and the direction in which a junction moves Cooper pairs. *)
From Coq Require Import Reals.
From mathcomp Require Import all_ssreflect all_algebra.
From mathcomp Require Import complex.
From Verif.Numerics Require Import RStruct Bridge.
From Verif.Model Require Import Op.

Set Implicit Arguments.
Unset Strict Implicit.
Unset Printing Implicit Defensive.
Import GRing.Theory.
Local Open Scope ring_scope.
Local Open Scope complex_scope.

(** <x|A|y> *)
Definition element (A : op) (x y : nat -> C) : C := \sum_(a < dim A) (x a)^* * \sum_(b < dim A) ent A a b * y b.
(** A junction that couples with [w] to an island moves this many pairs to it. *)
Definition moved (w : R) : R := if Rlt_dec w 0 then Ropp 1 else if Rlt_dec 0 w then 1 else 0.
(** Squared modulus. *)
Definition strength (z : C) : R := complex.Re z * complex.Re z + complex.Im z * complex.Im z.
