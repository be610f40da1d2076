(** MatrixSpec.v -- what the matrix functions should compute. *)
From Coq Require Import Reals ZArith.
From mathcomp Require Import all_ssreflect all_algebra.
From mathcomp Require Import complex.
From Verif.Numerics Require Import RStruct.
From Verif.Model Require Import Op Matrix.

Set Implicit Arguments.
Unset Strict Implicit.
Unset Printing Implicit Defensive.
Import GRing.Theory.
Local Open Scope ring_scope.
Local Open Scope complex_scope.

(** [a] is an n x m matrix with entries [x]. *)
Definition holds (a : obj) (n m : nat) (x : nat -> nat -> C) : Prop :=
  o_shape a = [:: n; m] /\ forall i j, (i < n)%N -> (j < m)%N -> o_ent a i j = x i j.
(** [a] is a vector of length n. *)
Definition vector (a : obj) (n : nat) (x : nat -> C) : Prop :=
  o_shape a = [:: n] /\ forall i, (i < n)%N -> o_ent a i 0%N = x i.

(** The coordinates describe the matrix: the k-th value stands in the k-th row and
    column index, and the values at one position add up to the entry. *)
Definition coordinates (tocoo : obj -> seq nat * seq nat * seq C) (q : obj) : Prop :=
  let: (rows, cols, vals) := tocoo q in
  [/\ size rows = size vals, size cols = size vals &
      forall n m, o_shape q = [:: n; m] -> forall i j, (i < n)%N -> (j < m)%N ->
        \sum_(k < size vals) (if (nth 0%N rows k == i) && (nth 0%N cols k == j) then nth 0 vals k else 0) = o_ent q i j].

(** A matrix both engines accept: a tensor, or a qutip object of a supported
    layer whose coordinates are right. *)
Definition usable (tocoo : obj -> seq nat * seq nat * seq C) (a : obj) : Prop :=
  match o_kind a with
  | KTen _ => True
  | KQobj CSR | KQobj Dia => coordinates tocoo a
  | KQobj Dense => True
  | _ => False
  end.
