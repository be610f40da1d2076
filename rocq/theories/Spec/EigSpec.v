(** EigSpec.v -- eigenpairs, ascending lists, and the contract of argsort. *)
From Coq Require Import Reals.
From mathcomp Require Import all_ssreflect all_algebra.
From mathcomp Require Import complex.
From Verif.Numerics Require Import RStruct.
From Verif.Model Require Import Op.

Set Implicit Arguments.
Unset Strict Implicit.
Unset Printing Implicit Defensive.
Import GRing.Theory.
Local Open Scope ring_scope.
Local Open Scope complex_scope.

(** [H v = z v] with [v] not zero. *)
Definition eigenpair (H : op) (z : C) (v : nat -> C) : Prop :=
  (forall i, (i < dim H)%N -> \sum_(j < dim H) ent H i j * v j = z * v i) /\
  exists2 i, (i < dim H)%N & v i <> 0.

Definition ascending (l : seq R) : Prop :=
  forall i j, (i <= j < size l)%N -> Rle (nth 0 l i) (nth 0 l j).

(** numpy's order on complex numbers: by real part, then imaginary part. *)
Definition cle (a b : C) : Prop :=
  Rlt (complex.Re a) (complex.Re b) \/
  (complex.Re a = complex.Re b /\ Rle (complex.Im a) (complex.Im b)).

(** [argsort l] lists every position once, in an order that sorts [l]. *)
Definition sorts (argsort : seq C -> seq nat) : Prop :=
  forall l, perm_eq (argsort l) (iota 0 (size l)) /\
    forall i j, (i <= j < size l)%N ->
      cle (nth 0 l (nth 0%N (argsort l) i)) (nth 0 l (nth 0%N (argsort l) j)).
