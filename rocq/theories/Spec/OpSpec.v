(** OpSpec.v -- what it means for a matrix to be the operator of one mode, of two
    modes, to be Hermitian, to commute. *)
From Coq Require Import Reals.
From mathcomp Require Import all_ssreflect all_algebra.
From mathcomp Require Import complex.
From Verif.Numerics Require Import RStruct.
From Verif.Model Require Import Op.

Set Implicit Arguments.
Unset Strict Implicit.
Unset Printing Implicit Defensive.
Import GRing.Theory.
Local Open Scope ring_scope.
Local Open Scope complex_scope.

(** Number of the basis state with digits d, the first mode most significant. *)
Fixpoint posn (dims d : nat -> nat) (n : nat) : nat :=
  if n is n'.+1 then (posn dims d n' * dims n' + d n')%N else 0%N.

Definition legal (dims d : nat -> nat) (n : nat) : Prop := forall k, (k < n)%N -> (d k < dims k)%N.

(** [A] acts as the matrix [x] on mode [i] and trivially on the other modes. *)
Definition acts_on (n : nat) (dims : nat -> nat) (i : nat) (x : nat -> nat -> C) (A : op) : Prop :=
  dim A = (\prod_(k < n) dims k)%N /\
  forall d d', legal dims d n -> legal dims d' n ->
    ent A (posn dims d n) (posn dims d' n) =
    if [forall k : 'I_n, ((k : nat) == i) || (d k == d' k)] then x (d i) (d' i) else 0.

(** [A] acts as [x] on mode [i] and as [y] on mode [j]. *)
Definition acts_on2 (n : nat) (dims : nat -> nat) (i j : nat) (x y : nat -> nat -> C) (A : op) : Prop :=
  dim A = (\prod_(k < n) dims k)%N /\
  forall d d', legal dims d n -> legal dims d' n ->
    ent A (posn dims d n) (posn dims d' n) =
    if [forall k : 'I_n, [|| (k : nat) == i, (k : nat) == j | d k == d' k]]
    then x (d i) (d' i) * y (d j) (d' j) else 0.

Definition herm (A : op) : Prop := eqop A (oadj A).
Definition commute (A B : op) : Prop := eqop (omul A B) (omul B A).
