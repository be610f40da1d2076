(** TransSpec.v -- what is assumed of the numerical routines used by the
    coordinate transformations. *)
From Coq Require Import Reals.
From mathcomp Require Import all_ssreflect all_algebra.
From Verif.Numerics Require Import RStruct Bridge.

Set Implicit Arguments.
Unset Strict Implicit.
Unset Printing Implicit Defensive.
Import GRing.Theory.
Local Open Scope ring_scope.

(** A symmetric square root (scipy.linalg.sqrtm of a symmetric positive
    semidefinite matrix). *)
Definition root_of n (A Ar : 'M[R]_n) : Prop := Ar^T = Ar /\ Ar *m Ar = A.

(** A singular value decomposition A = X diag(D) U. *)
Definition svd_of n (A X U : 'M[R]_n) (D : 'rV[R]_n) : Prop :=
  [/\ X^T *m X = 1%:M, U *m U^T = 1%:M, A = X *m diag_mx D *m U & forall i, Rle 0 (D 0 i)].

(** The Hamiltonian of n modes in normal form: first n - k harmonic modes with
    positive frequencies, each decoupled from every other mode, then k charge
    modes with no inductive energy, coupled among themselves by capacitance. *)
Definition normal_form (n k : nat) (freq : nat -> R) (om : nat -> R) (cI lT : nat -> nat -> R) : Prop :=
  (k <= n)%N /\
  (forall i, (i < n - k)%N ->
     Rlt 0 (freq i) /\ om i = freq i /\
     Rlt 0 (cI i i) /\ Rlt 0 (lT i i) /\ freq i = sqrt (Rmult (cI i i) (lT i i)) /\
     (forall j, (j < n)%N -> j <> i -> cI i j = R0 /\ cI j i = R0 /\ lT i j = R0 /\ lT j i = R0)) /\
  (forall i, (n - k <= i < n)%N ->
     om i = R0 /\ Rlt 0 (cI i i) /\ (forall j, (j < n)%N -> lT i j = R0)).
