(** PerturbSpec.v -- inner products, and eigenpairs that depend differentiably on
    a parameter. *)
From Coq Require Import Reals.
From Verif.Model Require Import Base Edge LCWB.
From Verif.Spec Require Import ThermalSpec.
From mathcomp Require Import all_ssreflect all_algebra.
From mathcomp Require Import complex.
From Verif.Numerics Require Import RStruct.
From Verif.Model Require Import Transform Op Ham Diag CircuitSM.
From Verif.Spec Require Import GradSpec.

Set Implicit Arguments.
Unset Strict Implicit.
Unset Printing Implicit Defensive.
Import GRing.Theory.
Local Open Scope ring_scope.
Local Open Scope complex_scope.

Definition dot (N : nat) (v w : nat -> C) : C := \sum_(i < N) (v i)^* * w i.
Definition apply_to (N : nat) (h : nat -> nat -> C) (v : nat -> C) : nat -> C :=
  fun i => \sum_(j < N) h i j * v j.
Definition orthonormal (N : nat) (vs : seq (nat -> C)) : Prop :=
  forall i j, (i < size vs)%N -> (j < size vs)%N ->
    dot N (nth (fun=> 0) vs i) (nth (fun=> 0) vs j) = if i == j then 1 else 0.
Definition hermitian (N : nat) (h : nat -> nat -> C) : Prop :=
  forall i j, (i < N)%N -> (j < N)%N -> h i j = (h j i)^*.
Definition eigen (N : nat) (h : nat -> nat -> C) (w : R) (v : nat -> C) : Prop :=
  forall i, (i < N)%N -> apply_to N h v i = w%:C * v i.

(** Near [t0] the pair (w t, v t) solves the eigenproblem of [h t], and both are
    differentiable at [t0]. *)
Record branch (N : nat) (h : R -> nat -> nat -> C) (t0 : R)
    (v : R -> nat -> C) (w : R -> R) (dv : nat -> C) (dw : R) : Prop := mkBr {
  br_eigen : exists delta, Rlt R0 delta /\ forall t, Rlt (Rabs (Rminus t t0)) delta -> eigen N (h t) (w t) (v t);
  br_vec : forall i, (i < N)%N -> cderiv (fun t => v t i) t0 (dv i);
  br_val : has_derivative w t0 dw }.

(** The circuit's Hamiltonian as a function of the value of one component. *)
Definition comp_value (s : store) (c : LCWB.comp) : R :=
  match c with CLoop l => lvalue s l | CEl el => evalue s el end.
Definition ham_family (s : store) (x : circ) (c : LCWB.comp) (t : R) (i j : nat) : C :=
  res_entry (hamil (match c with CLoop l => with_flux s l t | CEl el => with_value s el t end) x).2 i j.
