(** CompositeSpec.v -- a system of coupled circuits treated as one circuit: its
    Hamiltonian on the product of the circuits' full spaces, and product states. *)
From Coq Require Import Reals ZArith String.
From Verif.Model Require Import Base Units Elements Edge LCWB HamConst.
From mathcomp Require Import all_ssreflect all_algebra.
From mathcomp Require Import complex.
From Verif.Numerics Require Import RStruct Bridge.
From Verif.Model Require Import Transform Op Ham Diag CircuitSM Partial.
From Verif.Spec Require Import OpSpec EigSpec PerturbSpec SessionSpec SystemSpec.

Set Implicit Arguments.
Unset Strict Implicit.
Unset Printing Implicit Defensive.
Import GRing.Theory.
Local Open Scope ring_scope.
Local Open Scope complex_scope.

(** As [diagonalised], where [H] is the Hamiltonian diag() was applied to. *)
Definition diagonalised_as (disp : nat -> C -> op) (optim : bool) (x : circ) (H : op) : Prop :=
  exists o s lobj fd d x0 u cs tr w eigs argsort k r,
    [/\ construct optim o s lobj fd d = Some (Ok x0) /\ (forall m a, dim (disp m a) = m),
        run disp optim (mkW s u x0) cs = Some tr,
        updates_ok optim (mkW s u x0) cs tr /\ w = final (mkW s u x0) tr,
        sorts argsort /\ (hamil (w_s w) (w_x w)).2 = Ok H /\ solves eigs H k &
        diag_sm eigs argsort (w_u w) (Some k) (w_s w) (w_x w) = (x, Ok r)].

(** The product of the states psi_0, ..., psi_{n-1} of spaces of dimensions D: the
    amplitude of the basis state with digits d is the product of the amplitudes. *)
Fixpoint product_state (D : nat -> nat) (psi : nat -> cvec) (n : nat) : cvec :=
  if n is n'.+1 then fun x => product_state D psi n' (x %/ D n')%N * psi n' (x %% D n')%N else fun=> 1.

(** The circuits' Hamiltonians and a quadratic form of the charges, on the whole
    space: [HH k] acts as the Hamiltonian of circuit [k], [QQ i] as charge [i]. *)
Definition composite (n N : nat) (D : nat -> nat) (HH QQ : nat -> op) (A : nat -> nat -> R) : op :=
  Op (\prod_(k < n) D k)%N (fun x y => \sum_(k < n) ent (HH k) x y +
    \sum_(i < N) \sum_(j < N) (halfR (A i j))%:C * ent (omul (QQ i) (QQ j)) x y).

(** What is lost between two states when the charges are multiplied after the
    restriction to the states [vs] instead of before. *)
Definition leak (vs : seq cvec) (Qi Qj : op) (a b : nat) : C :=
  inner (nth (fun=> 0) vs a) (omul Qi Qj) (nth (fun=> 0) vs b) -
  \sum_(l < size vs) inner (nth (fun=> 0) vs a) Qi (nth (fun=> 0) vs l) *
                     inner (nth (fun=> 0) vs l) Qj (nth (fun=> 0) vs b).
