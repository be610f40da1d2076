(** RateGradSpec.v -- second-order response of a level, and results of a circuit
    whose component changes. *)
From Coq Require Import Reals ZArith.
From Verif.Model Require Import Base Edge Elements LCWB.
From Verif.Spec Require Import ThermalSpec.
From mathcomp Require Import all_ssreflect all_algebra.
From mathcomp Require Import complex.
From Verif.Numerics Require Import RStruct.
From Verif.Model Require Import Op Diag CircuitSM.
From Verif.Spec Require Import GradSpec PerturbSpec.

Set Implicit Arguments.
Unset Strict Implicit.
Unset Printing Implicit Defensive.
Import GRing.Theory.
Local Open Scope ring_scope.
Local Open Scope complex_scope.

(** <u|A|w> *)
Definition sandwich (N : nat) (u : nat -> C) (A : nat -> nat -> C) (w : nat -> C) : C :=
  \sum_(i < N) \sum_(j < N) (u i)^* * A i j * w j.

(** Change of <m|G|m> when the Hamiltonian changes by P and G by G2, over [K]
    eigenvectors [vec] with eigenvalues [fr]. *)
Definition second_order (N K : nat) (vec : nat -> nat -> C) (fr : nat -> R) (eps : R)
    (G G2 P : nat -> nat -> C) (m : nat) : R :=
  complex.Re (sandwich N (vec m) G2 (vec m)) +
  \sum_(k < K | (k : nat) != m)
    Rmult 2 (complex.Re (sandwich N (vec m) G (vec k) * sandwich N (vec k) P (vec m)))
      / (fr m - fr k + eps).

(** The components with the value of [c] replaced, and the circuit with the
    Hamiltonian formed for them and results [e] of its diagonalisation. *)
Definition changed (s : store) (c : LCWB.comp) (t : R) : store :=
  match c with CLoop l => with_flux s l t | CEl el => with_value s el t end.
Definition at_value (s : store) (x : circ) (c : LCWB.comp) (e : R -> eigres) (t : R) : circ :=
  put_eig (hamil (changed s c t) x).1 (e t).

(** The stored vector [m] is [v] up to a phase. *)
Definition up_to_phase (N : nat) (e : eigres) (m : nat) (v : nat -> C) : Prop :=
  (m < size (e_vecs e))%N /\ exists z : C, z^* * z = 1 /\
    forall i, (i < N)%N -> nth (fun=> 0) (e_vecs e) m i = z * v i.
Definition near (t0 : R) (Q : R -> Prop) : Prop :=
  exists delta, Rlt R0 delta /\ forall t, Rlt (Rabs (Rminus t t0)) delta -> Q t.

(** All levels of [h] have been computed. *)
Definition complete (N : nat) (h : nat -> nat -> C) (e : eigres) : Prop :=
  [/\ (1 < N)%N, size (e_freqs e) = N, size (e_vecs e) = N, orthonormal N (e_vecs e) &
      forall k, (k < N)%N -> eigen N h (nth 0 (e_freqs e) k) (nth (fun=> 0) (e_vecs e) k)].
(** The stored level [m] follows a normalised differentiable branch. *)
Definition tracked (N : nat) (h : R -> nat -> nat -> C) (t0 : R) (e : R -> eigres) (m : nat) : Prop :=
  exists v w dv dw, [/\ branch N h t0 v w dv dw, near t0 (fun t => dot N (v t) (v t) = 1),
    near t0 (fun t => up_to_phase N (e t) m (v t)) & w t0 = nth 0 (e_freqs (e t0)) m].

(** What the second-order formula over [K] of [N] levels, with [eps] added to the
    denominators, leaves out. *)
Definition left_out (N K : nat) (vec : nat -> nat -> C) (fr : nat -> R) (eps : R)
    (G G2 P : nat -> nat -> C) (m : nat) : R :=
  second_order N N vec fr 0 G G2 P m - second_order N K vec fr eps G G2 P m.
(** The first [K] levels of complete results. *)
Definition first_levels (K : nat) (e : eigres) : eigres := mkE (take K (e_freqs e)) (take K (e_vecs e)).
Definition simple_level (N : nat) (e : eigres) (m : nat) : Prop :=
  forall k, (k < N)%N -> k != m -> nth 0 (e_freqs e) m <> nth 0 (e_freqs e) k.
