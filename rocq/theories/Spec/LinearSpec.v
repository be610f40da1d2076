(** LinearSpec.v -- the resonances of a network of capacitors and inductors, and the
    energies of a circuit without junctions. *)
From Coq Require Import Reals.
From Verif.Model Require Import Base Units HamConst.
From mathcomp Require Import all_ssreflect all_algebra.
From Verif.Numerics Require Import RStruct Bridge.

Set Implicit Arguments.
Unset Strict Implicit.
Unset Printing Implicit Defensive.
Import GRing.Theory.
Local Open Scope ring_scope.

(** An oscillation of the node fluxes at frequency [w]: C x'' = - L x has the solution
    x cos(w t), where [L] is the matrix of inverse inductances. *)
Definition oscillates n (C L : 'M[R]_n) (w : R) (x : 'cV[R]_n) : Prop :=
  x != 0 /\ L *m x = w ^+ 2 *: (C *m x).

(** All resonances, each as often as it occurs: det(L - w^2 C) has these zeros. *)
Definition resonances n (C L : 'M[R]_n) (ws : seq R) : Prop :=
  (forall w, w \in ws -> Rle 0 w) /\
  forall x : R, \det (L - x *: C) = \det C * \prod_(w <- ws) (w ^+ 2 - x).

(** The energy over hbar of the state with [d i] photons in each harmonic mode, or
    [d i] counted from the lowest charge in a charge mode: sum_i w_i d_i plus
    half the sum of A_ij q_i q_j over the charge modes, q = 2e (N - ng)/sqrt hbar. *)
Section Level.
Variables (n : nat) (om : nat -> R) (charge : nat -> bool) (A : nat -> nat -> R) (size_ : nat -> nat) (ng : nat -> R).
Definition cooper (d : nat -> nat) (i : nat) : R :=
  Rmult (Rdiv (Rmult 2 e_charge) (sqrt hbar)) (Rminus (Rminus (INR (d i)) (Rdiv (Rminus (INR (size_ i)) 1) 2)) (ng i)).
Definition level (d : nat -> nat) : R :=
  \sum_(i < n | ~~ charge i) om i * INR (d i) +
  Rdiv (\sum_(i < n | charge i) \sum_(j < n | charge j) A i j * cooper d i * cooper d j) 2.
End Level.

(** All states of modes with [dims 0], ..., [dims (n-1)] states each. *)
Fixpoint states (dims : nat -> nat) (n : nat) : seq (seq nat) :=
  if n is n'.+1 then [seq rcons s x | s <- states dims n', x <- iota 0 (dims n')] else [:: [::]].

(** The numbers of [l] in ascending order. *)
Definition ascending (l : seq R) : seq R := sort Num.Def.ler l.
