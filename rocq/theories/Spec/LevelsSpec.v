(** LevelsSpec.v -- the energies of an operator in ascending order, each as often as
    it occurs, and bounds between operators. *)
From Coq Require Import Reals ZArith.
From Verif.Model Require Import Base Units Edge Accuracy HamConst.
From mathcomp Require Import all_ssreflect all_algebra.
From mathcomp Require Import complex.
From Verif.Numerics Require Import RStruct Bridge.
From Verif.Model Require Import Op Transform Ham.
From Verif.Spec Require Import OpSpec.

Set Implicit Arguments.
Unset Strict Implicit.
Unset Printing Implicit Defensive.
Import GRing.Theory.
Local Open Scope ring_scope.
Local Open Scope complex_scope.

(** [v] is an orthonormal basis of eigenvectors of [A] with energies [E]. *)
Definition levels_of (A : op) (E : nat -> R) (v : nat -> nat -> C) : Prop :=
  [/\ forall i j, (i <= j < dim A)%N -> Rle (E i) (E j),
      forall i a, (i < dim A)%N -> (a < dim A)%N ->
        \sum_(b < dim A) ent A a b * v i b = (E i)%:C * v i a &
      forall i j, (i < dim A)%N -> (j < dim A)%N ->
        \sum_(a < dim A) (v i a)^* * v j a = if i == j then 1 else 0].
Definition energies (A : op) (E : nat -> R) : Prop := exists v, levels_of A E v.

(** Expectation value and squared length of a vector. *)
Definition expect (A : op) (u : nat -> C) : R :=
  complex.Re (\sum_(i < dim A) (u i)^* * \sum_(j < dim A) ent A i j * u j).
Definition weight (n : nat) (u : nat -> C) : R := complex.Re (\sum_(i < n) (u i)^* * u i).

(** The states of [h] and [h'] with digits [d] and [e]: the same photons in the
    harmonic modes, and on the islands the same charge measured from the gate
    charge. *)
Definition same_charges (h h' : hin) (d e : nat -> nat) : Prop :=
  forall k, (k < hn h)%N ->
    if hcharge h k then Rminus (charge_at (hm h' k) (e k)) (h_ng h' k) = Rminus (charge_at (hm h k) (d k)) (h_ng h k)
    else e k = d k.
(** The same circuit with other gate charges and other numbers of charge states. *)
Definition same_circuit (h h' : hin) : Prop :=
  h_st h' = h_st h /\ forall k, (k < hn h)%N -> ~~ hcharge h k -> hm h' k = hm h k.
(** Every charge state of [h] has its place in [h']. *)
Definition covers (h h' : hin) (f : nat -> nat -> nat) : Prop :=
  forall d, legal (hm h) d (hn h) ->
    legal (hm h') (fun k => f k (d k)) (hn h) /\ same_charges h h' d (fun k => f k (d k)).

(** The circuit with other truncation numbers. *)
Definition truncated (h : hin) (l : seq nat) : hin :=
  mkH (h_st h) [seq (if hcharge h i then (2 * nth 0 l i).-1 else nth 0 l i)%N | i <- iota 0 (hn h)] (h_ng h) (h_C h).
(** The gate charges of [h'] are those of [h], raised by [z] Cooper pairs. *)
Definition raised (z : nat -> Z) (h h' : hin) : Prop :=
  h_st h' = h_st h /\ forall k, (k < hn h)%N -> h_ng h' k = Rplus (h_ng h k) (IZR (z k)).
(** Truncation numbers large enough for the charge states of [l] moved by [z]. *)
Definition roomier (h : hin) (z : nat -> Z) (l l' : seq nat) : Prop := forall k, (k < hn h)%N ->
  if hcharge h k then (0 < nth 0 l k)%N /\ Z.le (Z.add (Z.of_nat (nth 0%N l k)) (Z.abs (z k))) (Z.of_nat (nth 0%N l' k))
  else nth 0%N l' k = nth 0%N l k.
