(** SweepSpec.v -- what a sweep should store: the answers for each grid value set
    by itself on the circuit the sweep was given. *)
From Coq Require Import Reals ZArith.
From Verif.Model Require Import Base Units Noise Edge Elements LCWB.
From mathcomp Require Import all_ssreflect all_algebra.
From Verif.Numerics Require Import RStruct Bridge.
From Verif.Model Require Import Op Diag CircuitSM DecRate Sweep.

Set Implicit Arguments.
Unset Strict Implicit.
Unset Printing Implicit Defensive.
Import GRing.Theory.
Local Open Scope ring_scope.

(** The value [v] set with [p] in the world [w0], and diag: it leaves [wi] and
    returns the frequencies [fr]. *)
Definition diag_at (eigs : eigs_fun) (argsort : seq C -> seq nat) (k : Z) (p : setter) (v : R) (w0 wi : world)
    (fr : seq R) : Prop :=
  exists w1 x ve, [/\ p v w0 = (w1, Ok tt),
    diag_sm eigs argsort (w_u w1) (Some k) (w_s w1) (w_x w1) = (x, Ok (fr, ve))
    & wi = mkW (w_s w1) (w_u w1) x].

(** [D t] is the decoherence rate of type [t] between the states 1 and 0. *)
Definition rates (E : env) (q : quality) (w : world) (D : dec_type -> option R) : Prop :=
  forall t, dec_rate E (w_s w) q (w_x w) (Some t) 1 0 true = Ok (D t).

(** scipy's eigs returns as many values as asked for and does not accept to be
    asked for none. *)
Definition sized (eigs : eigs_fun) : Prop := forall H k ncv lam V,
  eigs H k ncv = EigsOk lam V -> Z.of_nat (size lam) = k /\ Z.lt 0 k.
