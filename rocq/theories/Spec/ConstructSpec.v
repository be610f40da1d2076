(** ConstructSpec.v -- what the arguments of the constructors should mean. *)
From Coq Require Import Reals ZArith String Ascii.
From Verif.Model Require Import Base Units Settings Noise Elements Edge LCWB HamConst
  PartialConst Thermal RateConst.
From mathcomp Require Import all_ssreflect all_algebra.
From mathcomp Require Import complex.
From Verif.Numerics Require Import RStruct Bridge.
From Verif.Model Require Import Transform Op Ham Diag CircuitSM Partial DecRate Construct.

Set Implicit Arguments.
Unset Strict Implicit.
Unset Printing Implicit Defensive.
Import GRing.Theory.
Local Open Scope seq_scope.
Local Open Scope ring_scope.

(** An attribute as the function it is used as; [None]: no loss. *)
Definition of_cap (a : pyarg) : option (R -> R) := if a is AFun1 f then Some f else None.
Definition of_two (a : pyarg) : R -> R -> option R := if a is AFun2 f then f else fun _ _ => None.
Definition quality_of (q : nat -> pyarg) (aj al : nat -> R) : quality :=
  mkQual (fun i => of_cap (q i)) (fun i => of_two (q i)) (fun i => of_two (q i)) aj al.

(** The attribute can be used. *)
Definition cap_usable (a : pyarg) : bool := ~~ truthy a || (if a is AFun1 _ then true else false).
Definition two_usable (a : pyarg) : bool := if a is AFun2 _ then true else false.
(** The components whose attributes a kind of loss uses. *)
Definition usable (s : store) (q : nat -> pyarg) (x : circ) (l : loss) : Prop :=
  match l with
  | LCap => all (fun k => cap_usable (q (cap_of_el s k.2))) (placements x)
  | LInd => all (fun k => two_usable (q k.1)) (ind_mem x)
  | LQp => all (fun k => two_usable (q k.1)) (half_mem x)
  end.

(** The two states have frequency and vector. *)
Definition has_states (x : circ) (m n : Z) : Prop :=
  size (e_freqs (x_eig x)) <> 0%N /\
  exists w1 w2 v w, [/\ efreq x m = Ok w1, efreq x n = Ok w2, evec x m = Ok v & evec x n = Ok w].

(** No underscore. *)
Fixpoint plain (s : string) : bool :=
  match s with
  | EmptyString => true
  | String c s' => ~~ Ascii.eqb c "_"%char && plain s'
  end.
