(** OneNodeSpec.v -- the textbook Hamiltonians (in rad/s) of a circuit of one node: an
    island with junctions, and an oscillator with inductors and junctions. *)
From Coq Require Import Reals ZArith List.
From Verif.Model Require Import Base Units Edge Elements LCWB.
From Verif.Spec Require Import CircuitSpec.
From mathcomp Require Import all_ssreflect all_algebra.
From mathcomp Require Import complex.
From Verif.Numerics Require Import RStruct Bridge.
From Verif.Model Require Import Op.

Set Implicit Arguments.
Unset Strict Implicit.
Unset Printing Implicit Defensive.
Import GRing.Theory.
Local Open Scope ring_scope.
Local Open Scope complex_scope.

(** The junctions and the inductors between the node and ground, with the external
    phase of each. *)
Definition part_list (p : nat -> bool) (s : store) (els : seq nat) (phase : nat -> R) : seq (R * R) :=
  [seq (evalue s bo.2, phase bo.1) | bo <- CircuitSpec.enum (List.filter (inductive_el s) els) & p bo.2].

(** (2e)^2/(2C) (n - ng)^2 - sum_J E_J cos(phi + phase_J) in the basis of the [m] charges
    around zero; e^{i phi} adds a Cooper pair. *)
Definition charging (c ng : R) (n : R) : R :=
  Rdiv (Rmult (Rdiv (Rsqr (Rmult 2 e_charge)) (Rmult 2 c)) (Rsqr (Rminus n ng))) hbar.
Definition centre (m : nat) : R := Rdiv (Rminus (INR m) 1) 2.
Definition island (c ng : R) (jjs : seq (R * R)) (m a b : nat) : C :=
  (if a == b then (charging c ng (Rminus (INR a) (centre m)))%:C else 0)
  - \sum_(j <- jjs) (Rdiv j.1 2)%:C * (if a == b.+1 then expi j.2 else if b == a.+1 then (expi j.2)^* else 0).

(** omega a+ a + sum_L (Phi0/2pi) phase_L / L Phi - sum_J E_J cos(phi + phase_J), where
    omega = 1/sqrt(L C), Phi and phi = 2pi Phi/Phi0 are the flux and the phase of the node with
    zero-point values sqrt(hbar/2 sqrt(L/C)) and 2pi/Phi0 times it; [sg] is the sign
    chosen for the mode.  [l] is the total inverse inductance, [disp] the displacement
    operators. *)
Definition zero_point (c l : R) : R := sqrt (Rmult (Rdiv hbar 2) (sqrt (Rdiv (Rinv l) c))).
Definition position (a b : nat) : C :=
  if b == a.+1 then (sqrt (INR b))%:C else if a == b.+1 then (sqrt (INR a))%:C else 0.
Definition oscillator_of (disp : nat -> C -> op) (sg c l : R) (inds jjs : seq (R * R)) (m a b : nat) : C :=
  let D := disp m ('i * (Rmult sg (Rmult (Rdiv (Rmult 2 PI) Phi0) (zero_point c l)))%:C) in
  (if a == b then (Rmult (INR a) (Rinv (sqrt (Rmult (Rinv l) c))))%:C else 0)
  + \sum_(j <- inds) (Rdiv (Rmult (Rdiv (Rmult j.2 (Rdiv Phi0 (Rmult 2 PI))) j.1) (Rmult sg (zero_point c l))) hbar)%:C * position a b
  - \sum_(j <- jjs) j.1%:C * (2%:R^-1 * (expi j.2 * ent D a b + (expi j.2 * ent D b a)^*)).
