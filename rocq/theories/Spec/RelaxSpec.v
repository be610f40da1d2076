(** RelaxSpec.v -- the relaxation rates as losses of the levels. *)
From Coq Require Import Reals ZArith.
From Verif.Model Require Import Base Noise Edge Elements LCWB RateConst.
From Verif.Spec Require Import ThermalSpec.
From mathcomp Require Import all_ssreflect all_algebra.
From mathcomp Require Import complex.
From Verif.Numerics Require Import RStruct.
From Verif.Model Require Import Op Diag CircuitSM Partial DecRate.
From Verif.Spec Require Import DecSpec RateGradSpec EigGradSpec.

Set Implicit Arguments.
Unset Strict Implicit.
Unset Printing Implicit Defensive.
Import GRing.Theory.
Local Open Scope ring_scope.
Local Open Scope complex_scope.

Definition rate_number (r : res (option R)) : R := if r is Ok (Some y) then y else 0.
(** Results with the given first [M] levels. *)
Definition results (M : nat) (w : nat -> R) (v : nat -> nat -> C) : eigres := mkE (mkseq w M) (mkseq v M).

(** The rate reported when component [c] has value [t] and diag has found the levels
    [w], [v]. *)
Definition rate_at (E : env) (q : quality) (s : store) (x : circ) (c : LCWB.comp) (dt : dec_type) (m n : nat)
    (total : bool) (t : R) (ev : eigres) : res (option R) :=
  dec_rate E (changed s c t) q (put_eig (hamil (changed s c t) x).1 ev) (Some dt) (Z.of_nat m) (Z.of_nat n) total.
Definition rate_loss (E : env) (q : quality) (s : store) (x : circ) (c : LCWB.comp) (dt : dec_type) (m n : nat)
    (total : bool) (M : nat) : R -> loss_fun :=
  fun t w v => rate_number (rate_at E q s x c dt m n total t (results M w v)).

(** The quality factors (admittances) are differentiable at a frequency, and the
    rate does not divide by zero there. *)
Definition smooth (s : store) (q : quality) (temp omega : R) (dt : dec_type) : Prop :=
  match dt with
  | DCap => forall el Q, q_cap q el = Some Q -> Q omega <> 0 /\ exists d, has_derivative Q omega d
  | DInd => forall el, near omega (fun w => q_ind q el w temp = None) \/ evalue s el <> 0 /\
      exists Q d, [/\ near omega (fun w => q_ind q el w temp = Some (Q w)), has_derivative Q omega d & Q omega <> 0]
  | DQp => forall el, near omega (fun w => q_jj q el w temp = None) \/
      exists Y d, near omega (fun w => q_jj q el w temp = Some (Y w)) /\ has_derivative Y omega d
  | _ => False
  end.
(** The thermal weight is differentiable: away from the frequency where the program
    cuts the exponential off. *)
Definition smooth_thermal (temp omega : R) : Prop :=
  temp = 0 \/ Rlt 0 temp /\ thermal_ratio omega temp <> IZR 709.
