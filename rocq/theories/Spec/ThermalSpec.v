(** ThermalSpec.v -- emission and absorption at a temperature, and what the
    derivative of a function is. *)
From Coq Require Import Reals.
Open Scope R_scope.

(** photon energy over thermal energy *)
Definition thermal_ratio (omega temp : R) : R := 1.0545718e-34 * omega / (1.38e-23 * temp).
(** Bose-Einstein occupation number *)
Definition occupation (omega temp : R) : R := / (exp (thermal_ratio omega temp) - 1).
(** relative strength of emission (stimulated and spontaneous) and absorption *)
Definition emission (omega temp : R) : R := 2 * (occupation omega temp + 1).
Definition absorption (omega temp : R) : R := 2 * occupation omega temp.

Definition coth (x : R) : R := (exp x + exp (- x)) / (exp x - exp (- x)).

(** [f] has derivative [l] at [x]. *)
Definition has_derivative (f : R -> R) (x l : R) : Prop :=
  forall eps, 0 < eps -> exists delta, 0 < delta /\
    forall h, h <> 0 -> Rabs h < delta -> Rabs ((f (x + h) - f x) / h - l) < eps.
