(** RateConst.v -- real expressions of the decoherence rates. *)
From Verif.Model Require Import Base Units.
Open Scope R_scope.

(** circuit.py 2567: [sqf.abs(omega2 - omega1)] *)
Definition abs_diff (omega2 omega1 : R) : R := Rabs (omega2 - omega1).
(** circuit.py 2627-2630 *)
Definition qp_factor (tempS Y omega EJ : R) : R := tempS * Y * omega * EJ * hbar.
