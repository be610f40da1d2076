(** BesselSpec.v -- the modified Bessel functions K0, K1 and their scaled values. *)
From Coq Require Import Reals.
From Verif.Spec Require Import ThermalSpec.
Open Scope R_scope.

(** [K0], [K1] are positive with K0' = - K1 (DLMF 10.29.3), and [kve n] is
    [Kn] times the exponential, as SciPy's kve. *)
Record bessel (K0 K1 : R -> R) (kve : nat -> R -> R) : Prop := {
  bs_deriv : forall x, 0 < x -> has_derivative K0 x (- K1 x);
  bs_pos0 : forall x, 0 < x -> 0 < K0 x;
  bs_pos1 : forall x, 0 < x -> 0 < K1 x;
  bs_kve0 : forall x, 0 < x -> kve 0%nat x = exp x * K0 x;
  bs_kve1 : forall x, 0 < x -> kve 1%nat x = exp x * K1 x }.

(** [hbar omega / (2 k_B T)] *)
Definition half_ratio (omega temp : R) : R := thermal_ratio omega temp / 2.
(** Logarithmic slopes: of the default quality factor of a capacitor, of an inductor
    and of the default admittance of a junction. *)
Definition slope_cap (omega : R) : R := - (7 / 10) / omega.
Definition slope_ind (K0 K1 : R -> R) (omega temp : R) : R :=
  let b := half_ratio omega temp in (K1 b / K0 b - coth b) * b / omega.
Definition slope_jj (K0 K1 : R -> R) (omega temp : R) : R :=
  let b := half_ratio omega temp in (b * coth b - b * (K1 b / K0 b) - 1) / omega.
