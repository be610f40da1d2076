(** HermiteSpec.v -- Hermite polynomials and the normalised Hermite functions. *)
From Coq Require Import Reals.
Open Scope R_scope.

(** Probabilists' polynomials: He_{n+1}(x) = x He_n(x) - n He_{n-1}(x). *)
Fixpoint He (n : nat) (x : R) : R :=
  match n with
  | O => 1
  | S m => match m with O => x | S k => x * He m x - INR m * He k x end
  end.

(** Physicists' polynomials: H_{n+1}(x) = 2 x H_n(x) - 2 n H_{n-1}(x). *)
Fixpoint Hp (n : nat) (x : R) : R :=
  match n with
  | O => 1
  | S m => match m with O => 2 * x | S k => 2 * x * Hp m x - 2 * INR m * Hp k x end
  end.

(** The n-th Hermite function. *)
Definition hfun (n : nat) (x : R) : R :=
  Hp n x * exp (- (x * x) / 2) / sqrt (sqrt PI * 2 ^ n * INR (fact n)).

(** The n-th oscillator function of a mode in a coordinate x with c x dimensionless. *)
Definition chi (c : R) (n : nat) (x : R) : R := sqrt c * hfun n (c * x).

(** Norm of a plane wave on the circle. *)
Definition pnorm : R := / sqrt (2 * PI).

(** Charges -offset .. offset of a mode with m levels. *)
Definition offset (m : nat) : R := (INR m - 1) / 2.
