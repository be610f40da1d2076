(** HamConst.v -- the real prefactors of the circuit operators. *)
From Verif.Model Require Import Base Units.
Open Scope R_scope.

(** circuit.py 1487: [2*unt.e/np.sqrt(unt.hbar)] *)
Definition charge_unit : R := 2 * e_charge / sqrt hbar.
(** circuit.py 1489 without -1j, 1521 *)
Definition q_zp (Z : R) : R := sqrt (1 / 2 / Z).
Definition f_zp (Z : R) : R := sqrt (1 / 2 * Z).
(** circuit.py 1728 and 2667 *)
Definition halfR (x : R) : R := x / 2.
(** circuit.py 1801-1803 *)
Definition ind_coef (L phi : R) : R := / L * phi * (Phi0 / 2 / PI) / sqrt hbar.
(** k-th eigenvalue of [qt.charge((m - 1) / 2)] *)
Definition charge_at (m k : nat) : R := INR k - (INR m - 1) / 2.
(** circuit.py 473 and 1986: [x / (2 * np.pi * unt.get_unit_freq())] *)
Definition in_unit (u : ustate) (x : R) : R := x / (2 * PI * get_unit_freq u).
(** elements.py 703: default noise amplitude of a charge island *)
Definition noise_default : R := 1e-4.
