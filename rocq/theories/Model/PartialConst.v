(** PartialConst.v -- the real prefactors of the gradients. *)
From Verif.Model Require Import Base Units.
Open Scope R_scope.

(** circuit.py 2749-2751 without the sign: [1/L**2/sqrt(hbar)*(Phi0/2/pi)*phi] *)
Definition d_ind_coef (L phi : R) : R := / L ^ 2 / sqrt hbar * (Phi0 / 2 / PI) * phi.
(** circuit.py 2758-2763 *)
Definition loop_coef (b L : R) : R := b / L * Phi0 / sqrt hbar / 2 / PI.
(** torch_extensions.py 873-877 *)
Definition d_loop_coef (b L : R) : R := b / - L ^ 2 * Phi0 / sqrt hbar / 2 / PI.
(** torch_extensions.py 445-449, circuit.py 2499 *)
Definition ng_coef (c : R) : R := c / sqrt hbar.
(** circuit.py 2503: [self.charge_islands[i].A * 2 * unt.e] *)
Definition charge_amp (A : R) : R := A * 2 * e_charge.
