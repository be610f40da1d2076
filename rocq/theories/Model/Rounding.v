(** Rounding.v -- numeric constants and rounding of the flux distribution. *)
From Coq Require Import Reals ZArith.
Open Scope R_scope.

(** functions.py 321: default tolerance 1e-5 of remove_dependent_columns. *)
Definition tol : R := 1 / 10 ^ 5.

(** Round half to even, as [np.around] does. *)
Definition round_even (x : R) : Z :=
  let f := Int_part x in
  let d := frac_part x in
  if Rlt_dec d (1 / 2) then f
  else if Rlt_dec (1 / 2) d then Z.succ f
  else if Z.even f then f else Z.succ f.

(** [np.around(x, 5)] (circuit.py 824). *)
Definition around5 (x : R) : R := IZR (round_even (x * 10 ^ 5)) / 10 ^ 5.
