(** Accuracy.v -- numeric thresholds (settings.py 4-8) and the scalar parts of the
    coordinate transformations. *)
From Coq Require Import Reals List.
From Verif.Model Require Import Units.
Open Scope R_scope.

Definition acc_sing : R := 1e-11.        (* ACC['sing_mode_detect'] *)
Definition acc_gs : R := 1e-6.           (* ACC['Gram-Schmidt'] *)
Definition acc_har : R := 1e-11.         (* ACC['har_mode_elim'] *)
Definition gs_reg : R := 1e-9.           (* circuit.py 962 *)

(** circuit.py 1002-1004: three masked assignments, one after the other. *)
Definition round01 (v : R) : R :=
  let v1 := if Rlt_dec (Rabs v) acc_gs then 0 else v in
  let v2 := if Rlt_dec (Rabs (v1 - 1)) acc_gs then 1 else v1 in
  if Rlt_dec (Rabs (v2 + 1)) acc_gs then -1 else v2.

(** circuit.py 1455-1469: impedance of a mode. *)
Definition impedance (cinv l : R) : R := sqrt (cinv / l).

(** circuit.py 1585-1601: zero-point fluctuation. *)
Definition phi_zp (cinv l : R) : R := (2 * PI / Phi0) * sqrt (hbar / 2 * impedance cinv l).

(** [np.max] of the first [m] values, [m >= 1]. *)
Fixpoint rmax (m : nat) (f : nat -> R) : R :=
  match m with
  | O => f O
  | S O => f O
  | S p => Rmax (rmax p f) (f p)
  end.

(** [np.argmax]: first position of the maximum. *)
Fixpoint argmax (m : nat) (f : nat -> R) : nat :=
  match m with
  | O => O
  | S O => O
  | S p => let b := argmax p f in if Rlt_dec (f b) (f p) then p else b
  end.

(** Euclidean norm of a vector of length n ([np.linalg.norm]). *)
Definition vnorm (n : nat) (v : nat -> R) : R :=
  sqrt ((fix sum (m : nat) := match m with O => 0 | S p => sum p + v p * v p end) n).

(** [(np.abs(v) > ACC['Gram-Schmidt']).any()] *)
Fixpoint any_big (n : nat) (v : nat -> R) : bool :=
  match n with
  | O => false
  | S p => any_big p v || (if Rlt_dec acc_gs (Rabs (v p)) then true else false)
  end.
