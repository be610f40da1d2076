(** Thermal.v -- the real-valued parts of the decoherence rates: the thermal
    factors of dec_rate (circuit.py 2573-2595), [_dephasing] (2436-2454) and
    [partial_dephasing_rate] (torch_extensions.py 353-383).

    Numbers are exact; [None] stands for an infinite or NaN floating-point
    result. *)
From Verif.Model Require Import Base Units Noise.
Open Scope R_scope.

(** circuit.py 2575-2586: the pair (down, up).  With ENV['T'] = 0 numpy's
    quotient is infinite (NaN when omega is 0 too); 1/tanh(0) is infinite. *)
Definition thermal (E : env) (omega : R) : option (R * R) :=
  if Req_EM_T (T E) 0 then if Rlt_dec 0 omega then Some (2, 0) else None
  else
    let alpha := hbar * omega / (k_B * T E) in
    if Rlt_dec 709 alpha then Some (2, 0)
    else if Req_EM_T alpha 0 then None
    else let down := 1 + 1 / tanh (alpha / 2) in Some (down, down * exp (- alpha)).

(** circuit.py 2588-2595; [states = (m, n)] are Python ints. *)
Definition temp_factor (total : bool) (m n : Z) (du : R * R) : R :=
  if total then fst du + snd du
  else if Z.ltb n m then fst du else snd du.

(** [np.sqrt(2 * np.abs(np.log(ENV['omega_low'] * ENV['t_exp'])))]; the logarithm
    of 0 is infinite, of a negative number NaN. *)
Definition log_factor (E : env) : option R :=
  let x := omega_low E * t_exp E in
  if Rlt_dec 0 x then Some (sqrt (2 * Rabs (ln x))) else None.

(** circuit.py 2436-2454 *)
Definition dephasing (E : env) (A partial_omega : R) : option R :=
  match log_factor E with
  | None => None
  | Some k => Some (Rabs (partial_omega * A) * k)
  end.

(** [np.sign] *)
Definition sign (x : R) : R :=
  if Rlt_dec 0 x then 1 else if Rlt_dec x 0 then -1 else 0.

(** torch_extensions.py 353-383 *)
Definition partial_dephasing_rate (E : env) (A partial_A partial_omega partial2_omega : R) : option R :=
  match log_factor E with
  | None => None
  | Some k => Some (sign partial_omega * k * (partial_A * partial_omega + A * partial2_omega))
  end.
