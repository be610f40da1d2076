(** PhaseConst.v -- model of the factor a harmonic mode contributes to the phase
    representation of an eigenvector (circuit.py 2258-2301).

    Numbers are exact; the special functions are arguments.  The two SciPy
    functions answer [None] for nan and the infinities, which is when
    [np.isfinite] of the logarithm fails. *)
From Verif.Model Require Import Base Units.
Open Scope R_scope.

(** [eval_hermitenorm(n, x)], [hyperu(a, b, x)] and [mpmath.hermite(n, x)]. *)
Record slib := mkS { l_he : nat -> R -> option R; l_hyperu : R -> R -> R -> option R; l_mph : nat -> R -> R }.

(** [np.sign], [mpmath.sign] *)
Definition sgn (x : R) : R := if Rlt_dec x 0 then -1 else if Rlt_dec 0 x then 1 else 0.

(** circuit.py 2260-2261 *)
Definition len0 (cI lT : R) : R := sqrt (hbar * sqrt (cI / lT)).

(** [sum(np.log(np.arange(1, n + 1)))] *)
Fixpoint sum_ln (n : nat) : R := match n with O => 0 | S k => sum_ln k + ln (INR n) end.

(** circuit.py 2263-2268 *)
Definition coeff_log (n : nat) (x0 : R) : R :=
  - (1 / 4) * ln PI - 1 / 2 * sum_ln n - 1 / 2 * ln x0 + 1 / 2 * ln Phi0.

(** circuit.py 2270-2279: sign and logarithm from SciPy at one point. *)
Definition scipy_parts (L : slib) (n : nat) (x0 phi : R) : option (R * R) :=
  if Nat.ltb n 250 then
    match l_he L n (sqrt 2 * phi * Phi0 / x0) with
    | None => None
    | Some t => Some (if Req_EM_T t 0 then (0, 0) else (sgn t, ln (Rabs t)))
    end
  else
    match l_hyperu L (- (1 / 2) * INR n) (- (1 / 2)) ((phi * Phi0 / x0) ^ 2) with
    | None => None
    | Some u => Some (if Req_EM_T u 0 then (0, 0)
                      else (sgn phi ^ n, - (INR n / 2) * ln 2 * ln (Rabs u)))
    end.

(** circuit.py 2281-2293: mpmath where SciPy's logarithm is not finite. *)
Definition herm_parts (L : slib) (n : nat) (x0 phi : R) : R * R :=
  match scipy_parts L n x0 phi with
  | Some p => p
  | None => let h := l_mph L n (phi * Phi0 / x0) in
            if Req_EM_T h 0 then (0, 0) else (sgn h, ln (Rabs h) - INR n / 2 * ln 2)
  end.

(** circuit.py 2295-2301 *)
Definition harm_factor (L : slib) (n : nat) (x0 phi : R) : R :=
  let (s, l) := herm_parts L n x0 phi in
  s * exp (coeff_log n x0 + - (phi * Phi0 / x0) ^ 2 / 2 + l).

(** circuit.py 2254-2255, the real part of the prefactor. *)
Definition charge_norm : R := 1 / sqrt (2 * PI).
