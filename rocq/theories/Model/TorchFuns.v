(** TorchFuns.v -- functions.py, the functions with their own code in the PyTorch
    engine.  [kve] is SciPy's kve with an integer order, [sk0] PyTorch's
    scaled_modified_bessel_k0. *)
From Coq Require Import Reals ZArith.
From Verif.Model Require Import Rounding.
Open Scope R_scope.

(** functions.py 60-74.  For a tensor [a]; the value and the gradients autograd
    derives for [a] and [b] from the expression returned. *)
Definition t_maximum (a b : R) : R := if Rlt_dec b a then 0 * b + a else b.
Definition t_maximum_grad (g a b : R) : R * R := if Rlt_dec b a then (g, 0 * g) else (0, g).
Definition t_minimum (a b : R) : R := if Rlt_dec b a then 0 * a + b else a.
Definition t_minimum_grad (g a b : R) : R * R := if Rlt_dec b a then (0 * g, g) else (g, 0).

(** functions.py 95-98, [torch.round] rounds half to even like [np.round]. *)
Definition t_round (x : R) (a : nat) : R := IZR (round_even (x * 10 ^ a)) / 10 ^ a.

(** functions.py 129-138 and 141-156: K0eSolver *)
Definition k0e_forward (sk0 : R -> R) (x : R) : R := sk0 x.
Definition k0e_backward (kve : nat -> R -> R) (g x : R) : R := g * (kve 0%nat x - kve 1%nat x).

(** functions.py 159-182: LogK0Solver *)
Definition log_kv (kve : nat -> R -> R) (n : nat) (x : R) : R := ln (kve n x) - x.
Definition log_k0_forward (kve : nat -> R -> R) (x : R) : R := log_kv kve 0 x.
Definition log_k0_backward (kve : nat -> R -> R) (g x : R) : R :=
  g * -1 * exp (log_kv kve 1 x - log_kv kve 0 x).
