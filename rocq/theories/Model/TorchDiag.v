(** TorchDiag.v -- diagonalisation in the PyTorch engine: diag (circuit.py
    2016-2049), _diag_torch (1988-2014), eigencircuit and EigenSolver
    (torch_extensions.py 22-43 and 134-279).

    A tensor with one row per level, the value first, is the pair of a list of
    values and a list of vectors.  Stacking and concatenation fail where torch
    does: [torch.stack] of an empty list; [torch.cat] when [torch.squeeze] has
    removed the axis of the levels or of the entries because its length is 1.
    A denominator of shape (1,) divides a vector entry by entry.  A Python int 0
    as operator is TypeError here and RuntimeError in torch, as in TorchRates.v.
    The parameters are scalar tensors, so that [torch.stack] of them works. *)
From Coq Require Import Reals ZArith String.
From Verif.Model Require Import Base Units Settings Elements Edge LCWB HamConst.
From mathcomp Require Import all_ssreflect all_algebra.
From mathcomp Require Import complex.
From Verif.Numerics Require Import RStruct Bridge.
From Verif.Model Require Import Transform Op Ham Diag CircuitSM Copy Partial.

Set Implicit Arguments.
Unset Strict Implicit.
Unset Printing Implicit Defensive.
Import GRing.Theory.
Local Open Scope ring_scope.
Local Open Scope complex_scope.

(** What [ctx] holds: the copy of the circuit with the results, the number of
    levels, and up to which level eigenvectors get a gradient. *)
Record ectx := mkCtx { ec_x : circ; ec_n : nat; ec_max : Z }.

(** torch_extensions.py 179-181: what _diag_np returned, times 2 pi times the unit. *)
Definition times_unit (u : ustate) (f : R) : R := Rmult (Rmult (Rmult f 2) PI) (get_unit_freq u).
(** torch_extensions.py 184-190, 207: shapes (n, dim, 1) squeezed and (n, 1). *)
Definition can_cat (n n' dim : nat) : bool := [&& n == n', 1 < n & 1 < dim]%N.

Definition ob_eig (ob : cobj) (e : eigres) : cobj :=
  mkOb (put_eig (ob_x ob) e) (ob_mem ob) (ob_LC ob) (ob_descr ob) (ob_full ob).

(** torch_extensions.py 142-207, with _diag_np (circuit.py 1938-1986), which
    stores its results before anything else can fail.  Returned: the heap, the
    circuit, and the context with the output. *)
Definition eigen_forward (eigs : eigs_fun) (argsort : seq C -> seq nat) (u : ustate) (maxg : option Z)
    (k : Z) (hp : heap) (ob : cobj) : heap * cobj * res (ectx * eigres) :=
  let (ob1, rH) := ob_hamil (hp_s hp) ob in
  match rH with
  | Err z => (hp, ob1, Err z)
  | Ok H =>
      match diag_np eigs argsort H k with
      | Err z => (hp, ob1, Err z)
      | Ok r =>
          let ob2 := ob_eig ob1 r in
          let out := mkE [seq times_unit u (in_unit u w) | w <- e_freqs r] (e_vecs r) in
          if (size (e_freqs r) == 0%N) || (size (e_vecs r) == 0%N) then (hp, ob2, Err RuntimeError)
          else
            match safecopy true false hp ob2 with
            | Err z => (hp, ob2, Err z)
            | Ok (hp', copy) =>
                if can_cat (size (e_freqs r)) (size (e_vecs r)) (dim H)
                then (hp', ob2, Ok (mkCtx (put_eig (ob_x copy) out) (Z.to_nat k)
                                      (if maxg is Some z then z else k), out))
                else (hp', ob2, Err RuntimeError)
            end
      end
  end.

(** circuit.py 2039-2049 and 2007-2014 in the PyTorch engine; [maxg] is what
    set_max_eigenvector_grad was called with last. *)
Definition diag_torch (eigs : eigs_fun) (argsort : seq C -> seq nat) (u : ustate) (maxg : option Z)
    (k : option Z) (hp : heap) (ob : cobj) : heap * cobj * res (ectx * (seq R * seq cvec)) :=
  if size (x_m (ob_x ob)) == 0%N then (hp, ob, Err CircuitStateError)
  else match k with
  | None => (hp, ob, Err ValueError)
  | Some k =>
      match eigen_forward eigs argsort u maxg k hp ob with
      | (hp', ob', Err z) => (hp', ob', Err z)
      | (hp', ob', Ok (ctx, out)) =>
          (hp', ob_eig ob' out, Ok (ctx, ([seq in_unit u w | w <- e_freqs out], e_vecs out)))
      end
  end.

Section Backward.
Variables (s : store) (ctx : ectx) (eps : R) (len : nat).
(** [grad_output]: a row for each level, the value first (235-236). *)
Variables (gval : nat -> C) (gvec : nat -> nat -> C).

(** torch_extensions.py 238-262: one parameter, the levels from [k] on. *)
Definition level_grad (c : LCWB.comp) (k : nat) : res C :=
  (do p <- get_partial_omega s (ec_x ctx) c (Z.of_nat k) false None;
   if Z.ltb (Z.of_nat k) (ec_max ctx) then
     do v <- get_partial_vec s (ec_x ctx) c (Z.of_nat k) eps;
     Ok (p%:C * (gval k)^* + \sum_(i < len) v i * (gvec k i)^*)
   else Ok (p%:C * (gval k)^*))%res.
Fixpoint levels_grad (c : LCWB.comp) (ks : seq nat) : res C :=
  match ks with
  | [::] => Ok 0
  | k :: ks' => (do a <- level_grad c k; do b <- levels_grad c ks'; Ok (a + b))%res
  end.

(** torch_extensions.py 225-279: the gradient for each parameter of the copy. *)
Fixpoint params_grad (cs : seq LCWB.comp) : res (seq R) :=
  match cs with
  | [::] => Ok [::]
  | c :: cs' => (do a <- levels_grad c (iota 0 (ec_n ctx)); do r <- params_grad cs'; Ok (complex.Re a :: r))%res
  end.
Definition eigen_backward : res (seq R) := params_grad [seq p.1 | p <- c_params (x_c (ec_x ctx))].
End Backward.
