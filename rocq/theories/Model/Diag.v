(** Diag.v -- model of the diagonalisation in the NumPy engine (circuit.py
    1938-1986, 2016-2049) and of the results it leaves (465-483).

    The sparse eigensolver is an argument: what [scipy.sparse.linalg.eigs]
    answers for a matrix, a number of eigenvalues and the optional [ncv].
    [np.argsort] on complex numbers is an argument too (numpy's default sort is
    not stable, so only its contract is known).  A vector is an index function.
    NaNs do not exist here. *)
From Coq Require Import Reals ZArith.
From Verif.Model Require Import Base Units HamConst.
From mathcomp Require Import all_ssreflect all_algebra.
From mathcomp Require Import complex.
From Verif.Numerics Require Import RStruct Bridge.
From Verif.Model Require Import Op.

Set Implicit Arguments.
Unset Strict Implicit.
Unset Printing Implicit Defensive.
Import GRing.Theory.
Local Open Scope ring_scope.
Local Open Scope complex_scope.

Definition cvec := nat -> C.

(** Answer of the eigensolver: values and the matrix whose columns are the
    vectors, or ArpackNoConvergence, or another exception. *)
Inductive eigs_out := EigsOk (lam : seq C) (V : nat -> nat -> C) | EigsNoConv | EigsErr (e : exn).
Definition eigs_fun := op -> Z -> option Z -> eigs_out.

(** The attributes [_efreqs] and [_evecs]. *)
Record eigres := mkE { e_freqs : seq R; e_vecs : seq cvec }.

(** circuit.py 1968 and 1970-1977: [np.sort] of the real parts; the columns in
    the order of [np.argsort] of the complex values. *)
Definition sort_eigs (argsort : seq C -> seq nat) (lam : seq C) (V : nat -> nat -> C) : eigres :=
  mkE (sort Order.le [seq complex.Re z | z <- lam])
      [seq (fun i => V i k) | k <- argsort lam].

(** circuit.py 1958-1984.  ArpackNoConvergence is a RuntimeError. *)
Definition diag_np (eigs : eigs_fun) (argsort : seq C -> seq nat) (H : op) (k : Z) : res eigres :=
  match eigs H k None with
  | EigsOk lam V => Ok (sort_eigs argsort lam V)
  | EigsErr e => Err e
  | EigsNoConv =>
      match eigs H k (Some (Z.mul 10 k)) with
      | EigsOk lam V => Ok (sort_eigs argsort lam V)
      | EigsErr e => Err e
      | EigsNoConv => Err RuntimeError
      end
  end.

(** circuit.py 2039-2049; [k = None]: not an int.  [H] is what
    [self.hamiltonian()] returns or raises. *)
Definition diag (eigs : eigs_fun) (argsort : seq C -> seq nat) (u : ustate) (trunc_set : bool)
    (H : res op) (k : option Z) (old : eigres) : eigres * res (seq R * seq cvec) :=
  if ~~ trunc_set then (old, Err CircuitStateError)
  else match k with
       | None => (old, Err ValueError)
       | Some k =>
           match H with
           | Err e => (old, Err e)
           | Ok H => match diag_np eigs argsort H k with
                     | Err e => (old, Err e)
                     | Ok r => (r, Ok ([seq in_unit u x | x <- e_freqs r], e_vecs r))
                     end
           end
       end.

(** circuit.py 465-473 and 475-483 *)
Definition efreqs (u : ustate) (r : eigres) : res (seq R) :=
  if size (e_freqs r) == 0%N then Err CircuitStateError else Ok [seq in_unit u x | x <- e_freqs r].
Definition evecs (r : eigres) : res (seq cvec) :=
  if size (e_vecs r) == 0%N then Err CircuitStateError else Ok (e_vecs r).
