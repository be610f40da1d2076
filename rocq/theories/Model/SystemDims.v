(** SystemDims.v -- the sums of systems.py with the dimensions qutip attaches to
    operators: the addition of two [Qobj] of different [dims] raises TypeError.
    System.v leaves them out. *)
From Coq Require Import Reals ZArith String.
From Verif.Model Require Import Base Units Elements Edge LCWB HamConst.
From mathcomp Require Import all_ssreflect all_algebra.
From mathcomp Require Import complex.
From Verif.Numerics Require Import RStruct Bridge.
From Verif.Model Require Import Transform Op Ham Diag CircuitSM Partial System.

Set Implicit Arguments.
Unset Strict Implicit.
Unset Printing Implicit Defensive.
Import GRing.Theory.
Local Open Scope ring_scope.
Local Open Scope complex_scope.

(** A square [Qobj]: the sizes of the factors and the matrix. *)
Record qobj := Qo { q_dims : seq nat; q_op : op }.
Definition qadd (a b : qobj) : res qobj :=
  if q_dims a == q_dims b then Ok (Qo (q_dims a) (oadd (q_op a) (q_op b))) else Err TypeError.
Definition qscale (c : C) (a : qobj) : qobj := Qo (q_dims a) (oscale c (q_op a)).

(** [op += X] on an accumulator that starts as the number 0; [a + b] of two such. *)
Definition qplus (a b : option qobj) : res (option qobj) :=
  match a, b with
  | Some A, Some B => match qadd A B with Ok X => Ok (Some X) | Err e => Err e end
  | Some A, None => Ok (Some A)
  | None, b => Ok b
  end.
Definition qracc (K : Type) (f : K -> res qobj) (a : res (option qobj)) (k : K) : res (option qobj) :=
  match a with
  | Err e => Err e
  | Ok A => match f k with Ok X => qplus A (Some X) | Err e => Err e end
  end.
Definition qrscale (c : R) (r : res qobj) : res qobj :=
  match r with Ok A => Ok (qscale c%:C A) | Err e => Err e end.

(** systems.py 189-211: the factor of the sub-circuit has the size of the given
    operator, the others the sizes recorded when the system was made. *)
Definition q_in_sys (S : sys) (A : op) (k : nat) : qobj :=
  Qo [seq if i == k then dim A else nth 0%N (s_tr S) i | i <- iota 0 (s_sub S)] (op_in_sys S A k).

(** systems.py 213-252 *)
Definition q_times_q (S : sys) (A : op) (k : nat) (B : op) (l : nat) : qobj :=
  if k == l then q_in_sys S (omul A B) k
  else Qo [seq if i == k then dim A else if i == l then dim B else nth 0%N (s_tr S) i | i <- iota 0 (s_sub S)]
          (op_times_op S A k B l).

Section Sys.
Variable circs : nat -> circ.

(** systems.py 254-273 *)
Definition q_QQ (S : sys) (m n : nat) : res qobj :=
  match node_charge circs S m, node_charge circs S n with
  | Ok Qm, Ok Qn => Ok (q_times_q S Qm (sub_idx circs S m).2 Qn (sub_idx circs S n).2)
  | Err e, _ | _, Err e => Err e
  end.

(** systems.py 275-294 *)
Definition q_quad_term (S : sys) (A : arr) (i : nat) (acc : res (option qobj)) (j : nat) : res (option qobj) :=
  if i == j then qracc (fun j => qrscale (halfR (A i i)) (q_QQ S i j)) acc j
  else if (i < j)%N then qracc (fun j => qrscale (A i j) (q_QQ S i j)) acc j
  else acc.
Definition q_quadratic (S : sys) (A : arr) : res (option qobj) :=
  foldl (fun acc i => foldl (q_quad_term S A i) acc (iota 0 (s_N S))) (Ok None) (iota 0 (s_N S)).

(** systems.py 296-307 *)
Definition q_local_term (u : ustate) (S : sys) (i : nat) : res qobj :=
  match efreqs u (x_eig (circs (nth 0%N (s_ids S) i))) with
  | Err e => Err e
  | Ok f => Ok (q_in_sys S (odiag (size f) (fun k => (nth 0 f k)%:C)) i)
  end.
Definition q_H_local (u : ustate) (S : sys) : res (option qobj) :=
  foldl (qracc (q_local_term u S)) (Ok None) (iota 0 (s_sub S)).

(** systems.py 309-320 *)
Definition q_H_int (s : store) (u : ustate) (S : sys) : res (option qobj) :=
  match int_coef circs s S with
  | Err e => Err e
  | Ok A => match q_quadratic S A with
            | Err e => Err e
            | Ok q => Ok (omap (qscale (in_unit u 1)%:C) q)
            end
  end.

(** systems.py 322-327 *)
Definition q_hamiltonian (s : store) (u : ustate) (S : sys) : res (option qobj) :=
  match q_H_local u S with
  | Err e => Err e
  | Ok a => match q_H_int s u S with Err e => Err e | Ok b => qplus a b end
  end.
End Sys.
