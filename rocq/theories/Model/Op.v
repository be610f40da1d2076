(** Op.v -- operators on a finite Hilbert space as complex index functions with a
    dimension, and the qutip primitives the circuit code calls on them.

    A [Qobj] is its matrix: the tensor-structure attribute [dims] is dropped, so
    [_squeeze_op]/[contract] (circuit.py 1434-1453), the sparse formats and the
    conversions to torch are the identity.  Numbers are exact. *)
From Coq Require Import Reals ZArith.
From Verif.Model Require Import HamConst.
From mathcomp Require Import all_ssreflect all_algebra.
From mathcomp Require Import complex.
From Verif.Numerics Require Import RStruct.

Set Implicit Arguments.
Unset Strict Implicit.
Unset Printing Implicit Defensive.
Import GRing.Theory.
Local Open Scope ring_scope.
Local Open Scope complex_scope.

Notation C := (complex R).

Record op := Op { dim : nat; ent : nat -> nat -> C }.

(** Equality of the matrices. *)
Definition eqop (A B : op) : Prop :=
  dim A = dim B /\ forall i j, (i < dim A)%N -> (j < dim A)%N -> ent A i j = ent B i j.

Definition ozero (d : nat) : op := Op d (fun _ _ => 0).
Definition odiag (d : nat) (f : nat -> C) : op := Op d (fun i j => if i == j then f i else 0).
(** [qt.qeye(d)] *)
Definition oeye (d : nat) : op := odiag d (fun=> 1).
Definition oadd (A B : op) : op := Op (dim A) (fun i j => ent A i j + ent B i j).
Definition osub (A B : op) : op := Op (dim A) (fun i j => ent A i j - ent B i j).
Definition oscale (c : C) (A : op) : op := Op (dim A) (fun i j => c * ent A i j).
Definition omul (A B : op) : op :=
  Op (dim A) (fun i j => \sum_(k < dim A) ent A i k * ent B k j).
(** [A.dag()] *)
Definition oadj (A : op) : op := Op (dim A) (fun i j => (ent A j i)^*).
(** Kronecker product; [qt.tensor] and [tensor_product_torch] (functions.py
    255-265) are its left fold. *)
Definition kron (A B : op) : op :=
  Op (dim A * dim B)
     (fun i j => ent A (i %/ dim B)%N (j %/ dim B)%N * ent B (i %% dim B)%N (j %% dim B)%N).
Definition otensor (l : seq op) : op :=
  if l is A :: l' then foldl kron A l' else oeye 1.

(** [qt.destroy(N)], [qt.create(N)], [qt.num(N)] and [qt.charge(Nmax)] with
    [Nmax = (m - 1) / 2], i.e. m charges starting at -(m-1)/2. *)
Definition destroy (d : nat) : op :=
  Op d (fun i j => if j == i.+1 then (sqrt (INR j))%:C else 0).
Definition create (d : nat) : op := oadj (destroy d).
Definition num (d : nat) : op := odiag d (fun k => (INR k)%:C).
Definition qcharge (m : nat) : op := odiag m (fun k => (charge_at m k)%:C).

(** e^{ix} *)
Definition expi (x : R) : C := (cos x) +i* (sin x).

(** Python's running sum [acc = 0; acc += X]; [None] is the int 0. *)
Definition acc_add (a : option op) (X : op) : option op :=
  Some (if a is Some A then oadd A X else X).
Definition acc_acc (a b : option op) : option op :=
  match a, b with
  | Some A, Some B => Some (oadd A B)
  | Some A, None => Some A
  | None, b => b
  end.
