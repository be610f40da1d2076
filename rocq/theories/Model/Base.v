(** Base.v -- shared vocabulary of the model.

    Python exceptions are values: a call returns [Ok v] or [Err e].  A method
    that mutates its receiver returns the new receiver next to the result, so
    that what was already written when an exception escapes stays visible. *)
From Coq Require Export String Reals ZArith Bool Arith List.
Export ListNotations.

(** The exception classes raised by the modelled code (builtins plus
    SQcircuit/exceptions.py 23-41). *)
Inductive exn : Set :=
| ValueError | KeyError | IndexError | AttributeError | TypeError
| ZeroDivisionError | RuntimeError | RecursionError | LinAlgError
| AssertionError | ModeError | CircuitStateError.

Inductive res (A : Type) : Type :=
| Ok (a : A)
| Err (e : exn).
Arguments Ok {A} _.
Arguments Err {A} _.

Definition bind {A B : Type} (r : res A) (f : A -> res B) : res B :=
  match r with Ok a => f a | Err e => Err e end.

Declare Scope res_scope.
Delimit Scope res_scope with res.
Notation "'do' x <- r ; k" := (bind r (fun x => k))
  (at level 200, x pattern, r at level 100, k at level 200, right associativity)
  : res_scope.

(** [d[k]] on a Python dict with string keys; [None] models a missing key. *)
Fixpoint lookup {A : Type} (d : list (string * A)) (k : string) : option A :=
  match d with
  | [] => None
  | (k', v) :: d' => if String.eqb k k' then Some v else lookup d' k
  end.

(** [k in d] *)
Definition mem {A : Type} (d : list (string * A)) (k : string) : bool :=
  match lookup d k with Some _ => true | None => false end.

(** [k in d] where [k] may be Python's [None] (never a key here). *)
Definition mem_opt {A : Type} (d : list (string * A)) (k : option string) : bool :=
  match k with Some s => mem d s | None => false end.

(** [d[k]] where a missing key raises [KeyError]. *)
Definition getitem {A : Type} (d : list (string * A)) (k : option string) : res A :=
  match k with
  | Some s => match lookup d s with Some v => Ok v | None => Err KeyError end
  | None => Err KeyError
  end.

(** Python list indexing [l[z]]: negative indices count from the end, anything
    out of range raises [IndexError]. *)
Definition py_index (len : nat) (z : Z) : option nat :=
  if (0 <=? z)%Z then
    if (z <? Z.of_nat len)%Z then Some (Z.to_nat z) else None
  else if (0 <=? z + Z.of_nat len)%Z then Some (Z.to_nat (z + Z.of_nat len)%Z)
  else None.

Definition py_get {A : Type} (l : list A) (z : Z) : res A :=
  match py_index (length l) z with
  | Some i => match nth_error l i with Some a => Ok a | None => Err IndexError end
  | None => Err IndexError
  end.

(** In-place replacement of one list cell. *)
Fixpoint set_nth {A : Type} (l : list A) (i : nat) (a : A) : list A :=
  match l, i with
  | [], _ => []
  | _ :: t, O => a :: t
  | x :: t, S i' => x :: set_nth t i' a
  end.

(** [l[z] = a] *)
Definition py_set {A : Type} (l : list A) (z : Z) (a : A) : res (list A) :=
  match py_index (length l) z with
  | Some i => Ok (set_nth l i a)
  | None => Err IndexError
  end.
