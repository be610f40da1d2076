(** NameSpec.v -- the symbols of an expression. *)
From Coq Require Import List.
From Verif.Model Require Import Symbolic.
Import ListNotations.

Fixpoint atoms (e : expr) : list expr :=
  match e with
  | ENum _ => []
  | EAdd a b | EMul a b => atoms a ++ atoms b
  | ENeg a | ECos a => atoms a
  | _ => [e]
  end.
