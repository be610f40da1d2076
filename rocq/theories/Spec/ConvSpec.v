(** ConvSpec.v -- weight of a state outside a box of basis states. *)
From Coq Require Import ZArith Reals List.
From Verif.Spec Require Import RadixSpec.
Import ListNotations.
Open Scope Z_scope.

(** Sum of a function over the basis states [0 .. N-1]. *)
Definition total_weight (N : nat) (f : nat -> R) : R := fold_right Rplus 0%R (map f (seq 0 N)).

(** All digits stay away from the top [t] levels of their mode. *)
Definition inner (t : Z) (m d : list Z) : Prop := Forall2 (fun a x => x < a - t) m d.

(** [b] tells which basis states lie in the box. *)
Definition decides_box (t : Z) (m : list Z) (b : nat -> bool) : Prop :=
  forall d, digits m d -> (b (Z.to_nat (recompose m d)) = true <-> inner t m d).
