(** RadixSpec.v -- positions in a tensor product: the first factor is the most
    significant digit. *)
From Coq Require Import ZArith List Lia.
Import ListNotations.
Open Scope Z_scope.

Fixpoint prodZ (l : list Z) : Z := match l with [] => 1 | a :: l' => a * prodZ l' end.

(** Index of the basis vector with digits [d] in factors of sizes [m]. *)
Fixpoint recompose (m d : list Z) : Z :=
  match m, d with
  | _ :: m', x :: d' => x * prodZ m' + recompose m' d'
  | _, _ => 0
  end.

(** A legal digit tuple. *)
Inductive digits : list Z -> list Z -> Prop :=
| dnil : digits [] []
| dcons a m x d : 0 <= x < a -> digits m d -> digits (a :: m) (x :: d).
