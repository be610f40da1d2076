(** RelabelSpec.v -- the same circuit with other node numbers, and possibly another
    node as ground. *)
From Coq Require Import Reals ZArith List.
From Verif.Spec Require Import GraphSpec.
Open Scope R_scope.

(** [p] renumbers the nodes 0..n; [q] undoes it. *)
Definition renumbers (n : nat) (p q : Z -> Z) : Prop :=
  forall k, (0 <= k <= Z.of_nat n)%Z ->
    (0 <= p k <= Z.of_nat n)%Z /\ (0 <= q k <= Z.of_nat n)%Z /\ q (p k) = k /\ p (q k) = k.
Definition relabel (p : Z -> Z) (e : Z * Z) : Z * Z := (p (fst e), p (snd e)).
Definition relabelled {A : Type} (p : Z -> Z) (d : list ((Z * Z) * A)) : list ((Z * Z) * A) :=
  map (fun ee => (relabel p (fst ee), snd ee)) d.

(** The coordinates of node potentials [v]: potentials of the nodes 1, 2, ... against
    that of node 0. *)
Definition coords (v : Z -> R) (i : nat) : R := v (Z.of_nat i + 1)%Z - v 0%Z.
