(** NetSpec.v -- the two facts about a circuit's matrices that the second
    coordinate transformation relies on: the susceptance matrix vanishes exactly
    on the potentials that are constant along the inductors, and every row of
    the junction matrix measures an edge. *)
From Coq Require Import Reals ZArith List.
From Verif.Spec Require Import GraphSpec.
Open Scope R_scope.

Definition network (n m : nat) (ind jun : list (Z * Z)) (L W : nat -> nat -> R) : Prop :=
  (forall x, bilin n L x x = 0 <-> forall e, In e ind -> drop e x = 0) /\
  length jun = m /\
  (forall i x, (i < m)%nat ->
     let e := nth i jun (0, 0)%Z in sumn n (fun k => W i k * x k) = orient e * drop e x).
