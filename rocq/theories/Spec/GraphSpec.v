(** GraphSpec.v -- the circuit graph as a physicist writes it down: node
    potentials, the drop across an edge, finite sums and connectivity.  Nothing
    here refers to the model's arrays. *)
From Coq Require Import Reals ZArith List.
Import ListNotations.
Open Scope R_scope.

(** f 0 + ... + f (n-1) *)
Fixpoint sumn (n : nat) (f : nat -> R) : R :=
  match n with O => 0 | S m => sumn m f + f m end.

(** Sum over a list. *)
Fixpoint suml {A : Type} (l : list A) (f : A -> R) : R :=
  match l with [] => 0 | a :: l' => f a + suml l' f end.

(** Node k >= 1 carries coordinate [x (k-1)]; node 0 is ground. *)
Definition pot (x : nat -> R) (k : Z) : R :=
  if Z.eqb k 0 then 0 else x (Z.to_nat k - 1)%nat.

(** Branch variable of an edge. *)
Definition drop (e : Z * Z) (x : nat -> R) : R := pot x (fst e) - pot x (snd e).

(** Both endpoints are nodes of the circuit, and they differ. *)
Definition proper (n : nat) (e : Z * Z) : Prop :=
  (0 <= fst e <= Z.of_nat n)%Z /\ (0 <= snd e <= Z.of_nat n)%Z /\ fst e <> snd e.

(** Orientation of a branch: from the first node to the second, except that an
    edge at ground always points towards ground. *)
Definition orient (e : Z * Z) : R := if Z.eqb (fst e) 0 then -1 else 1.

(** An integer row that measures the branch variable of [e]. *)
Definition measures (n : nat) (e : Z * Z) (row : list Z) : Prop :=
  length row = n /\
  forall x, sumn n (fun i => IZR (nth i row 0%Z) * x i) = orient e * drop e x.

(** Nodes linked to ground through edges of the list. *)
Inductive grounded (es : list (Z * Z)) : Z -> Prop :=
| g_ground : grounded es 0%Z
| g_fwd a b : grounded es a -> In (a, b) es -> grounded es b
| g_bwd a b : grounded es a -> In (b, a) es -> grounded es b.

Definition connected (n : nat) (es : list (Z * Z)) : Prop :=
  forall k, (0 <= k <= Z.of_nat n)%Z -> grounded es k.

(** x^T A y *)
Definition bilin (n : nat) (A : nat -> nat -> R) (x y : nat -> R) : R :=
  sumn n (fun i => sumn n (fun j => x i * A i j * y j)).

(** Both labels are natural numbers. *)
Definition nonneg (e : Z * Z) : Prop := (0 <= fst e)%Z /\ (0 <= snd e)%Z.

(** Lexicographic order on label pairs. *)
Definition lex_le (a b : Z * Z) : Prop :=
  (fst a < fst b \/ (fst a = fst b /\ snd a <= snd b))%Z.
