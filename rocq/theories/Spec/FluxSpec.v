(** FluxSpec.v -- how an external flux divides over the inductive elements of a
    loop, in terms of the branches of the circuit: no charge is induced on any
    node, and the flux through each loop adds up along the loop. *)
From Coq Require Import String.
From Verif.Model Require Import Base Elements Edge LCWB.
From Verif.Spec Require Import GraphSpec CircuitSpec.
Open Scope R_scope.
Open Scope list_scope.

(** Branch b: the b-th inductor or junction of the circuit. *)
Definition branch (s : store) (d : list (edge * list nat)) (b : nat) : edge * nat * nat :=
  nth b (occs s d) ((0, 0)%Z, 0%nat, 0%nat).
Definition nbranch (s : store) (d : list (edge * list nat)) : nat := length (occs s d).

(** Oriented branch variable. *)
Definition bdrop (s : store) (d : list (edge * list nat)) (b : nat) (x : nat -> R) : R :=
  orient (occ_edge (branch s d b)) * drop (occ_edge (branch s d b)) x.

(** Capacitance across a branch that decides how the flux divides: the real one
    ("all"), or one that pushes the flux onto the junctions or the inductors. *)
Definition dist_weight (s : store) (fd : string) (el : nat) : R :=
  if String.eqb fd "all" then evalue s (ecap s el)
  else match ekind s el, String.eqb fd "junctions" with
       | KInd, true | KJJ, false => 10 ^ 20
       | _, _ => / 10 ^ 20
       end.

(** A closed walk of loop l: weights on the elements that mention l, one on the
    first of them, whose branch variables cancel for all node variables. *)
Definition closed_walk (s : store) (d : list (edge * list nat)) (l : nat) (G : nat -> R) : Prop :=
  (forall b, (b < nbranch s d)%nat -> ~ In b (mentions s d l) -> G b = 0) /\
  G (hd 0%nat (mentions s d l)) = 1 /\
  forall x, sumn (nbranch s d) (fun b => G b * bdrop s d b x) = 0.

(** [B b k]: share of the flux of the k-th loop on branch b. *)
Definition no_induced_charge (s : store) (fd : string) (d : list (edge * list nat)) (nl : nat)
    (B : nat -> nat -> R) : Prop :=
  forall k x, (k < nl)%nat ->
    sumn (nbranch s d) (fun b => dist_weight s fd (occ_el (branch s d b)) * bdrop s d b x * B b k) = 0.

Definition loop_sums (s : store) (d : list (edge * list nat)) (loops : list nat)
    (B : nat -> nat -> R) : Prop :=
  forall k k' G, (k < length loops)%nat -> (k' < length loops)%nat ->
    closed_walk s d (nth k loops 0%nat) G ->
    sumn (nbranch s d) (fun b => G b * B b k') = if Nat.eqb k k' then 1 else 0.

(** An element mentions a loop at most once. *)
Definition simple_loops (s : store) (d : list (edge * list nat)) : Prop :=
  forall e els el, In (e, els) d -> In el els -> NoDup (eloops s el).

Definition valid_dist (fd : string) : Prop := fd = "all"%string \/ fd = "junctions"%string \/ fd = "inductors"%string.

(** Every node an inductor or junction touches is linked to ground through
    inductors and junctions. *)
Definition grounded_branches (s : store) (d : list (edge * list nat)) : Prop :=
  forall b, (b < nbranch s d)%nat ->
    grounded (map occ_edge (occs s d)) (fst (occ_edge (branch s d b))).
