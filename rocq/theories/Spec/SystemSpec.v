(** SystemSpec.v -- what a system of coupled circuits should be: the list of its
    nodes, and the electrostatic energy. *)
From Coq Require Import Reals ZArith.
From Verif.Model Require Import Base Units Elements LCWB.
From mathcomp Require Import all_ssreflect all_algebra.
From mathcomp Require Import complex.
From Verif.Numerics Require Import RStruct.
From Verif.Model Require Import Op Diag CircuitSM System.
From Verif.Spec Require Import EigSpec PerturbSpec SessionSpec.

Set Implicit Arguments.
Unset Strict Implicit.
Unset Printing Implicit Defensive.
Import GRing.Theory.
Local Open Scope ring_scope.

(** All nodes 1, ..., n of all circuits, circuit after circuit. *)
Definition node_list (n : nat -> nat) (ids : seq nat) : seq (nat * nat) :=
  [seq (c, i) | c <- ids, i <- iota 1 (n c)].

(** A node of one of the circuits. *)
Definition is_node (n : nat -> nat) (ids : seq nat) (p : nat * nat) : bool :=
  (p.1 \in ids) && (0 < p.2)%N && (p.2 <= n p.1)%N.

(** The coupling capacitors: value and the two nodes.  Couplings by other
    elements, and attributes that are not nodes, give nothing. *)
Definition as_node (c : nat) (a : attr) : option (nat * nat) :=
  match a with ANode (Zpos p) => Some (c, Pos.to_nat p) | _ => None end.
Definition cap_links (s : store) (cps : seq couple) : seq (R * ((nat * nat) * (nat * nat))) :=
  pmap (fun cp => match ekind s (cp_el cp), as_node (cp_c1 cp) (cp_a1 cp), as_node (cp_c2 cp) (cp_a2 cp) with
                  | KCap, Some p, Some q => Some (evalue s (cp_el cp), (p, q))
                  | _, _, _ => None
                  end) cps.

(** Every coupling capacitor joins two nodes of the circuits. *)
Definition links_ok (s : store) (n : nat -> nat) (ids : seq nat) (cps : seq couple) : Prop :=
  forall cp, List.In cp cps -> ekind s (cp_el cp) = KCap ->
    exists p q, [/\ as_node (cp_c1 cp) (cp_a1 cp) = Some p, as_node (cp_c2 cp) (cp_a2 cp) = Some q,
                    is_node n ids p & is_node n ids q].

(** The energy (times two) of the node voltages [phi]: the circuits' own energies
    and v (phi_p - phi_q)^2 for every coupling capacitor. *)
Definition circuit_energy (n : nat -> nat) (Cm : nat -> nat -> nat -> R) (phi : nat * nat -> R) (c : nat) :=
  \sum_(a < n c) \sum_(b < n c) Cm c a b * phi (c, a.+1) * phi (c, b.+1).
Definition link_energy (phi : nat * nat -> R) (l : R * ((nat * nat) * (nat * nat))) :=
  l.1 * (phi l.2.1 - phi l.2.2) ^+ 2.

(** The capacitance matrix between two nodes: the circuit's own entry when they
    belong to the same circuit, plus the Laplacian of the coupling capacitors. *)
Definition ind (b : bool) : R := if b then 1 else 0.
Definition own_entry (Cm : nat -> nat -> nat -> R) (p q : nat * nat) : R_ringType :=
  if p.1 == q.1 then Cm p.1 p.2.-1 q.2.-1 else 0.
Definition link_entry (p q : nat * nat) (l : R * ((nat * nat) * (nat * nat))) :=
  l.1 * (ind (p == l.2.1) - ind (p == l.2.2)) * (ind (q == l.2.1) - ind (q == l.2.2)).

(** What the eigensolver returns are eigenpairs of [H], orthonormal. *)
Definition solves (eigs : eigs_fun) (H : op) (k : Z) : Prop :=
  forall ncv lam V, eigs H k ncv = EigsOk lam V ->
    (forall i, (i < size lam)%N -> eigenpair H (nth 0 lam i) (fun x => V x i)) /\
    orthonormal (dim H) [seq (fun x => V x i) | i <- iota 0 (size lam)].

(** A circuit after [Circuit(...)], any calls of its methods among which no
    update() raised, and a successful diag(). *)
Definition diagonalised (disp : nat -> C -> op) (optim : bool) (x : circ) : Prop :=
  exists o s lobj fd d x0 u cs tr w eigs argsort k r,
    [/\ construct optim o s lobj fd d = Some (Ok x0),
        run disp optim (mkW s u x0) cs = Some tr,
        updates_ok optim (mkW s u x0) cs tr /\ w = final (mkW s u x0) tr,
        sorts argsort /\ (forall H, (hamil (w_s w) (w_x w)).2 = Ok H -> solves eigs H k) &
        diag_sm eigs argsort (w_u w) (Some k) (w_s w) (w_x w) = (x, Ok r)].
