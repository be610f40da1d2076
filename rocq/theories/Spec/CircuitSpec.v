(** CircuitSpec.v -- what the circuit matrices and lists should contain, read
    directly off the circuit description (the dictionary edge -> elements and
    the component objects). *)
From Coq Require Import Permutation.
From Verif.Model Require Import Base Elements Edge LCWB.
From Verif.Spec Require Import GraphSpec.
Open Scope R_scope.
Open Scope list_scope.

(** Every edge of the dictionary is proper. *)
Definition proper_dict (n : nat) (d : list (edge * list nat)) : Prop :=
  forall e els, In (e, els) d -> proper n e.

(** An inductor of the list has value zero. *)
Definition bad_ind (s : store) (els : list nat) : Prop :=
  exists el, In el els /\ ekind s el = KInd /\ evalue s el = 0.

(** Capacitance an element puts across its edge: a capacitor its own value, an
    inductor or junction that of its capacitor. *)
Definition cap_of (s : store) (el : nat) : R :=
  match ekind s el with KCap => evalue s el | _ => evalue s (ecap s el) end.
Definition edge_cap (s : store) (els : list nat) : R := suml els (cap_of s).

(** Inverse inductance of an element. *)
Definition invind_of (s : store) (el : nat) : R :=
  match ekind s el with KInd => / evalue s el | _ => 0 end.
Definition edge_invind (s : store) (els : list nat) : R := suml els (invind_of s).

(** Elements with their positions. *)
Definition enum {A : Type} (l : list A) : list (nat * A) := combine (seq 0 (length l)) l.

(** First occurrences, in order. *)
Fixpoint firsts {A : Type} (eqb : A -> A -> bool) (seen l : list A) : list A :=
  match l with
  | [] => []
  | a :: l' => if existsb (eqb a) seen then firsts eqb seen l'
               else a :: firsts eqb (seen ++ [a]) l'
  end.

(** Inductors and junctions in declaration order, with their edge and the number
    of junction-carrying edges declared before it. *)
Fixpoint occs_from (s : store) (wid : nat) (d : list (edge * list nat))
    : list (edge * nat * nat) :=
  match d with
  | [] => []
  | (e, xs) :: d' =>
      map (fun el => (e, el, wid)) (filter (inductive_el s) xs)
      ++ occs_from s (if existsb (is_jj s) xs then S wid else wid) d'
  end.
Definition occs (s : store) (d : list (edge * list nat)) := occs_from s 0 d.

Definition occ_el (o : edge * nat * nat) : nat := snd (fst o).
Definition occ_edge (o : edge * nat * nat) : edge := fst (fst o).

(** Edges that carry a junction. *)
Definition jj_edges (s : store) (d : list (edge * list nat)) : list edge :=
  map fst (filter (fun ee => existsb (is_jj s) (snd ee)) d).

(** Loops mentioned by the inductive elements, in order of mention. *)
Definition mentioned (s : store) (d : list (edge * list nat)) : list nat :=
  flat_map (fun o => eloops s (occ_el o)) (occs s d).

(** Positions of the occurrences that mention loop [l] (once per mention). *)
Definition mentions (s : store) (d : list (edge * list nat)) (l : nat) : list nat :=
  flat_map (fun bo => repeat (fst bo) (count_occ Nat.eq_dec (eloops s (occ_el (snd bo))) l))
           (enum (occs s d)).

(** Components in the order the construction meets them. *)
Definition visit_el (s : store) (el : nat) : list comp :=
  match ekind s el with
  | KCap => [CEl el]
  | _ => CEl (ecap s el) :: map CLoop (eloops s el) ++ [CEl el]
  end.
Definition visits (s : store) (d : list (edge * list nat)) : list comp :=
  flat_map (fun ee => flat_map (visit_el s) (snd ee)) d.

(** A component PyTorch can differentiate with respect to. *)
Definition tracked (s : store) (c : comp) : bool := creq s c || negb (cleaf s c).

(** How often a component sits (as itself) on an edge's element list. *)
Definition occurs (c : nat) (els : list nat) : R := INR (count_occ Nat.eq_dec els c).

(** How often it is the own capacitor of an inductive element of the list. *)
Definition occurs_as_cap (s : store) (c : nat) (els : list nat) : R :=
  INR (count_occ Nat.eq_dec (map (ecap s) (filter (inductive_el s) els)) c).

(** The component object [c] with another value. *)
Definition upd_value (s : store) (c : nat) (v : R) : store :=
  mkStore (ekind s) (fun i => if Nat.eqb i c then v else evalue s i) (ereq s) (eleaf s)
          (ecap s) (eloops s) (lvalue s) (lreq s) (lleaf s).

(** Inductive occurrences read off the dictionary. *)
Definition ind_occs (s : store) (d : list (edge * list nat)) : list (edge * nat) :=
  flat_map (fun ee => map (fun el => (fst ee, el)) (filter (inductive_el s) (snd ee))) d.

(** Flipping an edge. *)
Definition flip (e : edge) : edge := (snd e, fst e).

(** Same circuit up to the order of edges, the order of elements on an edge and
    the direction in which an edge is written. *)
Definition same_edge (a b : edge * list nat) : Prop :=
  (fst b = fst a \/ fst b = flip (fst a)) /\ Permutation (snd a) (snd b).
Definition redeclared (d d' : list (edge * list nat)) : Prop :=
  exists d1, Permutation d d1 /\ Forall2 same_edge d1 d'.

(** The entry of a sensitivity dictionary; a missing key reads as zero. *)
Definition pm_val (pm : option (nat -> nat -> R)) (i j : nat) : R :=
  match pm with Some p => p i j | None => 0 end.

(** [k] members of the list satisfy [P]. *)
Inductive counted {A : Type} (P : A -> Prop) : list A -> nat -> Prop :=
| cnt_nil : counted P [] 0%nat
| cnt_yes a l k : P a -> counted P l k -> counted P (a :: l) (S k)
| cnt_no a l k : ~ P a -> counted P l k -> counted P (a :: l) k.

(** An edge with a junction and no inductor next to it. *)
Definition bare_junction (s : store) (ee : edge * list nat) : Prop :=
  (exists el, In el (snd ee) /\ ekind s el = KJJ) /\
  (forall el, In el (snd ee) -> ekind s el <> KInd).
