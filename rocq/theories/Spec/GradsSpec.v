(** GradsSpec.v -- what the views on the parameters and their gradients should
    show, without the dictionary. *)
From Coq Require Import Reals.
From Verif.Model Require Import Base Units Settings Elements Edge LCWB.
From mathcomp Require Import all_ssreflect all_algebra.
From Verif.Numerics Require Import RStruct Bridge.
From Verif.Model Require Import Grads.

Set Implicit Arguments.
Unset Strict Implicit.
Unset Printing Implicit Defensive.
Import GRing.Theory.
Local Open Scope seq_scope.
Local Open Scope ring_scope.

Lemma comp_eqP : Equality.axiom comp_eqb.
Proof.
by case=> i [] j /=; apply: (iffP idP) => //; [move/Nat.eqb_eq=> ->|case=> ->; apply/Nat.eqb_eq
  |move/Nat.eqb_eq=> ->|case=> ->; apply/Nat.eqb_eq].
Qed.
Definition comp_eqMixin := EqMixin comp_eqP.
Canonical comp_eqType := EqType LCWB.comp comp_eqMixin.

(** Each member once, in the order of the first occurrences. *)
Definition first_of (T : eqType) (l : seq T) : seq T := rev (undup (rev l)).

(** The value of the component takes part in gradients. *)
Definition wanted (h : theap) (c : LCWB.comp) : bool :=
  tn_req (at_comp h c) || ~~ tn_leaf (at_comp h c).

(** The dictionary is that of the components as they are now. *)
Definition in_sync (vs : seq LCWB.comp) (s : sess) : Prop :=
  se_p s = [seq (c, th_of (se_h s) c) | c <- first_of vs & wanted (se_h s) c].

(** Derivative of tensor [i] with respect to tensor [y], and of a number with
    derivatives [gs] with respect to the parameters. *)
Definition slope (h : theap) (i y : nat) : R := \sum_(p <- derivs h i | p.1 == y) p.2.
Definition flow (h : theap) (ps : pdict) (gs : seq R) (y : nat) : R :=
  \sum_(q <- zip ps gs) q.2 * slope h q.1.2 y.
(** The graph of a parameter leads to [y]. *)
Definition leads (h : theap) (ps : pdict) (y : nat) : bool :=
  has (fun p => y \in [seq q.1 | q <- derivs h p.2]) ps.

(** Values of components are tensors that exist; so are the tensors a call uses. *)
Definition held (h : theap) : Prop := forall c, (th_of h c < th_n h)%N.
Definition legal (s : sess) (k : gcall) : bool :=
  match k with
  | GAssign xs => all (fun x => x < th_n (se_h s))%N xs
  | GInPlace x _ | GSetT _ x _ => (x < th_n (se_h s))%N
  | GOp _ xs => all (fun p => p.1 < th_n (se_h s))%N xs
  | _ => true
  end.
Fixpoint legal_run (vs : seq LCWB.comp) (s : sess) (ks : seq gcall) : bool :=
  if ks is k :: ks' then legal s k && legal_run vs (gstep vs s k).1 ks' else true.
(** Graphs end in leaves, and only tensors that require grad have one. *)
Definition sound (h : theap) : Prop := forall i, (i < th_n h)%N -> forall l, tn_fn (th_t h i) = Some l ->
  tn_req (th_t h i) /\ all (fun p => (p.1 < th_n h)%N && tn_leaf (th_t h p.1)) l.
(** Calls that leave the components with the tensors they have. *)
Definition quiet (k : gcall) : bool :=
  match k with GSet _ _ | GSetT _ _ _ | GReq _ _ | GAssign _ => false | _ => true end.

(** The store of LCWB shows the tensors. *)
Definition shown (h : theap) (st : store) : Prop := forall c,
  [/\ cvalue st c = tn_v (at_comp h c), creq st c = tn_req (at_comp h c) &
      cleaf st c = tn_leaf (at_comp h c)].
