(** Grads.v -- the tensors behind the components of a circuit in the PyTorch
    engine: CircuitComponent (elements.py 26-65), what set_value and set_flux
    leave behind (79-87, 660-672), the views on the parameters and their gradients
    (circuit.py 498-576), add_to_parameters (578-591) and update as far as it
    touches _parameters (408, 778-800).

    Tensors are scalars in a heap.  The graph of a tensor is reduced to the
    derivatives with respect to the leaves it was computed from ([tn_fn]); a
    number that is not a tensor (NumPy engine) is not in the heap.  What update
    does after filling _parameters is in CircuitSM. *)
From Coq Require Import Reals.
From Verif.Model Require Import Base Units Settings Elements Edge LCWB.
From mathcomp Require Import all_ssreflect all_algebra.
From Verif.Numerics Require Import RStruct Bridge.

Set Implicit Arguments.
Unset Strict Implicit.
Unset Printing Implicit Defensive.
Import GRing.Theory.
Local Open Scope seq_scope.
Local Open Scope ring_scope.
Local Notation comp := LCWB.comp.

(** requires_grad, grad_fn and grad of a tensor. *)
Record tensor := mkTn {
  tn_v : R; tn_req : bool; tn_fn : option (seq (nat * R)); tn_grad : option R }.
Definition tn_leaf (t : tensor) : bool := ~~ isSome (tn_fn t).

(** The tensors; the next free identifier; the [_value] of each component. *)
Record theap := mkTh { th_t : nat -> tensor; th_n : nat; th_of : comp -> nat }.
Definition put (h : theap) (i : nat) (t : tensor) : theap :=
  mkTh (fun j => if j == i then t else th_t h j) (th_n h) (th_of h).
Definition alloc (h : theap) (t : tensor) : theap :=
  mkTh (fun j => if j == th_n h then t else th_t h j) (th_n h).+1 (th_of h).
(** elements.py 33-35 *)
Definition put_of (h : theap) (c : comp) (i : nat) : theap :=
  mkTh (th_t h) (th_n h) (fun d => if comp_eqb d c then i else th_of h d).
Definition at_comp (h : theap) (c : comp) : tensor := th_t h (th_of h c).

(** PyTorch: the derivatives of a tensor with respect to leaves. *)
Definition derivs (h : theap) (i : nat) : seq (nat * R) :=
  if ~~ tn_req (th_t h i) then [::]
  else if tn_fn (th_t h i) is Some l then l else [:: (i, 1)].
Definition scaled (k : R) (l : seq (nat * R)) : seq (nat * R) := [seq (p.1, k * p.2) | p <- l].
(** The result of an operation with derivatives [xs] with respect to its inputs:
    it requires grad if an input does. *)
Definition computed (h : theap) (v : R) (xs : seq (nat * R)) : tensor :=
  if has (fun p => tn_req (th_t h p.1)) xs
  then mkTn v true (Some (flatten [seq scaled p.2 (derivs h p.1) | p <- xs])) None
  else mkTn v false None None.

(** elements.py 79-87 (fabrication error 0), 660-672: the new value is a new
    tensor.  [v]: the value in SI units. *)
Definition set_number (h : theap) (c : comp) (v : R) : theap :=
  put_of (alloc h (mkTn v false None None)) c (th_n h).
(** The value given as a tensor [x].  The derivative of [torch.normal] with
    respect to its mean is 0 in PyTorch; a loop multiplies by 2 pi. *)
Definition set_tensor (h : theap) (c : comp) (x : nat) (v : R) : theap :=
  let k := if c is CLoop _ then (2 * PI)%R else 0%R in
  put_of (alloc h (computed h v [:: (x, k)])) c (th_n h).

(** elements.py 37-41, 49-53, 55-59 *)
Definition guard (T : Type) (optim : bool) (r : res T) : res T := if optim then r else Err ModeError.
Definition requires_grad (optim : bool) (h : theap) (c : comp) : res bool :=
  guard optim (Ok (tn_req (at_comp h c))).
Definition is_leaf (optim : bool) (h : theap) (c : comp) : res bool :=
  guard optim (Ok (tn_leaf (at_comp h c))).
Definition grad (optim : bool) (h : theap) (c : comp) : res (option R) :=
  guard optim (Ok (tn_grad (at_comp h c))).
(** elements.py 43-47; PyTorch refuses to clear the flag of a tensor that is not
    a leaf. *)
Definition set_req (h : theap) (c : comp) (f : bool) : theap * res unit :=
  let t := at_comp h c in
  if ~~ f && ~~ tn_leaf t then (h, Err RuntimeError)
  else (put h (th_of h c) (mkTn (tn_v t) f (tn_fn t) (tn_grad t)), Ok tt).
(** elements.py 61-65 *)
Definition with_grad (t : tensor) (g : option R) : tensor := mkTn (tn_v t) (tn_req t) (tn_fn t) g.
Definition set_grad (h : theap) (c : comp) (g : option R) : theap :=
  put h (th_of h c) (with_grad (at_comp h c) g).

(** ** The circuit: [_parameters] *)
Definition pdict := seq (comp * nat).
(** circuit.py 578-591 *)
Definition add_param (h : theap) (ps : pdict) (c : comp) : pdict :=
  if (tn_req (at_comp h c) || ~~ tn_leaf (at_comp h c)) && ~~ has (fun p => comp_eqb c p.1) ps
  then rcons ps (c, th_of h c) else ps.
(** circuit.py 408, 778-800: the components in the order in which they are met. *)
Definition refill (h : theap) (vs : seq comp) : pdict := foldl (add_param h) [::] vs.

(** circuit.py 498-509, 540-549, 551-557 *)
Definition parameters (optim : bool) (h : theap) (ps : pdict) : res (seq R) :=
  guard optim (Ok [seq tn_v (th_t h p.2) | p <- ps]).
Definition parameters_dict (optim : bool) (ps : pdict) : res pdict := guard optim (Ok ps).
Definition parameters_elems (optim : bool) (ps : pdict) : res (seq comp) :=
  guard optim (Ok [seq p.1 | p <- ps]).
(** circuit.py 559-568; a capacitor made by an inductive element is one of the
    subclasses VerySmallCap and VeryLargeCap, not told apart here. *)
Inductive ptype := TElem (k : kind) | TLoop.
Definition type_of (kd : nat -> kind) (c : comp) : ptype :=
  match c with CEl i => TElem (kd i) | CLoop _ => TLoop end.
Definition params_type (optim : bool) (kd : nat -> kind) (ps : pdict) : res (seq ptype) :=
  guard optim (Ok [seq type_of kd p.1 | p <- ps]).

(** circuit.py 523-538; [torch.stack] refuses an empty list. *)
Inductive gview := GList (l : seq (option R)) | GStack (l : seq R).
Definition parameters_grad (optim : bool) (h : theap) (ps : pdict) : res gview :=
  guard optim
    (let l := [seq tn_grad (th_t h p.2) | p <- ps] in
     if has (fun g => ~~ isSome g) l then Ok (GList l)
     else if size l == 0%N then Err RuntimeError
     else Ok (GStack (pmap id l))).
(** circuit.py 570-576 *)
Definition zero_grad (h : theap) (ps : pdict) : theap :=
  foldl (fun h p => put h p.2 (with_grad (th_t h p.2) None)) h ps.

(** PyTorch: backward() of a number computed from torch.stack(circuit.parameters)
    with derivatives [gs].  A leaf that requires grad adds what it receives. *)
Definition receive (h : theap) (p : nat * R) : theap :=
  let t := th_t h p.1 in
  if tn_req t then put h p.1 (with_grad t (Some (odflt 0 (tn_grad t) + p.2))) else h.
Definition sent (h : theap) (ps : pdict) (gs : seq R) : seq (nat * R) :=
  flatten [seq scaled q.2 (derivs h q.1.2) | q <- zip ps gs].
Definition backward (h : theap) (ps : pdict) (gs : seq R) : theap * res unit :=
  if has (fun p => tn_req (th_t h p.2)) ps
  then (foldl receive h (sent h ps gs), Ok tt) else (h, Err RuntimeError).

(** circuit.py 514-519: the setter before it calls update; [xs]: the tensors of
    the list. *)
Fixpoint assign_ids (cs : seq comp) (xs : seq nat) (h : theap) : theap * res unit :=
  match cs, xs with
  | [::], _ => (h, Ok tt)
  | _ :: _, [::] => (h, Err ValueError)
  | c :: cs', x :: xs' => assign_ids cs' xs' (put_of h c x)
  end.

(** ** Sessions in the PyTorch engine *)
Record sess := mkSe { se_h : theap; se_p : pdict }.
(** [GNew], [GOp], [GInPlace]: what the user does with tensors
    (torch.tensor(v, requires_grad=r), an operation, an optimiser's step). *)
Inductive gcall :=
| GNew (v : R) (r : bool) | GOp (v : R) (xs : seq (nat * R)) | GInPlace (x : nat) (v : R)
| GSet (c : comp) (v : R) | GSetT (c : comp) (x : nat) (v : R)
| GReq (c : comp) (f : bool) | GGrad (c : comp) (g : option R)
| GAssign (xs : seq nat) | GUpdate | GBack (gs : seq R) | GZero.

Definition gstep (vs : seq comp) (s : sess) (k : gcall) : sess * res unit :=
  let h := se_h s in let ps := se_p s in
  match k with
  | GNew v r => (mkSe (alloc h (mkTn v r None None)) ps, Ok tt)
  | GOp v xs => (mkSe (alloc h (computed h v xs)) ps, Ok tt)
  | GInPlace x v => let t := th_t h x in
      (mkSe (put h x (mkTn v (tn_req t) (tn_fn t) (tn_grad t))) ps, Ok tt)
  | GSet c v => (mkSe (set_number h c v) ps, Ok tt)
  | GSetT c x v => (mkSe (set_tensor h c x v) ps, Ok tt)
  | GReq c f => let r := set_req h c f in (mkSe r.1 ps, r.2)
  | GGrad c g => (mkSe (set_grad h c g) ps, Ok tt)
  | GAssign xs =>
      let r := assign_ids [seq p.1 | p <- ps] xs h in
      match r.2 with
      | Ok _ => (mkSe r.1 (refill r.1 vs), Ok tt)
      | Err e => (mkSe r.1 ps, Err e)
      end
  | GUpdate => (mkSe h (refill h vs), Ok tt)
  | GBack gs => let r := backward h ps gs in (mkSe r.1 ps, r.2)
  | GZero => (mkSe (zero_grad h ps) ps, Ok tt)
  end.
Definition grun (vs : seq comp) (s : sess) (ks : seq gcall) : sess :=
  foldl (fun s k => (gstep vs s k).1) s ks.
