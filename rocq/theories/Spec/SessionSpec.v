(** SessionSpec.v -- what a session with a circuit amounts to: the settings that
    are in force after a history of calls, read off the calls and their outcomes
    alone. *)
From Coq Require Import Reals ZArith String.
From Verif.Model Require Import Base Units Edge LCWB.
From mathcomp Require Import all_ssreflect all_algebra.
From Verif.Numerics Require Import RStruct Bridge.
From Verif.Model Require Import Transform Op CircuitSM.

Set Implicit Arguments.
Unset Strict Implicit.
Unset Printing Implicit Defensive.

Definition raised (r : res unit) : bool := if r is Err _ then true else false.

(** The call ran update(), and update() raised. *)
Definition update_failed (optim : bool) (w : world) (c : call) (r : res unit) : bool :=
  match c with
  | Update _ => raised r
  | SetParams vs _ => [&& optim, (size (c_params (x_c (w_x w))) <= size vs)%N & raised r]
  | _ => false
  end.
Fixpoint updates_ok (optim : bool) (w : world) (cs : seq call) (tr : seq (world * res unit)) : bool :=
  match cs, tr with
  | c :: cs', (w1, r) :: tr' => ~~ update_failed optim w c r && updates_ok optim w1 cs' tr'
  | _, _ => true
  end.

(** Settings in force: numerical outcomes and component values of the last build,
    the last accepted truncation numbers, the accepted charge offsets in order. *)
Record view := mkV {
  v_or : oracle; v_store : store; v_trunc : option (seq nat); v_off : seq (option Z * R) }.
Definition view_step (v : view) (c : call) (w1 : world) (r : res unit) : view :=
  if raised r then v
  else match c with
       | SetTrunc l => mkV (v_or v) (v_store v) l (v_off v)
       | SetOffset m x => mkV (v_or v) (v_store v) (v_trunc v) (rcons (v_off v) (m, x))
       | Update o | SetParams _ o => mkV o (w_s w1) (v_trunc v) (v_off v)
       | _ => v
       end.
Fixpoint view_of (v : view) (cs : seq call) (tr : seq (world * res unit)) : view :=
  match cs, tr with
  | c :: cs', (w1, r) :: tr' => view_of (view_step v c w1 r) cs' tr'
  | _, _ => v
  end.

(** The settings given to a new circuit. *)
Definition offsets (v : view) (y : circ) : circ :=
  foldl (fun y p => (set_offset p.1 p.2 y).1) y (v_off v).
Definition replay (disp : nat -> C -> op) (v : view) (y : circ) : circ :=
  (set_trunc disp (v_trunc v) (offsets v y)).1.

(** As many modes, of the same kinds. *)
Definition same_kinds (x y : circ) : Prop :=
  x_n x = x_n y /\ forall i, (i < x_n x)%N -> is_charge (x_st x) i = is_charge (x_st y) i.

(** Results of a diagonalisation are at hand: some diag() succeeded and no
    update() has succeeded since. *)
Fixpoint served (b : bool) (cs : seq call) (tr : seq (world * res unit)) : bool :=
  match cs, tr with
  | c :: cs', (_, r) :: tr' =>
      served (match c with
              | DiagC _ _ _ => b || ~~ raised r
              | Update _ | SetParams _ _ => b && raised r
              | _ => b
              end) cs' tr'
  | _, _ => b
  end.

(** Truncation numbers have been given: some set_trunc_nums call had a list with
    one number for each mode. *)
Fixpoint truncated (b : bool) (w : world) (cs : seq call) (tr : seq (world * res unit)) : bool :=
  match cs, tr with
  | c :: cs', (w1, _) :: tr' =>
      truncated (match c with
                 | SetTrunc (Some l) => b || (size l == x_n (w_x w))
                 | _ => b
                 end) w1 cs' tr'
  | _, _ => b
  end.

(** The eigensolver of a diag() call answers with at least one eigenpair and
    argsort returns one position for each of them. *)
Definition solver_answers (c : call) : Prop :=
  match c with
  | DiagC eigs argsort _ => forall H k ncv lam V, eigs H k ncv = Diag.EigsOk lam V ->
      lam <> [::] /\ size (argsort lam) = size lam
  | _ => True
  end.
