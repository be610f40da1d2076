(** CopySpec.v -- what it means that one circuit is a copy of another and that the
    two are independent. *)
From Coq Require Import Reals ZArith String.
From Verif.Model Require Import Base Units Elements Edge LCWB.
From mathcomp Require Import all_ssreflect all_algebra.
From mathcomp Require Import complex.
From Verif.Numerics Require Import RStruct Bridge.
From Verif.Model Require Import Transform Op Ham Diag CircuitSM.

Set Implicit Arguments.
Unset Strict Implicit.
Unset Printing Implicit Defensive.

(** Elements on the edges; these and their own capacitors; the loops. *)
Definition on_edge (x : circ) (i : nat) : Prop := exists p, List.In p (x_dict x) /\ i \in p.2.
Definition in_circ (s : store) (x : circ) (i : nat) : Prop :=
  on_edge x i \/ exists el, [/\ on_edge x el, inductive_el s el & i = ecap s el].
Definition loop_of (s : store) (x : circ) (l : nat) : Prop :=
  l \in c_loops (x_c x) \/ exists el, [/\ on_edge x el, inductive_el s el & l \in eloops s el].

(** What a user sees on the edges: type, value, value of the own capacitor, values
    of the loops. *)
Definition describe (s : store) (el : nat) : kind * R * option R * seq R :=
  (ekind s el, evalue s el,
   if inductive_el s el then Some (evalue s (ecap s el)) else None,
   if inductive_el s el then [seq lvalue s l | l <- eloops s el] else [::]).
Definition shows (s : store) (x : circ) : seq (edge * seq (kind * R * option R * seq R)) :=
  [seq (p.1, [seq describe s el | el <- p.2]) | p <- x_dict x].

Definition ren (fe fl : nat -> nat) (c : LCWB.comp) : LCWB.comp :=
  match c with CEl i => CEl (fe i) | CLoop i => CLoop (fl i) end.

(** The matrices and everything else that does not refer to components. *)
Record same_numbers (x x' : circ) : Prop := {
  n_fd : x_fd x' = x_fd x; n_C : x_C x' = x_C x; n_B : x_B x' = x_B x; n_st : x_st x' = x_st x;
  n_isl : x_isl x' = x_isl x; n_m : x_m x' = x_m x; n_LC : x_LC x' = x_LC x;
  n_L : c_L (x_c x') = c_L (x_c x); n_W : c_W (x_c x') = c_W (x_c x);
  n_njwi : c_njwi (x_c x') = c_njwi (x_c x) }.
Record same_ops (M M' : mems) : Prop := {
  o_Q : M_Q M' = M_Q M; o_QQ : M_QQ M' = M_QQ M; o_phi : M_phi M' = M_phi M; o_N : M_N M' = M_N M;
  o_exp : M_exp M' = M_exp M; o_root : M_root M' = M_root M }.

(** [x'] (in heap s') is [x] (in heap s) with the components renamed by fe, fl,
    one to one: the same sharing, the same values. *)
Record same_circuit (s : store) (x : circ) (s' : store) (x' : circ) (fe fl : nat -> nat) : Prop := {
  sc_dict : x_dict x' = [seq (p.1, [seq fe i | i <- p.2]) | p <- x_dict x];
  sc_vals : forall i, in_circ s x i -> ekind s' (fe i) = ekind s i /\ evalue s' (fe i) = evalue s i;
  sc_refs : forall i, on_edge x i -> inductive_el s i ->
    ecap s' (fe i) = fe (ecap s i) /\ eloops s' (fe i) = [seq fl l | l <- eloops s i];
  sc_loops : c_loops (x_c x') = [seq fl l | l <- c_loops (x_c x)];
  sc_lvals : forall l, loop_of s x l -> lvalue s' (fl l) = lvalue s l /\
    c_lobj (x_c x') (fl l) = c_lobj (x_c x) l;
  sc_ind : c_keys_ind (x_c x') = [seq (k.1.1, fe k.1.2, k.2) | k <- c_keys_ind (x_c x)];
  sc_jj : c_keys_jj (x_c x') = [seq (k.1.1.1, fe k.1.1.2, k.1.2, k.2) | k <- c_keys_jj (x_c x)];
  sc_par : [seq p.1 | p <- c_params (x_c x')] = [seq ren fe fl p.1 | p <- c_params (x_c x)];
  sc_pm : forall i, in_circ s x i -> c_pm (x_c x') (fe i) = c_pm (x_c x) i;
  sc_num : same_numbers x x';
  sc_ops : same_ops (x_mem x) (x_mem x');
  sc_dic : forall i b, on_edge x i ->
    [/\ M_cos (x_mem x') (fe i) b = M_cos (x_mem x) i b, M_sin (x_mem x') (fe i) b = M_sin (x_mem x) i b,
        M_half (x_mem x') (fe i) b = M_half (x_mem x) i b & M_ind (x_mem x') (fe i) b = M_ind (x_mem x) i b];
  sc_injE : forall i j, in_circ s x i -> in_circ s x j -> fe i = fe j -> i = j;
  sc_injL : forall i j, loop_of s x i -> loop_of s x j -> fl i = fl j -> i = j }.

(** No component of [x'] was there before: all identifiers are past the bounds. *)
Definition apart (e l : nat) (s' : store) (x' : circ) : Prop :=
  [/\ forall i, in_circ s' x' i -> (e <= i)%N, forall i, loop_of s' x' i -> (l <= i)%N,
      forall c, List.In c [seq p.1 | p <- c_params (x_c x')] ->
        match c with CEl i => (e <= i)%N | CLoop i => (l <= i)%N end,
      forall k, List.In k (c_keys_ind (x_c x')) -> (e <= k.1.2)%N &
      forall k, List.In k (c_keys_jj (x_c x')) -> (e <= k.1.1.2)%N].

(** The old objects are as they were. *)
Definition untouched (e l : nat) (s s' : store) : Prop :=
  (forall i, (i < e)%N -> [/\ ekind s' i = ekind s i, evalue s' i = evalue s i, ereq s' i = ereq s i,
     eleaf s' i = eleaf s i & ecap s' i = ecap s i /\ eloops s' i = eloops s i]) /\
  (forall i, (i < l)%N -> [/\ lvalue s' i = lvalue s i, lreq s' i = lreq s i & lleaf s' i = lleaf s i]).

(** All components of the circuit are objects of the heap. *)
Definition lives (e l : nat) (s : store) (x : circ) : Prop :=
  [/\ forall i, in_circ s x i -> (i < e)%N & forall i, loop_of s x i -> (i < l)%N].

(** The same components require grad and are leaves. *)
Definition in_comp (s : store) (x : circ) (c : LCWB.comp) : Prop :=
  match c with CEl i => in_circ s x i | CLoop l => loop_of s x l end.
Definition same_flags (s : store) (x : circ) (s' : store) (fe fl : nat -> nat) : Prop :=
  forall c, in_comp s x c -> creq s' (ren fe fl c) = creq s c /\ cleaf s' (ren fe fl c) = cleaf s c.

(** What the circuit's bookkeeping names is in the circuit (true after every
    build). *)
Record closed (s : store) (x : circ) : Prop := {
  cl_ind : forall k, List.In k (c_keys_ind (x_c x)) -> on_edge x k.1.2;
  cl_jj : forall k, List.In k (c_keys_jj (x_c x)) -> on_edge x k.1.1.2;
  cl_par : forall p, List.In p (c_params (x_c x)) -> in_comp s x p.1 }.

(** A component a user can reach from the elements. *)
Definition reached (s : store) (x : circ) (c : LCWB.comp) : Prop :=
  match c with
  | CEl i => in_circ s x i
  | CLoop l => exists el, [/\ on_edge x el, inductive_el s el & l \in eloops s el]
  end.
(** The same call on the copy. *)
Definition ren_call (fe fl : nat -> nat) (k : call) : call :=
  match k with SetComp c v => SetComp (ren fe fl c) v | _ => k end.
Definition call_in (s : store) (x : circ) (k : call) : Prop :=
  match k with SetComp c _ => reached s x c | _ => True end.

(** Two worlds that differ in the names of the components only. *)
Record twins (w w' : world) (fe fl : nat -> nat) : Prop := {
  tw_same : same_circuit (w_s w) (w_x w) (w_s w') (w_x w') fe fl;
  tw_flags : same_flags (w_s w) (w_x w) (w_s w') fe fl;
  tw_closed : closed (w_s w) (w_x w);
  tw_eig : x_eig (w_x w') = x_eig (w_x w);
  tw_u : w_u w' = w_u w }.
