(** CapGradSpec.v -- the charge energy and the flux energy of a circuit as functions
    of the value of one element. *)
From Coq Require Import Reals ZArith String.
From Verif.Model Require Import Base Edge Elements LCWB HamConst.
From mathcomp Require Import all_ssreflect all_algebra.
From mathcomp Require Import complex.
From Verif.Numerics Require Import RStruct Bridge.
From Verif.Model Require Import Transform Op Ham Diag CircuitSM.
From Verif.Spec Require Import SessionSpec GradSpec.

Set Implicit Arguments.
Unset Strict Implicit.
Unset Printing Implicit Defensive.
Import GRing.Theory.
Local Open Scope ring_scope.
Local Open Scope complex_scope.

(** Capacitance and susceptance matrices with which the circuit would be built if
    element [el] had the value [v]. *)
Definition mats_at (optim : bool) (s : store) (x : circ) (el : nat) (v : R) : res (arr * arr) :=
  match get_LCWB optim (with_value s el v) (x_fd x) (Z.of_nat (t_n0 (x_st x))) (c_lobj (x_c x)) (x_dict x) with
  | Ok c => Ok (c_C c, c_L c)
  | Err e => Err e
  end.
Definition C_at (optim : bool) (s : store) (x : circ) (el : nat) (v : R) : 'M[R]_(t_n0 (x_st x)) :=
  if mats_at optim s x el v is Ok p then toM _ _ p.1 else 0.
Definition L_at (optim : bool) (s : store) (x : circ) (el : nat) (v : R) : 'M[R]_(t_n0 (x_st x)) :=
  if mats_at optim s x el v is Ok p then toM _ _ p.2 else 0.

(** R^T C^-1 R and S^T L S, with the coordinates of the circuit. *)
Definition charge_coef (x : circ) (Cm : 'M[R]_(t_n0 (x_st x))) : arr :=
  let Rm := toM (t_n0 (x_st x)) (t_n0 (x_st x)) (t_R (x_st x)) in ofM (Rm^T *m invmx Cm *m Rm).
Definition flux_coef (x : circ) (Lm : 'M[R]_(t_n0 (x_st x))) : arr :=
  let Sm := toM (t_n0 (x_st x)) (t_n0 (x_st x)) (t_S (x_st x)) in ofM (Sm^T *m Lm *m Sm).

(** Entry (a, b) of half the sum of A_ij X_i X_j. *)
Definition quad_form (n : nat) (A : arr) (X : nat -> op) (a b : nat) : C :=
  (2%:R)^-1 * \sum_(i < n) \sum_(j < n) (A i j)%:C * \sum_(k < dim (X i)) ent (X i) a k * ent (X j) k b.

(** Charge energy, with the operators and coordinates of the circuit held fixed. *)
Definition charge_energy (optim : bool) (s : store) (x : circ) (el : nat) (v : R) : nat -> nat -> C :=
  quad_form (x_n x) (charge_coef (C_at optim s x el v)) (opQ (hof x)).

(** Flux energy: the quadratic form and the external flux in each inductor. *)
Definition flux_energy (optim : bool) (s : store) (x : circ) (el : nat) (v : R) (a b : nat) : C :=
  quad_form (x_n x) (flux_coef (L_at optim s x el v)) (opPhi (hof x)) a b +
  \sum_(k <- c_keys_ind (x_c x))
    (ind_coef (evalue (with_value s el v) k.1.2) (ext_flux [seq lvalue s l | l <- c_loops (x_c x)] (x_B x) k.2))%:C
    * res_entry (coupling_op (hof x) (Some Inductive_) k.1.1) a b.

(** Operator of the gate charge of mode [i] as a function of the element. *)
Definition ng_operator (optim : bool) (s : store) (x : circ) (el i : nat) (v : R) (a b : nat) : C :=
  \sum_(j < x_n x) (Rdiv (charge_coef (C_at optim s x el v) i j) (sqrt Units.hbar))%:C * ent (opQ (hof x) j) a b.

(** The matrices of the circuit are those of the present element values: no element
    was changed after the last build.  ([b]: whether this held before.) *)
Definition sync_step (optim : bool) (b : bool) (c : call) (r : res unit) : bool :=
  match c with
  | SetComp (CEl _) _ => false
  | Update _ => ~~ raised r
  | SetParams _ _ => if raised r then b && ~~ optim else true
  | _ => b
  end.
Fixpoint in_sync (optim : bool) (b : bool) (cs : seq call) (tr : seq (world * res unit)) : bool :=
  match cs, tr with
  | c :: cs', (_, r) :: tr' => in_sync optim (sync_step optim b c r) cs' tr'
  | _, _ => b
  end.

(** [el] is placed in the circuit, or (PyTorch engine) is the capacitor of a placed
    inductor or junction. *)
Definition placed (optim : bool) (s : store) (d : seq (edge * seq nat)) (el : nat) : Prop :=
  exists e els el', List.In (e, els) d /\ List.In el' els /\
    ((el' = el /\ ekind s el' <> KJJ) \/ (optim = true /\ ekind s el' <> KCap /\ ecap s el' = el)).

(** The capacitor belongs to one object only: in the NumPy engine the capacitors
    inside inductors and junctions have no entry in [partial_mats]. *)
Definition plain_capacitor (optim : bool) (s : store) (x : circ) (el : nat) : Prop :=
  ekind s el = KCap /\ (optim = true \/
    forall e els e', List.In (e, els) (x_dict x) -> List.In e' els -> ekind s e' <> KCap -> ecap s e' <> el).
