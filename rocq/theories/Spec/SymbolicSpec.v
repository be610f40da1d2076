(** SymbolicSpec.v -- what a printed Hamiltonian means: an operator on the truncated
    space, given a value for every symbol. *)
From Coq Require Import Reals ZArith.
From Verif.Model Require Import Base HamConst.
From mathcomp Require Import all_ssreflect all_algebra.
From mathcomp Require Import complex.
From Verif.Numerics Require Import RStruct.
From Verif.Model Require Import Transform Op Ham Symbolic.

Set Implicit Arguments.
Unset Strict Implicit.
Unset Printing Implicit Defensive.
Import GRing.Theory.
Local Open Scope ring_scope.
Local Open Scope complex_scope.

(** Values of the symbols, subscripts from 1.  [v_cos c t]: the cosine of the sum
    of [c i] times the phase of mode i, plus the number t. *)
Record reading := mkRead {
  v_dim : nat; v_omega : nat -> R; v_a : nat -> op; v_n : nat -> op; v_ng : nat -> R;
  v_EC : nat -> nat -> R; v_EL : nat -> R; v_EJ : nat -> R; v_zp : nat -> R; v_ext : nat -> R;
  v_cos : (nat -> R) -> R -> op }.

(** The number an expression without operators stands for. *)
Fixpoint number (v : reading) (e : expr) : option R :=
  match e with
  | ENum r => Some r
  | EOmega i => Some (v_omega v i) | ENg i => Some (v_ng v i) | EEC i j => Some (v_EC v i j)
  | EEL i => Some (v_EL v i) | EEJ i => Some (v_EJ v i) | EPhiE i => Some (v_ext v i)
  | EAdd a b => match number v a, number v b with Some x, Some y => Some (x + y) | _, _ => None end
  | EMul a b => match number v a, number v b with Some x, Some y => Some (x * y) | _, _ => None end
  | ENeg a => omap (fun x => - x) (number v a)
  | _ => None
  end.

(** An expression linear in the phases: coefficients and constant. *)
Fixpoint linear (v : reading) (e : expr) : option ((nat -> R) * R) :=
  match e with
  | EPhi i => Some (fun k => if k == i then 1 else 0, 0)
  | EAdd a b => match linear v a, linear v b with
                | Some x, Some y => Some (fun k => x.1 k + y.1 k, x.2 + y.2) | _, _ => None end
  | EMul a b => match number v a, linear v b with
                | Some r, Some y => Some (fun k => r * y.1 k, r * y.2) | _, _ => None end
  | ENeg a => omap (fun y => (fun k => - y.1 k, - y.2)) (linear v a)
  | _ => omap (fun r => (fun=> 0, r)) (number v e)
  end.

(** Entry (x, y) of the operator. *)
Fixpoint meaning (v : reading) (e : expr) (x y : nat) : C :=
  match e with
  | EA i => ent (v_a v i) x y
  | EAd i => (ent (v_a v i) y x)^*
  | EN i => ent (v_n v i) x y
  | EPhi i => (v_zp v i)%:C * (ent (v_a v i) x y + (ent (v_a v i) y x)^*)
  | EAdd a b => meaning v a x y + meaning v b x y
  | EMul a b => \sum_(k < v_dim v) meaning v a x k * meaning v b k y
  | ENeg a => - meaning v a x y
  | ECos a => if linear v a is Some l then ent (v_cos v l.1 l.2) x y else 0
  | _ => if number v e is Some r then (if x == y then r%:C else 0) else 0
  end.

(** An operator of mode i of n modes with dimensions m. *)
Definition at_mode (n : nat) (m : nat -> nat) (i : nat) (X : op) : op :=
  otensor [seq if k == i then X else oeye (m k) | k <- iota 0 n].
(** Raises the number of Cooper pairs by w. *)
Definition charge_shift (m : nat) (w : R) : op :=
  Op m (fun k l => if Rminus (INR k) (INR l) == w then 1 else 0).
(** exp(i (c_1 phi_1 + c_2 phi_2 + ...)): a displacement of every harmonic mode
    and a shift of every charge mode. *)
Definition phase_exp (disp : nat -> C -> op) (n har : nat) (m : nat -> nat) (zp c : nat -> R) : op :=
  otensor [seq (if (har <= k)%N then charge_shift (m k) (c k.+1)
                else if m k == 1%N then oeye 1 else disp (m k) ('i * (zp k * c k.+1)%:C))
          | k <- iota 0 n].

(** The values printed below the Hamiltonian; the symbol omega_i stands for [w]
    times the printed number, every other energy for the printed number. *)
Definition twoPI : R := Rmult 2 PI.
Definition reading_of (disp : nat -> C -> op) (D : dvars) (m : nat -> nat) (w : R) : reading :=
  let n := dv_n D in
  mkRead (\prod_(k < n) m k)%N (fun i => w * dv_omega D i.-1)
    (fun i => at_mode n m i.-1 (destroy (m i.-1))) (fun i => at_mode n m i.-1 (qcharge (m i.-1)))
    (fun i => nth 0 (dv_ng D) (i.-1 - dv_har D)) (fun i j => dv_EC D i.-1 j.-1)
    (fun i => nth 0 (dv_EL D) i.-1) (fun i => nth 0 (dv_EJ D) i.-1) (fun i => dv_zp D i.-1)
    (fun i => twoPI * nth 0 (dv_loops D) i.-1)
    (fun c t => let X := oscale (expi t) (phase_exp disp n (dv_har D) m (dv_zp D) c) in
                oscale 2%:R^-1 (oadd X (oadj X))).

(** The circuit with the coefficients of the junctions and of the inductors as
    they are printed: 6, 3 and 2 digits. *)
Definition rounded (h : hin) : hin :=
  let s := h_st h in
  mkH (mkT (t_n0 s) (t_n s) (t_m s) (t_njwi s) (t_W s) (fun i j => np_round 3 (t_S s i j)) (t_R s)
           (t_cI s) (t_lT s) (fun i j => np_round 6 (t_wT s i j)) (t_om s)) (h_m h) (h_ng h) (h_C h).
Definition roundedB (B : arr) : arr := fun i j => np_round 2 (B i j).

(** Modes as the transformations leave them: harmonic modes before the charge
    modes ([k] of them), no capacitive coupling between harmonic modes or between
    a harmonic and a charge mode, junctions coupled to charge modes with 0 or 1 or
    -1, no charge mode across an inductor. *)
Definition unit_w (w : R) : Prop := w = -1 \/ w = 0 \/ w = 1.
Record normal (h : hin) (ks : keys) (k : nat) : Prop := Normal {
  nf_le : (k <= hn h)%N;
  nf_first : forall i, (i < hn h)%N -> hcharge h i = (k <= i)%N;
  nf_C : forall i j, (i < k)%N -> (i < j < hn h)%N -> t_cI (h_st h) i j = 0;
  nf_W : forall q j, List.In q (k_jj ks) -> (k <= j < hn h)%N -> unit_w (t_wT (h_st h) q.2 j);
  nf_L : forall q w j, List.In q (k_ind ks) -> coupling_coef (rounded h) Inductive_ q.1.1 = Ok w ->
         (k <= j < hn h)%N -> w j = 0 }.

(** For every two different charge modes (from mode k on): their printed energy
    times (n_i - ng_i)(n_i - n_j), in basis state x. *)
Definition cross_excess (v : reading) (k n x : nat) : C :=
  let N i := ent (v_n v i.+1) x x in
  \sum_(i < n | (k <= i)%N) \sum_(j < n | (i < j)%N)
    (v_EC v i.+1 j.+1)%:C * ((N i - (v_ng v i.+1)%:C) * (N i - N j)).
