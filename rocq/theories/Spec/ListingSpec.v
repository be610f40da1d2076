(** ListingSpec.v -- what the listing below a printed Hamiltonian must contain. *)
From Coq Require Import Reals ZArith.
From Verif.Model Require Import Base Units Edge Elements LCWB HamConst.
From mathcomp Require Import all_ssreflect all_algebra.
From Verif.Numerics Require Import RStruct.
From Verif.Model Require Import Transform Op Ham CircuitSM Symbolic Listing.

Set Implicit Arguments.
Unset Strict Implicit.
Unset Printing Implicit Defensive.
Import GRing.Theory.
Local Open Scope ring_scope.

(** Symbols can be compared. *)
Definition sym_code (q : sym) : nat * nat * nat :=
  match q with
  | SOmega i => (0, i, 0) | SZp i => (1, i, 0) | SNg i => (2, i, 0) | SEC i j => (3, i, j)
  | SEL i => (4, i, 0) | SEJ i => (5, i, 0) | SFlux i => (6, i, 0)
  end%N.
Lemma sym_code_inj : injective sym_code.
Proof. by case=> [i|i|i|i j|i|i|i] [i'|i'|i'|i' j'|i'|i'|i'] //= [-> //] ->. Qed.
Canonical sym_eqType := EqType sym (InjEqMixin sym_code_inj).

(** A symbol occurs in a printed expression; what is multiplied by the number 0 is
    not printed. *)
Fixpoint occurs (q : sym) (e : expr) : bool :=
  match e with
  | EOmega i => q == SOmega i | ENg i => q == SNg i | EEC i j => q == SEC i j
  | EEL i => q == SEL i | EEJ i => q == SEJ i | EPhiE i => q == SFlux i
  | EAdd a b => occurs q a || occurs q b
  | EMul (ENum r) b => if r == 0 then false else occurs q b
  | EMul a b => occurs q a || occurs q b
  | ENeg a | ECos a => occurs q a
  | _ => false
  end.
(** The phase operator of mode i occurs. *)
Fixpoint occurs_phi (i : nat) (e : expr) : bool :=
  match e with
  | EPhi j => i == j
  | EAdd a b => occurs_phi i a || occurs_phi i b
  | EMul (ENum r) b => if r == 0 then false else occurs_phi i b
  | EMul a b => occurs_phi i a || occurs_phi i b
  | ENeg a | ECos a => occurs_phi i a
  | _ => false
  end.

(** The symbols to which equations give a number. *)
Fixpoint listed (l : seq eqn) : seq sym :=
  match l with
  | [::] => [::]
  | EqPhi _ :: r => listed r
  | EqOver2Pi q _ :: r | EqIs q _ :: r => q :: listed r
  end.
(** The number an equation gives to its symbol, in the form in which it is given. *)
Definition gives (e : eqn) (q : sym) (r : R) : Prop :=
  match e with EqPhi _ => False | EqOver2Pi q' r' | EqIs q' r' => q' = q /\ r' = r end.

(** The exact numbers: frequencies, charging and Josephson energies divided by 2 pi
    and the frequency unit (a charge is counted in units of 2e); the inductive
    energy (Phi0/2pi)^2/L divided by Planck's constant and the unit; fluxes in
    units of 2 pi. *)
Definition exact (u : ustate) (h : hin) (val : nat -> R) (loops : seq R) (ks : keys) (q : sym) : R :=
  match q with
  | SOmega i => in_unit u (t_om (h_st h) i.-1)
  | SZp i => hphi_zp h i.-1
  | SNg i => h_ng h i.-1
  | SEC i j => in_unit u (Rmult (if i == j then Rdiv (t_cI (h_st h) i.-1 i.-1) 2 else t_cI (h_st h) i.-1 j.-1)
                                (Rmult charge_unit charge_unit))
  | SEL i => Rdiv (Rdiv (Rdiv (pow (Rdiv Phi0 (Rmult 2 PI)) 2) (val (nth (Z0, Z0, 0, 0)%N (k_ind ks) i.-1).1.2))
                        (Rmult (Rmult 2 PI) hbar)) (get_unit_freq u)
  | SEJ i => in_unit u (val (nth (Z0, Z0, 0, 0, 0)%N (k_jj ks) i.-1).1.1.2)
  | SFlux i => Rdiv (nth 0 loops i.-1) (Rmult 2 PI)
  end.
(** How far a printed number may be from the exact one. *)
Definition tolerance (q : sym) (v : R) : R :=
  match q with
  | SOmega _ => Rmult (Rdiv 1 100000) (Rplus 1 (Rabs v))
  | SZp _ => Rdiv (Rabs v) 200
  | SFlux _ => Rdiv 1 200
  | _ => Rdiv 1 2000
  end.

(** Two circuits alike but for gate charges and fluxes that agree when rounded as
    they are printed. *)
Record look_alike (s s' : store) (x x' : circ) : Prop := LookAlike {
  la_c : x_c x = x_c x'; la_B : x_B x = x_B x'; la_st : x_st x = x_st x';
  la_isl : forall i, isSome (isl x i) = isSome (isl x' i);
  la_ng : forall i, np_round 3 (ng_of x i) = np_round 3 (ng_of x' i);
  la_val : forall el, evalue s el = evalue s' el;
  la_loop : forall l, np_round 2 (Rdiv (Rdiv (lvalue s l) 2) PI) = np_round 2 (Rdiv (Rdiv (lvalue s' l) 2) PI) }.
