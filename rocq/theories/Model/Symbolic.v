(** Symbolic.v -- model of the symbolic Hamiltonian (symbolic.py) and of the numbers
    printed with it (circuit.py 1188-1255).

    A sympy expression is a tree.  [sm.nsimplify] on the rounded coefficients,
    flattening, reordering of commuting factors and powers do not change what a
    tree denotes and are left out; the names of the symbols are in Names.v.  Of the groups of terms whose sum is 0
    (symbolic.py 175) only the empty ones are left out.  Inductances are not 0. *)
From Coq Require Import Reals ZArith String.
From Verif.Model Require Import Base Units Edge Elements LCWB Rounding HamConst.
From mathcomp Require Import all_ssreflect all_algebra.
From Verif.Numerics Require Import RStruct Bridge.
From Verif.Model Require Import Transform Op Ham CircuitSM.

Set Implicit Arguments.
Unset Strict Implicit.
Unset Printing Implicit Defensive.
Import GRing.Theory.
Local Open Scope ring_scope.

(** symbolic.py 45-93; subscripts start from 1. *)
Inductive expr :=
| ENum (r : R) | EOmega (i : nat) | EA (i : nat) | EAd (i : nat) | EN (i : nat) | ENg (i : nat)
| EEC (i j : nat) | EEL (i : nat) | EEJ (i : nat) | EPhi (i : nat) | EPhiE (i : nat)
| EAdd (a b : expr) | EMul (a b : expr) | ENeg (a : expr) | ECos (a : expr).
Definition esum (l : seq expr) : expr := foldr EAdd (ENum 0) l.
Definition esub (a b : expr) : expr := EAdd a (ENeg b).
(** [Matrix.dot] of a row of numbers with symbols. *)
Definition edot (n : nat) (c : nat -> R) (f : nat -> expr) : expr :=
  esum [seq EMul (ENum (c i)) (f i.+1) | i <- iota 0 n].

(** [np.round(x, d)] *)
Definition np_round (d : nat) (x : R) : R :=
  Rdiv (IZR (round_even (Rmult x (pow (IZR 10) d)))) (pow (IZR 10) d).

(** The dictionary [descrip_vars]; [dv_bcols]: number of columns of B. *)
Record dvars := mkDV {
  dv_n : nat; dv_har : nat; dv_W : arr; dv_S : arr; dv_B : arr; dv_bcols : nat;
  dv_omega : vec; dv_zp : vec; dv_EJ : seq R; dv_EL : seq R; dv_has : seq bool;
  dv_EC : arr; dv_loops : seq R; dv_ng : seq R }.

(** [np.sum(np.abs(B[b, :])) == 0] *)
Definition no_flux (B : arr) (cols b : nat) : bool := \sum_(j < cols) Rabs (B b j) == 0.

(** circuit.py 1188-1255.  [val el] is the internal value of an element: the
    division by the entry 1 of 'Hz' is left out. *)
Definition el_hz (k : Elements.kind) (v : R) : R :=
  match k with
  | KInd => Rdiv (Rdiv (pow (Rdiv (Rdiv Phi0 2) PI) 2) v) (Rmult (Rmult 2 PI) hbar)
  | _ => v
  end.
Definition hz_EL (u : ustate) (L : R) : R := Rdiv (el_hz KInd L) (get_unit_freq u).
Definition hz_EC (u : ustate) (c : R) : R :=
  Rmult (Rdiv (pow (Rmult 2 e_charge) 2) (Rmult (Rmult (Rmult hbar 2) PI) (get_unit_freq u))) c.
Definition descrip_vars (u : ustate) (h : hin) (val : nat -> R) (loops : seq R) (B : arr) (ks : keys)
    : dvars :=
  let n := hn h in
  let har := count (fun i => t_om (h_st h) i != 0) (iota 0 n) in
  let nl := size loops in
  let B2 : arr := fun i j => if nl == 0%N then 0 else np_round 2 (B i j) in
  let cols := if nl == 0%N then 1%N else nl in
  mkDV n har (fun i j => np_round 6 (t_wT (h_st h) i j)) (fun i j => np_round 3 (t_S (h_st h) i j)) B2 cols
       (fun i => in_unit u (t_om (h_st h) i)) (hphi_zp h)
       [seq in_unit u (val k.1.1.2) | k <- k_jj ks]
       [seq hz_EL u (val k.1.2) | k <- k_ind ks]
       [seq ~~ no_flux B2 cols k.2 | k <- k_ind ks]
       (fun i j => hz_EC u (quad_cI h i j))
       [seq Rdiv (Rdiv l 2) PI | l <- loops]
       [seq h_ng h i | i <- iota har (n - har)].

(** symbolic.py 99-105 *)
Definition har_terms (D : dvars) : seq expr :=
  [seq EMul (EOmega i.+1) (EMul (EAd i.+1) (EA i.+1)) | i <- iota 0 (dv_har D)].

(** symbolic.py 108-117: both factors have the number operator of the first mode. *)
Definition charge_terms (D : dvars) : seq expr :=
  flatten [seq [seq EMul (EMul (EEC i.+1 j.+1) (esub (EN i.+1) (ENg i.+1))) (esub (EN i.+1) (ENg j.+1))
               | j <- iota i (dv_n D - i)] | i <- iota (dv_har D) (dv_n D - dv_har D)].

(** symbolic.py 128-132; [n0]: number of rows of S. *)
Definition ind_w (n0 : nat) (D : dvars) (e : edge) : res (nat -> R) :=
  let (a, b) := e in
  if Z.eqb a 0 || Z.eqb b 0 then
    match np_row n0 (a + b - 1) with
    | Ok r => Ok (fun i => np_round 3 (dv_S D r i)) | Err x => Err x end
  else
    match np_row n0 (a - 1), np_row n0 (b - 1) with
    | Ok ra, Ok rb => Ok (fun i => np_round 3 (dv_S D ra i - dv_S D rb i))
    | Err x, _ | _, Err x => Err x
    end.

(** symbolic.py 120-145 *)
Definition ind_terms (n0 : nat) (D : dvars) (ks : seq (edge * nat * nat)) : res (seq expr) :=
  foldl (fun acc p =>
      let '(i, (e, _, b)) := p in
      do l <- acc;
      if no_flux (dv_B D) (dv_bcols D) b then Ok l
      else do w <- ind_w n0 D e;
           Ok (rcons l (EMul (EMul (EEL i.+1) (edot (dv_har D) w EPhi))
                             (edot (dv_bcols D) (dv_B D b) EPhiE))))%res
    (Ok [::]) (zip (iota 0 (size ks)) ks).

(** symbolic.py 148-164 *)
Definition jj_terms (D : dvars) (ks : seq (edge * nat * nat * nat)) : seq expr :=
  [seq (let '(i, (_, _, b, w)) := p in
        EMul (ENeg (EEJ i.+1)) (ECos (EAdd (edot (dv_n D) (dv_W D w) EPhi) (edot (dv_bcols D) (dv_B D b) EPhiE))))
  | p <- zip (iota 0 (size ks)) ks].

(** symbolic.py 167-178 *)
Definition construct_hamiltonian (n0 : nat) (D : dvars) (ks : keys) : res expr :=
  (do it <- ind_terms n0 D (k_ind ks);
   Ok (esum (har_terms D ++ charge_terms D ++ it ++ jj_terms D (k_jj ks))))%res.

(** circuit.py 1288-1289 on the circuit object: [description()] reads the value of
    every charge island from har_dim on (KeyError without it). *)
Definition printed (u : ustate) (s : store) (x : circ) : res (dvars * expr) :=
  let h := hof x in
  let ks := mkKeys (c_keys_ind (x_c x)) (c_keys_jj (x_c x)) in
  let D := descrip_vars u h (evalue s) [seq lvalue s l | l <- c_loops (x_c x)] (x_B x) ks in
  if all (fun i => isSome (isl x i)) (iota (dv_har D) (dv_n D - dv_har D)) then
    (do e <- construct_hamiltonian (t_n0 (h_st h)) D ks; Ok (D, e))%res
  else Err KeyError.
