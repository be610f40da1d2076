(** PhaseSpec.v -- wave functions of states of a tensor product. *)
From Coq Require Import Reals.
From Verif.Spec Require Import HermiteSpec LineSpec.
From mathcomp Require Import all_ssreflect all_algebra.
From mathcomp Require Import complex.
From Verif.Numerics Require Import RStruct.

Set Implicit Arguments.
Unset Strict Implicit.
Unset Printing Implicit Defensive.
Import GRing.Theory.
Local Open Scope ring_scope.
Local Open Scope complex_scope.

(** The levels of the modes, first mode slowest. *)
Fixpoint tuples (ms : seq nat) : seq (seq nat) :=
  if ms is a :: ms' then flatten [seq [seq i :: d | d <- tuples ms'] | i <- iota 0 a] else [:: [::]].
(** Position of a tuple of levels in the tensor product. *)
Fixpoint place (ms d : seq nat) : nat :=
  if ms is a :: ms' then (head 0 d * (\prod_(b <- ms') b) + place ms' (behead d))%N else 0%N.

(** Value at [phi] of the state with amplitudes [v] when level k of mode a has wave
    function [basis a k]. *)
Definition wave (basis : nat -> nat -> R -> complex R) (ms : seq nat) (v : nat -> complex R)
    (phi : nat -> R) : complex R :=
  \sum_(d <- tuples ms) v (place ms d) * \prod_(a < size ms) basis a (nth 0%N d a) (phi a).

(** Entries of [ix] along the axes whose size is not 1, and the first two exchanged. *)
Fixpoint kept (sh ix : seq nat) : seq nat :=
  match sh, ix with
  | d :: sh', i :: ix' => if d == 1%N then kept sh' ix' else i :: kept sh' ix'
  | _, _ => [::]
  end.
Definition flip (l : seq nat) : seq nat := if l is a :: b :: r then b :: a :: r else l.
(** Indices of an array. *)
Definition inside (sh ix : seq nat) : bool := (size ix == size sh) && all2 (fun i d => (i < d)%N) ix sh.

(** e^{i q x} / sqrt(2 pi) *)
Definition plane (q x : R) : complex R :=
  pnorm%:C * ((cos (x * q)%R) +i* (sin (x * q)%R)).
(** Level k of mode a: a plane wave of charge [q a k] for a periodic mode, an
    oscillator function of scale [c a] otherwise. *)
Definition levels (periodic : nat -> bool) (c : nat -> R) (q : nat -> nat -> R) (a k : nat) (x : R) : complex R :=
  if periodic a then plane (q a k) x else (chi (c a) k x)%:C.

(** Integral of a complex function along one mode, and along all modes. *)
Definition cline (periodic : bool) (G : R -> complex R) (I : complex R) : Prop :=
  line periodic (fun x => complex.Re (G x)) (complex.Re I) /\
  line periodic (fun x => complex.Im (G x)) (complex.Im I).
Fixpoint multi (ps : seq bool) (F : seq R -> complex R) (I : complex R) : Prop :=
  if ps is p :: ps' then exists G, (forall x, multi ps' (fun l => F (x :: l)) (G x)) /\ cline p G I
  else F [::] = I.
