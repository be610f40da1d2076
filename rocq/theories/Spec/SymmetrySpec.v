(** SymmetrySpec.v -- reversal of the external fluxes and of the gate charges: what
    it does to operators and states.  Basis states are numbered as in OpSpec. *)
From Coq Require Import Reals ZArith.
From Verif.Model Require Import Base Units Edge LCWB Accuracy HamConst.
From mathcomp Require Import all_ssreflect all_algebra.
From mathcomp Require Import complex.
From Verif.Numerics Require Import RStruct Bridge.
From Verif.Model Require Import Op Transform Ham Diag.
From Verif.Spec Require Import OpSpec.

Set Implicit Arguments.
Unset Strict Implicit.
Unset Printing Implicit Defensive.
Import GRing.Theory.
Local Open Scope ring_scope.
Local Open Scope complex_scope.

(** The number of photons in the harmonic modes, even or odd; the last mode is the
    least significant digit. *)
Section Digits.
Variables (charge : nat -> bool) (dims : nat -> nat).
Fixpoint parity (n I : nat) : C :=
  if n is n'.+1
  then parity n' (I %/ dims n')%N * (if charge n' then 1 else (-1) ^+ (I %% dims n')%N)
  else 1.
(** Charge N of each charge mode replaced by -N. *)
Fixpoint mirror (n I : nat) : nat :=
  if n is n'.+1
  then (mirror n' (I %/ dims n') * dims n' +
        (if charge n' then (dims n').-1 - I %% dims n' else I %% dims n'))%N
  else 0%N.
End Digits.
Definition par (h : hin) (I : nat) : C := parity (hcharge h) (hm h) (hn h) I.
Definition mir (h : hin) (I : nat) : nat := mirror (hcharge h) (hm h) (hn h) I.

(** [A'] is [A] after time reversal, up to the sign [sg]. *)
Definition reversed (h : hin) (sg : C) (A A' : op) : Prop :=
  dim A' = dim A /\ forall I J, (I < dim A)%N -> (J < dim A)%N ->
    ent A' I J = sg * (par h I * par h J * (ent A I J)^*).
(** [A'] is [A] after reversal of all phases and charges. *)
Definition mirrored (h : hin) (sg : C) (A A' : op) : Prop :=
  dim A' = dim A /\ forall I J, (I < dim A)%N -> (J < dim A)%N ->
    ent A' (mir h I) (mir h J) = sg * (par h I * par h J * ent A I J).
Definition rev_state (h : hin) (v : nat -> C) : nat -> C := fun I => par h I * (v I)^*.
Definition mir_state (h : hin) (v : nat -> C) : nat -> C := fun I => par h I * v (mir h I).

Definition minus_flux (loops : seq R) : seq R := [seq - x | x <- loops].
Definition minus_charge (h : hin) : hin := mkH (h_st h) (h_m h) (fun i => - h_ng h i) (h_C h).

(** A truncated displacement operator exp(i r (a + a+)): unitary with inverse at
    -r, unchanged by transposition; a photon-number parity transformation turns r
    into -r. *)
Definition displaces (disp : nat -> C -> op) : Prop := (forall m a, dim (disp m a) = m) /\ forall m (r : R),
  [/\ forall a b, (a < m)%N -> (b < m)%N -> ent (disp m ('i * (- r)%:C)) a b = (ent (disp m ('i * r%:C)) b a)^*,
      forall a b, (a < m)%N -> (b < m)%N -> ent (disp m ('i * (- r)%:C)) a b = (ent (disp m ('i * r%:C)) a b)^* &
      forall a b, (a < m)%N -> (b < m)%N -> ent (disp m ('i * (- r)%:C)) a b =
        (-1) ^+ a * (-1) ^+ b * ent (disp m ('i * r%:C)) a b].

(** No inductor is biased by a charge mode. *)
Definition inductor_free (h : hin) (ks : keys) : Prop := forall k, List.In k (k_ind ks) ->
  exists2 c, coupling_coef h Inductive_ k.1.1 = Ok c &
    forall i, (i < hn h)%N -> hcharge h i -> c i = 0.

(** The components with all loop fluxes reversed, and levels with reversed states. *)
Definition back_flux (s : store) : store :=
  mkStore (ekind s) (evalue s) (ereq s) (eleaf s) (ecap s) (eloops s) (fun l => - lvalue s l) (lreq s) (lleaf s).
Definition rev_levels (h : hin) (e : eigres) : eigres := mkE (e_freqs e) [seq rev_state h v | v <- e_vecs e].

(** The matrix exponential of the truncated a* a+ - conj a: the limit of the partial
    sums, entry by entry. *)
Definition gen (m : nat) (a : C) : op := osub (oscale a (create m)) (oscale a^* (destroy m)).
Fixpoint opow (A : op) (k : nat) : op := if k is k'.+1 then omul A (opow A k') else oeye (dim A).
Definition partial_exp (A : op) (n a b : nat) : C := \sum_(k < n) ((INR k`!)^-1)%:C * ent (opow A k) a b.
Definition climit (u : nat -> C) (z : C) : Prop :=
  Un_cv (fun n => complex.Re (u n)) (complex.Re z) /\ Un_cv (fun n => complex.Im (u n)) (complex.Im z).
Definition exponential (disp : nat -> C -> op) : Prop := forall m a, dim (disp m a) = m /\
  forall i j, (i < m)%N -> (j < m)%N -> climit (fun n => partial_exp (gen m a) n i j) (ent (disp m a) i j).
