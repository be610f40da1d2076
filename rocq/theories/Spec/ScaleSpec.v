(** ScaleSpec.v -- the same circuit with all capacitances and inductances divided by
    one number and all Josephson energies multiplied by it. *)
From Verif.Model Require Import Base Edge Elements LCWB.
From mathcomp Require Import all_ssreflect all_algebra.
From Verif.Numerics Require Import RStruct Bridge.
From Verif.Model Require Import Op Transform Ham.

Set Implicit Arguments.
Unset Strict Implicit.
Unset Printing Implicit Defensive.
Import GRing.Theory.
Local Open Scope ring_scope.

(** In the same coordinates: inverse capacitances, inverse inductances and mode
    frequencies times [x]. *)
Definition rescale_st (x : R) (st : tst) : tst :=
  mkT (t_n0 st) (t_n st) (t_m st) (t_njwi st) (t_W st) (t_S st) (t_R st)
      (fun i j => x * t_cI st i j) (fun i j => x * t_lT st i j) (t_wT st) (fun i => x * t_om st i).
Definition rescale (x : R) (h : hin) : hin :=
  mkH (rescale_st x (h_st h)) (h_m h) (h_ng h) (fun i j => Rdiv (h_C h i j) x).
(** The values of the inductors (henry) and of the junctions (rad/s). *)
Definition rescaled_values (x : R) (ks : keys) (val val' : nat -> R) : Prop :=
  (forall k, List.In k (k_ind ks) -> val' k.1.2 = Rdiv (val k.1.2) x) /\
  (forall k, List.In k (k_jj ks) -> val' k.1.1.2 = x * val k.1.1.2).

(** The elements: capacitors and inductors divided, junctions multiplied. *)
Definition rescale_store (x : R) (s : store) : store :=
  mkStore (ekind s)
    (fun el => match ekind s el with KJJ => Rmult x (evalue s el) | _ => Rdiv (evalue s el) x end)
    (ereq s) (eleaf s) (ecap s) (eloops s) (lvalue s) (lreq s) (lleaf s).
Definition own_capacitors (s : store) : Prop := forall el, ekind s el <> KCap -> ekind s (ecap s el) = KCap.
