(** StorageSpec.v -- what a plot of the levels is, and what it means that one data
    object is a copy of another. *)
From Coq Require Import Reals ZArith String.
From Verif.Model Require Import Base Units Elements Edge LCWB.
From mathcomp Require Import all_ssreflect all_algebra.
From Verif.Numerics Require Import RStruct Bridge.
From Verif.Model Require Import Op Diag CircuitSM DecRate Copy Sweep Storage.
From Verif.Spec Require Import CopySpec.

Set Implicit Arguments.
Unset Strict Implicit.
Unset Printing Implicit Defensive.
Import GRing.Theory.
Local Open Scope ring_scope.

(** The figure has [k] curves over the abscissae [xs]; the i-th is the distance of
    the level [f i] from the lowest. *)
Definition point_of (fig : figure) (i j : nat) : R * R :=
  let c := nth ([::], [::]) (f_curves fig) i in (nth 0 c.1 j, nth 0 c.2 j).
Definition draws (fig : figure) (xs : seq R) (k : nat) (f : nat -> nat -> R) : Prop :=
  size (f_curves fig) = k /\
  forall i, (i < k)%N ->
    let c := nth ([::], [::]) (f_curves fig) i in
    [/\ size c.1 = size xs, size c.2 = size xs &
        forall j, (j < size xs)%N -> point_of fig i j = (nth 0 xs j, f i j - f 0%N j)].

(** [d'] with the components [s'] is [d] with the components [s], one to one
    renamed by [fe] and [fl]: the same results and the same circuit. *)
Definition same_params (fl : nat -> nat) (p p' : params) : Prop :=
  match p, p' with
  | NoParams, NoParams => True
  | Loops l, Loops l' => l' = [seq fl i | i <- l]
  | Modes m, Modes m' => m' = m
  | _, _ => False
  end.
Definition same_results (d d' : data) : Prop :=
  [/\ d_type d' = d_type d, d_grid d' = d_grid d, d_efreq d' = d_efreq d, d_dec d' = d_dec d
    & d_num d' = d_num d /\ d_loss d' = d_loss d].
Definition same_object (s : store) (ob : cobj) (s' : store) (ob' : cobj) (fe fl : nat -> nat) : Prop :=
  [/\ same_circuit s (ob_x ob) s' (ob_x ob') fe fl, x_eig (ob_x ob') = x_eig (ob_x ob),
      ob_mem ob' = ob_mem ob, ob_LC ob' = ob_LC ob & ob_descr ob' = ob_descr ob].

(** There are decay rates, or room for them, exactly when they were asked for. *)
Definition tabled (d : data) : Prop := d_loss d = true <-> d_dec d <> NoDec.
