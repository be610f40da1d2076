(** WrapperSpec.v -- block-diagonal matrices, and what it means that the two engines
    agree. *)
From Coq Require Import Reals ZArith.
From Verif.Model Require Import Base.
From mathcomp Require Import all_ssreflect all_algebra.
From mathcomp Require Import complex.
From Verif.Numerics Require Import RStruct.
From Verif.Model Require Import Op Matrix.

Set Implicit Arguments.
Unset Strict Implicit.
Unset Printing Implicit Defensive.
Import GRing.Theory.
Local Open Scope ring_scope.

(** Block [b] has [rows b] rows, [cols b] columns and the entries [blk b]; [M] has
    them along its diagonal and zeros elsewhere. *)
Definition above (f : nat -> nat) (b : nat) : nat := (\sum_(i < b) f i)%N.
Definition block_diagonal (num : nat) (rows cols : nat -> nat) (blk : nat -> nat -> nat -> C) (M : obj) : Prop :=
  [/\ o_shape M = [:: above rows num; above cols num],
      forall b i j, (b < num)%N -> (i < rows b)%N -> (j < cols b)%N ->
        o_ent M (above rows b + i) (above cols b + j) = blk b i j
    & forall b b' i j, (b < num)%N -> (b' < num)%N -> b <> b' -> (i < rows b)%N -> (j < cols b')%N ->
        o_ent M (above rows b + i) (above cols b' + j) = 0].

(** A tensor and an array with the same numbers. *)
Definition agree (t a : obj) : Prop :=
  [/\ o_kind t = KTen false, o_kind a = KArr, o_shape t = o_shape a & o_ent t = o_ent a].
(** Both raise, or both return the same numbers. *)
Definition agree_res (r r' : res obj) : Prop :=
  match r, r' with
  | Ok t, Ok a => agree t a
  | Err _, Err _ => True
  | _, _ => False
  end.
