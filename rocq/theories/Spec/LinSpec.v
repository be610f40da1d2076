(** LinSpec.v -- what is assumed of numpy's singular values, and the notion of a
    closed path used by the flux distribution. *)
From Coq Require Import Reals ZArith.
From mathcomp Require Import all_ssreflect all_algebra.
From Verif.Numerics Require Import RStruct Bridge.

Set Implicit Arguments.
Unset Strict Implicit.
Unset Printing Implicit Defensive.
Import GRing.Theory.
Local Open Scope ring_scope.

(** [s] is an acceptable list of singular values of A for the tolerance [t]:
    non-negative, descending, and as many exceed the tolerance as the rank says
    (so rank decisions at this tolerance are right). *)
Definition sing_values_ok (t : R) m n (A : 'M[R]_(m, n)) (s : seq R) : Prop :=
  [/\ forall k, Rle 0 (nth 0 s k),
      forall k l, (k <= l < size s)%N -> Rle (nth 0 s l) (nth 0 s k) &
      count (fun x => Rltb t x) s = \rank A].
