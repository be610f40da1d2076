(** PartsSpec.v -- a circuit whose modes form two groups that do not act on each
    other. *)
From Coq Require Import Reals ZArith.
From Verif.Model Require Import Base Units Edge Accuracy HamConst.
From mathcomp Require Import all_ssreflect all_algebra.
From mathcomp Require Import complex.
From Verif.Numerics Require Import RStruct Bridge.
From Verif.Model Require Import Op Transform Ham.

Set Implicit Arguments.
Unset Strict Implicit.
Unset Printing Implicit Defensive.
Import GRing.Theory Order.TTheory.
Local Open Scope ring_scope.
Local Open Scope complex_scope.

(** The [n] modes of [h] from mode [a] on, as a circuit of their own. *)
Definition part_st (st : tst) (a n : nat) : tst :=
  mkT (t_n0 st) n (t_m st) (t_njwi st) (t_W st) (fun i j => t_S st i (a + j)%N) (fun i j => t_R st i (a + j)%N)
      (fun i j => t_cI st (a + i)%N (a + j)%N) (fun i j => t_lT st (a + i)%N (a + j)%N)
      (fun i j => t_wT st i (a + j)%N) (fun i => t_om st (a + i)%N).
Definition part (h : hin) (a n : nat) : hin :=
  mkH (part_st (h_st h) a n) [seq hm h (a + i)%N | i <- iota 0 n] (fun i => h_ng h (a + i)%N) (h_C h).

(** No capacitive coupling between the first [n1] modes and the [n2] others, and
    every junction acts on one group only: on the first if [side], otherwise on the
    second. *)
Definition jj_key : Type := (edge * nat * nat * nat)%type.
Definition separate (h : hin) (n1 n2 : nat) (side : jj_key -> bool) (jj : seq jj_key) : Prop :=
  [/\ hn h = (n1 + n2)%N, forall i j, (i < n1)%N -> (j < n2)%N -> t_cI (h_st h) i (n1 + j)%N = 0,
      forall k j, List.In k jj -> side k -> (j < n2)%N -> t_wT (h_st h) k.2 (n1 + j)%N = 0 &
      forall k i, List.In k jj -> ~~ side k -> (i < n1)%N -> t_wT (h_st h) k.2 i = 0].
(** The inductors, which act on sums of mode fluxes, and the junctions of one side. *)
Definition keys_of (side : jj_key -> bool) (ks : keys) : keys := mkKeys (k_ind ks) [seq k <- k_jj ks | side k].

(** [A] is the energy of two systems without interaction: [A1] on the first factor,
    [A2] on the second. *)
Definition without_interaction (A A1 A2 : op) : Prop :=
  dim A = (dim A1 * dim A2)%N /\
  forall x x' y y', (x < dim A1)%N -> (x' < dim A1)%N -> (y < dim A2)%N -> (y' < dim A2)%N ->
    ent A (x * dim A2 + y)%N (x' * dim A2 + y')%N =
      (if y == y' then ent A1 x x' else 0) + (if x == x' then ent A2 y y' else 0).

(** All sums of an energy of the one and an energy of the other, in ascending order. *)
Definition all_sums (n1 n2 : nat) (E1 E2 : nat -> R) : seq R :=
  sort <=%R [seq Rplus (E1 i) (E2 j) | i <- iota 0 n1, j <- iota 0 n2].
