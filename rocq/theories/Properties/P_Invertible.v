(** P_Invertible.v -- C14 on matrices: np.linalg.inv of the capacitance matrix at
    construction (circuit.py 327) is defined exactly for grounded circuits. *)
From Coq Require Import Reals ZArith.
From mathcomp Require Import all_ssreflect all_algebra.
From Verif.Numerics Require Import RStruct Bridge.
From Verif.Model Require Import Base Elements Edge LCWB.
From Verif.Spec Require Import GraphSpec CircuitSpec.
From Verif.Proofs Require Import PosDefProofs.
From Verif.Properties Require Import P_Circuit.

Theorem C14_C_invertible optim s fd n lobj d c :
  get_LCWB optim s fd (Z.of_nat n) lobj d = Ok c -> proper_dict n d ->
  (forall e els, In (e, els) d -> Rlt R0 (edge_cap s els)) -> connected n (map fst d) ->
  toM n n (c_C c) \in unitmx.
Proof. exact: C_invertible. Qed.
Print Assumptions C14_C_invertible.

Theorem C14_disconnected_singular optim s fd n lobj d c (T : Z -> bool) :
  get_LCWB optim s fd (Z.of_nat n) lobj d = Ok c -> proper_dict n d ->
  T 0%Z = false -> (exists k, Z.le 1 k /\ Z.le k (Z.of_nat n) /\ T k = true) ->
  (forall e els, In (e, els) d -> T (fst e) = T (snd e)) ->
  toM n n (c_C c) \notin unitmx.
Proof. exact: C_not_invertible. Qed.
Print Assumptions C14_disconnected_singular.

Example C14_invertible_case : exists c, get_LCWB false ex "junctions" 3 exl exd = Ok c /\
  toM 3 3 (c_C c) \in unitmx.
Proof.
have [c [H [Hp [Hc Hpos]]]] := C14_case; exists c; split; first by [].
exact: (C_invertible (n := 3) H Hp Hpos Hc).
Qed.
