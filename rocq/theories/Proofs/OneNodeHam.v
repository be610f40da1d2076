(** OneNodeHam.v -- the Hamiltonian of one mode, entry by entry. *)
From Coq Require Import Reals ZArith Lra.
From Verif.Model Require Import Base Units Edge Elements LCWB Accuracy HamConst.
From mathcomp Require Import all_ssreflect all_algebra.
From mathcomp Require Import complex ring.
From Verif.Numerics Require Import RStruct Bridge.
From Verif.Model Require Import FluxDist Op Transform Ham.
From Verif.Spec Require Import OpSpec OneNodeSpec.
From Verif.Proofs Require Import OpProofs HamProofs HamProofs2 HamProofs5 HamProofs6 ChargeShiftProofs PartsProofs.

Set Implicit Arguments.
Unset Strict Implicit.
Unset Printing Implicit Defensive.
Import GRing.Theory.
Local Open Scope ring_scope.
Local Open Scope complex_scope.

Section One.
Variables (disp : nat -> C -> op) (h : hin) (m : nat).
Hypothesis n1 : hn h = 1%N.
Hypothesis m1 : h_m h = [:: m].
Lemma hm1 : hm h 0 = m. Proof. by rewrite /hm m1. Qed.

Lemma opExp1 w : opExp disp h w = exp_iso disp h w 0.
Proof. by rewrite /opExp n1. Qed.
Lemma LC1 a b : oent (LC_hamil h) a b =
  if hcharge h 0 then (halfR (t_cI (h_st h) 0%N 0%N))%:C * ent (opQQ h 0 0) a b
  else (t_om (h_st h) 0%N)%:C * ent (opN h 0) a b.
Proof. by rewrite /LC_hamil n1 /= /LC_term /=; case: (hcharge h 0) => /=. Qed.
Lemma cpl1 a b : t_n0 (h_st h) = 1%N -> cpl h (Z0, Zpos xH) a b = (t_S (h_st h) 0%N 0%N)%:C * ent (opPhi h 0) a b.
Proof.
by move=> n0; rewrite cpl_entry /coupling_coef /= n0 /= n1 /= big_seq1.
Qed.
Lemma N1 : opN h 0 = num_op_isolated h 0.
Proof. by rewrite opNE n1 T1 /one_fam eqxx. Qed.
Lemma Phi1 : opPhi h 0 = flux_op_isolated h 0.
Proof. by rewrite opPhiE n1 T1 /one_fam eqxx. Qed.
Lemma QQ1 : opQQ h 0 0 = omul (charge_op_isolated h 0) (charge_op_isolated h 0).
Proof. by rewrite opQQE n1 //= T1 /two_fam. Qed.
End One.
