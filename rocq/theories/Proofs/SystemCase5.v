(** SystemCase5.v -- a diagonalised circuit that has lost a mode. *)
From Coq Require Import Reals ZArith String Lra Lia.
From Verif.Model Require Import Base Units Settings Elements Edge LCWB Rounding Accuracy HamConst Trunc PartialConst.
From mathcomp Require Import all_ssreflect all_algebra.
From mathcomp Require Import complex.
From Verif.Numerics Require Import RStruct Bridge.
From Verif.Model Require Import FluxDist Transform Op Ham Diag CircuitSM Partial System.
From Verif.Spec Require Import OpSpec EigSpec PerturbSpec TransSpec SessionSpec SystemSpec.
From Verif.Proofs Require Import OpProofs HamProofs HamProofs2 HamProofs3 HamProofs4 HamProofs6 SMProofs SMProofs3.
From Verif.Proofs Require Import SystemProofs SystemProofs2 SessionCase CapCase SystemCase2.
From Verif.Properties Require Import P_Diag.

Set Implicit Arguments.
Unset Strict Implicit.
Unset Printing Implicit Defensive.
Import GRing.Theory.
Local Open Scope ring_scope.
Local Open Scope complex_scope.

Lemma rm_keys lobj c : get_LCWB false rm_store "junctions" (Zpos (xO xH)) lobj rm_dict = Ok c ->
  forall k, List.In k (c_keys_ind c) -> k.1.1 = (Z0, Zpos (xO xH)) \/ k.1.1 = (Z0, Zpos xH).
Proof.
rewrite /get_LCWB /= /eff_ind /= /pydiv; case: Req_EM_T => [E|_]; first by case: R1_neq_R0.
case: Req_EM_T => [E|_] /=; first by exfalso; move: E; lra.
by case=> <- k /= [<-|[<-|//]]; [left|right].
Qed.

(** One state in the remaining mode: the solver returns the only entry. *)
Definition rm_eigs : eigs_fun := fun H _ _ => EigsOk [:: ent H 0%N 0%N] (fun _ _ => 1).

Lemma rm_diag disp (lobj : nat -> lrec) : (forall m a, dim (disp m a) = m) -> exists x,
  [/\ diagonalised disp false x, x_n x = 1%N /\ t_n0 (x_st x) = 2%N, toM 2 2 (x_C x) = 1%:M &
      size (e_freqs (x_eig x)) = 1%N].
Proof.
move=> Hd; have [x0 [E0 n0 d0 c0]] := rm_construct lobj.
have [[_ n00] [ch C1] _ _ _] := rm_detail E0; have G0 := good_construct disp E0.
have [x1 [E1 G1 [S1 K1] Cx [n1 m1]]] : exists x1, [/\ set_trunc disp (Some [:: 1%N]) x0 = (x1, Ok tt), good disp x1,
    x_st x1 = x_st x0 /\ x_c x1 = x_c x0, x_C x1 = x_C x0 & x_n x1 = 1%N /\ x_m x1 = [:: 1%N]].
  move: (good_set_trunc (Some [:: 1%N]) G0); rewrite /set_trunc n0 /= ch; set x1 := put_m _ _.
  have c1 i : (i < x_n x1)%N -> is_charge (x_st x1) i -> isl x1 i := g_charge G0 (i := i).
  have s1 : size (x_m x1) = x_n x1 by rewrite -[x_n x1]/(x_n x0) n0.
  by rewrite (mem_err_none s1 c1) => G1; eexists; split; [reflexivity|exact: G1|by []|by []|].
have m0 : x_m x1 <> [::] by rewrite m1.
have [A EA] : exists A, ham_of disp rm_store x1 = Ok A.
  apply: hamiltonian_total; rewrite ?m1 //; first by rewrite -[hn _]/(x_n x1) n1.
  have [n [c [B [st [Hb [Hnc Ex]]]]]] := constructP E0.
  have n2 : n = 2%N by move: Hnc; cbn; case=> E; rewrite -[n]Nat2Z.id -E.
  move: Hb; rewrite n2 => -[st0 [Ec _ _ _]].
  rewrite -[h_st _]/(x_st x1) S1 n00 => k; cbn [k_ind]; rewrite K1 Ex => hk.
  by right; have [->|->] := rm_keys Ec hk.
have tot : total (hof x1) = 1%N by rewrite /total -[hn _]/(x_n x1) n1 big_ord1 /hm -[h_m _]/(x_m x1) m1.
have [d1 _] := hamiltonian_ok Hd EA; rewrite tot in d1.
have EH : (hamil rm_store x1).2 = Ok A by have [-> _] := hamilE rm_store G1.
pose u0 := ustate_init.
have [x2 [r [Ed Ee S2 C2 [h2 m2]]]] := diag_ok u0 (eigs := rm_eigs) (k := Zpos xH) G1 m0 EH erefl.
have dz : diagonalised disp false x2.
  exists rm_or, rm_store, lobj, "junctions"%string, rm_dict, x0, u0, [:: SetTrunc (Some [:: 1]%N)], [:: (mkW rm_store u0 x1, Ok tt)].
  exists (mkW rm_store u0 x1), rm_eigs, argsort0, (Zpos xH), r; split; [exact: E0| |by split| |exact: Ed].
  - by cbn [run step w_x w_s w_u]; rewrite E1.
  - split; first exact: argsort0_sorts.
    move=> H; cbn [w_s w_x]; rewrite EH => -[<-] ncv lam V [<- <-]; split; last first.
      by move=> [|//] [|//] _ _; rewrite d1 /dot big_ord1 cj1 mul1r.
    move=> [|//] _; split; last by exists 0%N; rewrite ?d1 //; apply/eqP/oner_neq0.
    by move=> i; rewrite d1 ltnS leqn0 => /eqP ->; rewrite big_ord1.
exists x2; split.
- exact: dz.
- by rewrite /x_n S2 -[t_n _]/(x_n x1) S1.
- by rewrite C2 Cx.
- by rewrite Ee.
Qed.
