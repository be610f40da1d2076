(** SystemCase3.v -- the system of SystemCase2. *)
From Coq Require Import Reals ZArith String Lra Lia.
From Verif.Model Require Import Base Units Settings Elements Edge LCWB Rounding Accuracy HamConst Trunc PartialConst.
From mathcomp Require Import all_ssreflect all_algebra.
From mathcomp Require Import complex.
From mathcomp Require Import ring.
From Verif.Numerics Require Import RStruct Bridge.
From Verif.Model Require Import FluxDist Transform Op Ham Diag CircuitSM Partial System.
From Verif.Spec Require Import OpSpec EigSpec PerturbSpec TransSpec SessionSpec SystemSpec.
From Verif.Proofs Require Import OpProofs HamProofs HamProofs2 HamProofs3 HamProofs4 HamProofs6 SMProofs SMProofs3 SystemProofs SystemProofs2.
From Verif.Proofs Require Import SessionCase CapCase SystemCase SystemProofs3 SystemCase2.
From Verif.Properties Require Import P_Diag.

Set Implicit Arguments.
Unset Strict Implicit.
Unset Printing Implicit Defensive.
Import GRing.Theory.
Local Open Scope ring_scope.
Local Open Scope complex_scope.

Lemma tw_diag disp optim (lobj : nat -> lrec) : exists x,
  [/\ diagonalised disp optim x, x_n x = 2%N /\ t_n0 (x_st x) = 2%N,
      toM 2 2 (x_C x) = 1%:M /\ toM 2 2 (t_R (x_st x)) = 1%:M, size (e_freqs (x_eig x)) = 3%N &
      forall i, (i < 2)%N -> exists2 A, charge_op_eig x (Z.of_nat i.+1) = Ok A &
        dim A = 3%N /\ forall k l, (k < 3)%N -> (l < 3)%N -> ent A k l = (tw_Q i k l)%:C].
Proof.
have [x0 [E0 [n0 nn0] ch [HR HC HI] [_ [Ki Kj]]]] := tw_construct optim lobj.
have [x1 [E1 G1 [S1 c1] [C1 _] [n1 m1 g1]]] := tw_set disp E0 n0 ch.
set s := cap_store 1 in E0.
have m0 : x_m x1 <> [::] by rewrite m1.
have np : (0 < x_n x1)%N by rewrite n1.
have ki1 : c_keys_ind (x_c x1) = [::] by rewrite c1.
have kj1 : c_keys_jj (x_c x1) = [::] by rewrite c1.
have [A EL EH] := cap_ham s G1 m0 np ki1 kj1.
have cI : toM 2 2 (t_cI (h_st (hof x1))) = 1%:M by rewrite -[h_st _]/(x_st x1) S1.
have c0 i : (i < 2)%N -> hcharge (hof x1) i by move=> hi; rewrite /hcharge -[h_st _]/(x_st x1) S1; apply: ch.
have [d9 HA] := two_ham (n1 : hn (hof x1) = 2%N) (congr1 (fun l => nth 0%N l 0) m1) (congr1 (fun l => nth 0%N l 1) m1)
  (c0 0%N isT) (c0 1%N isT) (g1 0%N) (g1 1%N) cI EL.
have DA : is_diag 9 A _ := conj d9 HA.
have fE a : (a < 9)%N -> (q_of 0 a * q_of 0 a + q_of 1 a * q_of 1 a) * halfR 1 =
    tw_E * nth 0 [:: 2%:R; 1; 2%:R; 1; 0; 1; 2%:R; 1; 2%:R] a.
  move=> ha; rewrite /tw_E !q_at //; case: a ha => [|[|[|[|[|[|[|[|[|//]]]]]]]]] _ /=;
  move: charge_unit (halfR 1) => c h; ring.
pose u0 := ustate_init.
have [x2 [r [Ed Ee S2 C2 [h2 m2]]]] := diag_ok u0 (eigs := tw_eigs) (k := Zpos (xI xH)) G1 m0 EH erefl.

have dz : diagonalised disp optim x2.
  exists tw_or, s, lobj, "junctions"%string, tw_dict, x0, u0, [:: SetTrunc (Some [:: 2; 2]%N)], [:: (mkW s u0 x1, Ok tt)].
  exists (mkW s u0 x1), tw_eigs, argsort0, (Zpos (xI xH)), r; split; [exact: E0| |by split| |exact: Ed].
  - by cbn [run step w_x w_s w_u]; rewrite E1.
  - split; first exact: argsort0_sorts.
    move=> H; cbn [w_s w_x]; rewrite EH => -[<-] ncv lam V [<- <-]; split; last first.
      move=> k l; rewrite size_map size_iota => hk hl.
      rewrite !(nth_map 0%N) ?size_iota // !nth_iota // !add0n d9 /dot.
      under eq_bigr do rewrite cjR -cRM; rewrite -rmorph_sum tw_ortho //.
      by case: eqP.
    move=> k hk; split.
      move=> i; rewrite d9 => hi.
      have -> : nth 0 [:: 0; tw_E%:C; tw_E%:C] k = (tw_E * nth 0 [:: 0; 1; 1] k)%:C.
        by case: k hk => [|[|[|//]]] _ /=; rewrite ?mulr0 ?mulr1 ?cR0.
      have := diag_eigen (v := tw_v k) (z := tw_E * nth 0 [:: 0; 1; 1] k) DA hi; rewrite d9; apply; rewrite fE //; clear -hk hi.
      rewrite -!mulrA; congr (_ * _).
      by case: k hk => [|[|[|//]]] _; case: i hi => [|[|[|[|[|[|[|[|[|//]]]]]]]]] _;
        rewrite /tw_v /= ?mulr0 ?mul0r ?mul1r.
    have t0 : tw_t <> 0 by move=> E; have := tw_tE; rewrite E mulr0 => /eqP; rewrite eq_sym oner_eq0.
    have nz (m : nat) : (0 < m)%N -> (m%:R * tw_t)%:C <> 0.
      move=> m0' /(congr1 (@complex.Re R)) /= /eqP; rewrite mulf_eq0 Num.Theory.pnatr_eq0 => /orP [/eqP E|/eqP //].
      by rewrite E in m0'.
    rewrite d9; case: k hk => [|[|[|//]]] _; [exists 4%N|exists 5%N|exists 7%N] => //; rewrite /tw_v /=; try exact: nz.
    by rewrite cR1; apply/eqP/oner_neq0.
have rd := diagonalised_ready dz.
have sz : size (e_freqs (x_eig x2)) = 3%N by rewrite Ee /= size_sort.
have n2 : x_n x2 = 2%N by rewrite /x_n S2 -n1.
exists x2; split=> //; first by rewrite S2 S1.
- by rewrite C2 C1 S2 S1.
- move=> i hi; exists (eigQ x2 i); first by apply: charge_eig rd _ _; rewrite ?sz ?n2.
  split; first by rewrite /= (rd_size rd) sz.
  move=> k l hk hl; rewrite /eigQ; cbn [ent]; rewrite h2 Ee /= tw_argsort.
  have Dq := two_charges (n1 : hn (hof x1) = 2%N) (congr1 (fun l => nth 0%N l 0) m1) (congr1 (fun l => nth 0%N l 1) m1)
    (c0 0%N isT) (c0 1%N isT) (g1 0%N) (g1 1%N) hi.
  rewrite /tw_Q -(diag_inner _ _ Dq); congr (inner _ _ _).
    by case: k hk => [|[|[|]]].
  by case: l hl => [|[|[|]]].
Qed.
