(** P_Simple.v -- C100: the energies and the ground state of an island with junctions. *)
From Coq Require Import Reals ZArith Lia Lra String List.
From Verif.Model Require Import Base Units Settings Edge Elements LCWB Rounding Accuracy HamConst.
From Verif.Spec Require Import GraphSpec CircuitSpec ThermalSpec.
From Verif.Proofs Require Import ElementsProofs AccProofs LCWBProofs OneNode.
Lemma charge_values q : (0 < hbar -> 0 < q ->
  q / (2 * 4) * ((0 - (1 + 1 + 1 - 1) / 2 - 0) * (0 - (1 + 1 + 1 - 1) / 2 - 0)) / hbar = q / 8 / hbar /\
  q / (2 * 4) * ((1 - (1 + 1 + 1 - 1) / 2 - 0) * (1 - (1 + 1 + 1 - 1) / 2 - 0)) / hbar = 0 /\
  q / (2 * 4) * ((1 + 1 - (1 + 1 + 1 - 1) / 2 - 0) * (1 + 1 - (1 + 1 + 1 - 1) / 2 - 0)) / hbar = q / 8 / hbar /\
  0 < q / 8 / hbar)%R.
Proof.
intros h p. repeat split; try (field; lra).
apply Rdiv_lt_0_compat; trivial. apply Rdiv_lt_0_compat; lra.
Qed.
From mathcomp Require Import all_ssreflect all_algebra.
From mathcomp Require Import complex ring zify.
From mathcomp Require Import ssrZ.
From Verif.Numerics Require Import RStruct Bridge.
From Verif.Model Require Import FluxDist Op Transform Ham Diag CircuitSM.
From Verif.Spec Require Import OpSpec TransSpec SymmetrySpec OneNodeSpec PerturbSpec LevelsSpec LowestSpec LinearSpec ParallelSpec.
From Verif.Proofs Require Import OpProofs HamProofs HamProofs2 HamProofs5 HamProofs6 MinMaxProofs ExpProofs2 TransProofs LinearLevels.
From Verif.Proofs Require Import SimpleProofs GroundProofs.
From Verif.Properties Require Import P_Lowest P_OneNode P_Order P_Parallel.

Set Implicit Arguments.
Unset Strict Implicit.
Unset Printing Implicit Defensive.
Import GRing.Theory.
Local Open Scope ring_scope.
Local Open Scope complex_scope.

Section OneNode.
Variables (optim : bool) (s : store) (fd : string) (lobj : nat -> lrec) (els : seq nat) (c : cst) (st0 st : tst).
Variables (croot lroot X U : arr) (D0 eigL : vec) (tries fuel : nat) (sv : svd_fun) (order : seq R -> seq nat) (draw : nat -> nat -> seq vec).
Variables (disp : nat -> C -> op) (m : nat) (ng : nat -> R) (loops : seq R) (B : arr) (A : op).
Hypothesis ex : exponential disp.
Hypothesis K : constructed optim s fd lobj els c st0 st croot lroot X U D0 eigL tries fuel sv order draw.
Hypothesis jj : existsb (is_jj s) els.
Hypothesis ni : existsb (is_ind s) els = false.
Hypothesis EA : one_ham optim s c st disp m ng loops B = Ok A.
(** The sum of E_J e^(i phase) over the junctions. *)
Let amp := total_amplitude (part_list (is_jj s) s els (ext_flux loops B)).
Let q a := charging (edge_cap s els) (ng 0%N) (Rminus (INR a) (centre m)).

Lemma s_ent : dim A = m /\ forall a b, (a < m)%N -> (b < m)%N -> ent A a b =
  (if a == b then (q a)%:C else 0) - 2%:R^-1 * (if a == b.+1 then amp else if b == a.+1 then amp^* else 0).
Proof.
have [_ [A1 E1 [dA eA]]] := C90_island m ng loops B ex K jj ni; move: E1; rewrite EA => -[e1]; subst A1.
by split=> // a b ha hb; rewrite eA // island_amplitude.
Qed.

Section Coupled.
Hypothesis coupled : amp <> 0.
Lemma s_band a b : (a < dim A)%N -> (b < dim A)%N -> (a.+1 < b)%N || (b.+1 < a)%N -> ent A a b = 0.
Proof.
have [-> eA] := s_ent => ha hb far; rewrite eA //.
have -> : (a == b) = false by lia.
have -> : (a == b.+1) = false by lia.
have -> : (b == a.+1) = false by lia.
by rewrite mulr0 subr0.
Qed.
Lemma half_nz (z : C) : z <> 0 -> - (2%:R^-1 * z) != 0.
Proof. by move=> /eqP z0; rewrite oppr_eq0 mulf_eq0 negb_or z0 andbT invr_eq0 Num.Theory.pnatr_eq0. Qed.
Lemma s_up a : (a.+1 < dim A)%N -> ent A a a.+1 != 0.
Proof.
have [-> eA] := s_ent => ha; rewrite eA // ?(ltnW ha) //.
have -> : (a == a.+1) = false by lia.
have -> : (a == a.+2) = false by lia.
rewrite eqxx sub0r; apply: half_nz.
by move=> /eqP; rewrite conjc_eq0 => /eqP.
Qed.
Lemma s_down a : (a.+1 < dim A)%N -> ent A a.+1 a != 0.
Proof. by have [-> eA] := s_ent => ha; rewrite eA // ?(ltnW ha) // gtn_eqF // eqxx sub0r; exact: half_nz. Qed.

(** The energies are distinct. *)
Theorem C100_simple E i j : energies A E -> (i < j < m)%N -> Rlt (E i) (E j).
Proof.
move=> [v L] /andP [ij hj]; have [dA _] := s_ent.
by apply: (energies_differ s_band s_up L ij); rewrite dA.
Qed.

(** The frequencies diag() returns are distinct, and in ascending order. *)
Theorem C100_returned eigs argsort u k old r fr ve i j : smallest eigs A k -> Rlt 0 (unit_rad u) ->
  diag eigs argsort u true (Ok A) (Some (Z.of_nat k)) old = (r, Ok (fr, ve)) ->
  (i < j < k)%N -> Rlt (nth 0 fr i) (nth 0 fr j).
Proof.
move=> sm up dg /andP [ij hj]; have [_ hA] := hamiltonian_ok (exp_disp_dims ex) EA.
have [E HE] := energies_exist hA; have [kd ->] := C84_returned sm HE dg; have [dA _] := s_ent; rewrite dA in kd.
rewrite !(nth_map 0%N) ?size_iota ?(ltn_trans ij hj) // !nth_iota ?(ltn_trans ij hj) // !add0n.
apply: Rmult_lt_compat_r; first exact: Rinv_0_lt_compat.
by apply: (C100_simple HE); rewrite ij (leq_trans hj kd).
Qed.

(** Every energy level holds the lowest and the highest charge. *)
Theorem C100_edges E v i : levels_of A E v -> (i < m)%N -> v i 0%N <> 0 /\ v i m.-1 <> 0.
Proof.
move=> L hi; have [dA _] := s_ent; rewrite -dA; rewrite -dA in hi.
by split; [exact: (first_occupied s_band s_up L hi)|exact: (last_occupied s_band s_down L hi)].
Qed.

(** The ground state holds every charge, and neighbouring charges have the phase of the
    junctions: each gains the full energy. *)
Theorem C100_ground E v : levels_of A E v ->
  (forall a, (a < m)%N -> v 0%N a <> 0) /\
  forall a, (a.+1 < m)%N -> exists2 r : R, Rlt 0 r & (v 0%N a.+1)^* * (amp * v 0%N a) = r%:C.
Proof.
move=> L; have [dA eA] := s_ent; case: (posnP m) => [->//|m0].
have an : nrm amp <> 0 by move=> /nrm_eq0.
pose rho := mag amp; have r0 : rho <> 0 by move=> /mag0.
have rp : Rlt 0 rho by case: (Rle_lt_or_eq_dec _ _ (mag_ge0 amp)) => // e; case: r0.
pose z : C := amp * (rho^-1)%:C.
have rC : rho%:C * (rho^-1)%:C = 1 :> C by rewrite -cRM mulfV ?cR1 //; apply/eqP.
have z1 : z^* * z = 1.
  rewrite /z cjM cjR mulrACA nrmE -mag2 -/rho cRM.
  by rewrite mulrACA rC mulr1.
have az : amp = rho%:C * z by rewrite /z mulrCA rC mulr1.
pose t a := z ^+ a; pose sf a b : R := if (a == b.+1) || (b == a.+1) then Rdiv rho 2 else 0.
have un a : (a < dim A)%N -> (t a)^* * t a = 1.
  by move=> _; rewrite /t -[(z ^+ a)^*]/(conjc (z ^+ a)) rmorphX -exprMn z1 expr1n.
have sp a b : Rle 0 (sf a b) by rewrite /sf; case: ifP => _; [lra|exact: Rle_refl].
have hz : 2%:R^-1 * rho%:C = (Rdiv rho 2)%:C :> C by rewrite half_C.
have off a b : (a < dim A)%N -> (b < dim A)%N -> a != b -> ent A a b = - ((sf a b)%:C * (t a * (t b)^*)).
  rewrite dA => ha hb ne; rewrite eA // (negbTE ne) sub0r; congr (- _); rewrite /sf.
  case: (eqVneq a b.+1) => [->|_] /=.
    have := un b; rewrite dA => /(_ hb) ub; rewrite az /t exprS -mulrA [z ^+ b * _]mulrC ub mulr1 mulrA hz //.
  case: (eqVneq b a.+1) => [->|_] /=; last by rewrite cR0 mulr0 mul0r.
  have := un a; rewrite dA => /(_ ha) ua; rewrite az cjM cjR /t exprS cjM [z ^+ a * _]mulrCA [z ^+ a * _]mulrC ua mulr1 mulrA hz //.
have sim j : (0 < j < dim A)%N -> Rlt (E 0%N) (E j) by move=> hj; apply: C100_simple; [exists v|rewrite -dA].
have d0 : (0 < dim A)%N by rewrite dA.
have near a : sf a.+1 a = Rdiv rho 2 by rewrite /sf eqxx.
have occ := occupied L sim un sp off d0.
have {}occ : forall a, (a < m)%N -> v 0%N a <> 0.
  rewrite -dA; apply: occ; last exact: (first_occupied s_band s_up L d0).
  by move=> a _; rewrite near => e; have {}e : Rdiv rho 2 = R0 := e; lra.
split=> // a ha; have ne : a.+1 != a by rewrite gtn_eqF.
have ha1 : (a.+1 < dim A)%N by rewrite dA.
have al := aligned L sim un sp off d0 ha1 (ltnW ha1) ne.
have mp b : (b < m)%N -> Rlt 0 (mag (v 0%N b)).
  by move=> hb; case: (Rle_lt_or_eq_dec _ _ (mag_ge0 (v 0%N b))) => // e; case: (occ b hb); apply: mag0.
exists (Rmult rho (Rmult (mag (v 0%N a.+1)) (mag (v 0%N a)))).
  by apply: Rmult_lt_0_compat => //; apply: Rmult_lt_0_compat; apply: mp => //; exact: ltnW.
move: al; rewrite eA ?(ltnW ha) // (negbTE ne) eqxx sub0r near => al.
have al2 : 2%:R^-1 * ((v 0%N a.+1)^* * (amp * v 0%N a)) = (Rdiv rho 2 * (mag (v 0%N a.+1) * mag (v 0%N a)))%:C.
  apply: oppr_inj; rewrite -[RHS]rmorphN /= -al.
  by move: ((v 0%N a.+1)^*) (v 0%N a) amp => ? ? ?; ring.
have two : 2%:R^-1 != 0 :> C by rewrite invr_eq0 Num.Theory.pnatr_eq0.
apply: (mulfI two); rewrite al2 -half_C; congr (_%:C).
by rewrite -!RmultE; lra.
Qed.
End Coupled.

(** Junctions that cancel: the charging energies in ascending order. *)
Theorem C100_cancelled : amp = 0 ->
  energies A (fun i => q (nth 0%N (sort (fun a b => Num.Def.ler (q a) (q b)) (iota 0 m)) i)).
Proof.
move=> z; have [dA eA] := s_ent.
have D a b : (a < dim A)%N -> (b < dim A)%N -> ent A a b = if a == b then (q a)%:C else 0.
  by rewrite dA => ha hb; rewrite eA // z cj0 !if_same mulr0 subr0.
by have := diagonal_energies D; rewrite dA.
Qed.
End OneNode.
Print Assumptions C100_simple.
Print Assumptions C100_returned.
Print Assumptions C100_edges.
Print Assumptions C100_ground.
Print Assumptions C100_cancelled.

(** ** Case: two equal junctions and half a flux quantum between them *)
Definition half_B : arr := fun i _ => if i == 0%N then 0 else 1.
Lemma half_amp : total_amplitude (part_list (is_jj pair_s) pair_s [:: 0; 0]%N (ext_flux [:: PI] half_B)) = 0.
Proof.
have f0 : ext_flux [:: PI] half_B 0 = R0 by rewrite /ext_flux big_ord_recr big_ord0 /half_B /= mulr0 addr0.
have f1 : ext_flux [:: PI] half_B 1 = PI by rewrite /ext_flux big_ord_recr big_ord0 /half_B /= mulr1 add0r.
rewrite /total_amplitude /part_list /= big_cons big_seq1 /= f0 f1.
have -> : expi R0 = 1 by rewrite /expi cos_0 sin_0.
have -> : expi PI = -1 by rewrite /expi cos_PI sin_PI; apply/eqP; rewrite eq_complex /= oppr0 !eqxx.
by rewrite mulr1 mulrN1 subrr.
Qed.

(** The energies of a SQUID at half a flux quantum need not be distinct. *)
Theorem C100_refuted disp draw : exponential disp -> exists c st0 st A,
  [/\ constructed false pair_s "junctions" (fun=> mkL nil nil) [:: 0; 0]%N c st0 st two2 zero2 eye eye (fun=> 0) (fun=> 0) 1 2 sv1 in_order draw,
      one_ham false pair_s c st disp 3 (fun=> R0) [:: PI] half_B = Ok A &
      forall E, energies A E -> E 1%N = E 2%N].
Proof.
move=> ex; have [c Ec] := pair_run [:: 0; 0]%N.
have cap : edge_cap pair_s [:: 0; 0]%N = IZR 4 by rewrite /edge_cap /= /cap_of /=; lra.
have [st0 [st K]] := built4 draw Ec cap isT erefl.
have [_ [A EA [dA _]]] := C90_island 3 (fun=> R0) [:: PI] half_B ex K isT erefl.
exists c, st0, st, A; split=> // E HE.
have HC := C100_cancelled ex K isT erefl EA half_amp; rewrite cap in HC.
pose Q (a : nat) : R := charging (IZR 4) R0 (Rminus (INR a) (centre 3)); rewrite -/(Q) in HC.
have e2 : Rlt 0 (Rmult (Rmult 2 e_charge) (Rmult 2 e_charge)) by rewrite /e_charge; lra.
have [Q0 [Q1 [Q2 xp]]] := charge_values _ hbar_pos e2.
have {}Q0 : Q 0%N = _ := Q0; have {}Q1 : Q 1%N = R0 := Q1; have {}Q2 : Q 2%N = _ := Q2; move: Q0 Q2 xp; set x := Rdiv _ hbar => Q0 Q2 xp.
pose so := sort (fun a b => Num.Def.ler (Q a) (Q b)) (iota 0 3).
have HC' : energies A (fun i => Q (nth 0%N so i)) := HC.
have EE k : (k < 3)%N -> E k = Q (nth 0%N so k) by rewrite -dA => hk; exact: (one_energies HE HC' hk).
have ps : perm_eq so [:: 0; 1; 2]%N by rewrite /so perm_sort.
have [v [asc _ _]] := HE; have a01 := asc 0%N 1%N; have a02 := asc 0%N 2%N; rewrite dA in a01 a02.
move: (a01 isT) (a02 isT) => {asc}{}a01 {}a02.
have un : uniq so by rewrite (perm_uniq ps).
have me y : y \in so -> (y < 3)%N by rewrite (perm_mem ps) !inE => /orP [/eqP ->|/orP [/eqP ->|/eqP ->]].
have sz : size so = 3%N by rewrite (perm_size ps).
rewrite !EE // in a01 a02 *; move: un me sz a01 a02; case: so {ps HC HC' EE} => [|a [|b [|d [|? ?]]]] //= un me _.
have ha : (a < 3)%N by apply: me; rewrite !inE eqxx.
have hb : (b < 3)%N by apply: me; rewrite !inE eqxx orbT.
have hd : (d < 3)%N by apply: me; rewrite !inE eqxx !orbT.
case: a ha {me} un => [|[|[|//]]] _; case: b hb => [|[|[|//]]] _; case: d hd => [|[|[|//]]] _ //= _; rewrite ?Q0 ?Q1 ?Q2 //; lra.
Qed.
Print Assumptions C100_refuted.

(** With a single junction they are. *)
Example C100_case disp draw ng B : exponential disp -> exists c st0 st A,
  [/\ constructed false pair_s "junctions" (fun=> mkL nil nil) [:: 1]%N c st0 st two2 zero2 eye eye (fun=> 0) (fun=> 0) 1 2 sv1 in_order draw,
      one_ham false pair_s c st disp 3 ng [::] B = Ok A &
      forall E, energies A E -> Rlt (E 0%N) (E 1%N) /\ Rlt (E 1%N) (E 2%N)].
Proof.
move=> ex; have [c Ec] := pair_run [:: 1]%N.
have cap : edge_cap pair_s [:: 1]%N = IZR 4 by rewrite /edge_cap /= /cap_of /=; lra.
have [st0 [st K]] := built4 draw Ec cap isT erefl.
have [_ [A EA [dA _]]] := C90_island 3 ng [::] B ex K isT erefl.
exists c, st0, st, A; split=> // E HE.
have amp : total_amplitude (part_list (is_jj pair_s) pair_s [:: 1]%N (ext_flux [::] B)) <> 0.
  rewrite /total_amplitude /part_list /= big_seq1 /= (_ : ext_flux _ _ _ = 0); last by rewrite /ext_flux big_ord0.
  by rewrite /expi cos_0 sin_0 mulr1 => -[] e; have {}e : IZR 6 = R0 := e; lra.
by split; apply: (C100_simple ex K isT erefl EA amp HE).
Qed.
