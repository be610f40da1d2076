(** SystemCase4.v -- the single capacitor, and the system of the two circuits. *)
From Coq Require Import Reals ZArith String Lra Lia.
From Verif.Model Require Import Base Units Settings Elements Edge LCWB Rounding Accuracy HamConst Trunc PartialConst.
From mathcomp Require Import all_ssreflect all_algebra.
From mathcomp Require Import complex.
From mathcomp Require Import ring.
From Verif.Numerics Require Import RStruct Bridge.
From Verif.Model Require Import FluxDist Transform Op Ham Diag CircuitSM Partial System.
From Verif.Spec Require Import OpSpec EigSpec PerturbSpec TransSpec SessionSpec SystemSpec.
From Verif.Proofs Require Import OpProofs HamProofs HamProofs2 HamProofs3 HamProofs4 HamProofs6 SMProofs SMProofs3 SystemProofs SystemProofs2.
From Verif.Proofs Require Import SessionCase CapCase SystemCase SystemProofs3 SystemCase2 SystemCase3.
From Verif.Proofs Require Import AccProofs TransProofs.
From Verif.Properties Require Import P_Diag.

Set Implicit Arguments.
Unset Strict Implicit.
Unset Printing Implicit Defensive.
Import GRing.Theory.
Local Open Scope ring_scope.
Local Open Scope complex_scope.


Definition one_v (i : nat) : R_ringType := if i == 1%N then 1 else 0.
Definition one_eigs : eigs_fun := fun _ _ _ => EigsOk [:: 0] (fun i _ => (one_v i)%:C).

Lemma lt01 : Rlt 0 (1 : R). Proof. exact: Rlt_0_1. Qed.

Lemma one_diag disp optim (lobj : nat -> lrec) : exists x,
  [/\ diagonalised disp optim x, x_n x = 1%N /\ t_n0 (x_st x) = 1%N,
      x_C x 0%N 0%N = 1 /\ t_R (x_st x) 0%N 0%N = 1 & size (e_freqs (x_eig x)) = 1%N].
Proof.
have [x0 [E0 [n0 nn0] ch [HR [HC _]] [_ [Ki Kj]]]] := cap_construct lt01 optim lobj.
have [x1 [E1 G1 [S1 c1] [C1 _] [n1 m1 g1]]] := cap_set disp E0 n0 ch.
set s := cap_store 1 in E0.
have m0 : x_m x1 <> [::] by rewrite m1.
have np : (0 < x_n x1)%N by rewrite n1.
have ki1 : c_keys_ind (x_c x1) = [::] by rewrite c1.
have kj1 : c_keys_jj (x_c x1) = [::] by rewrite c1.
have [A EL EH] := cap_ham s G1 m0 np ki1 kj1.
have c0 : hcharge (hof x1) 0 by rewrite /hcharge -[h_st _]/(x_st x1) S1.
have tot : total (hof x1) = 3%N by rewrite /total -[hn _]/(x_n x1) n1 big_ord1 /hm -[h_m _]/(x_m x1) m1.
have DQ : is_diag 3 (opQ (hof x1) 0) (fun k => charge_unit * charge_at 3 k).
  rewrite opQE -[hn _]/(x_n x1) n1 T1 /one_fam eqxx; apply: iso_diag => //.
  by rewrite /hm -[h_m _]/(x_m x1) m1.
have DA : is_diag 3 A (fun a => halfR (t_cI (x_st x1) 0%N 0%N) * ((charge_unit * charge_at 3 a) * (charge_unit * charge_at 3 a))).
  split; first by have := LC_ok (hof x1); rewrite EL tot => -[].
  move=> a b ha hb; have EE := LC_entry (h := hof x1) (a := a) (b := b); rewrite tot EL /= in EE.
  have [_ HQ] := diag_mul DQ DQ.
  rewrite EE // /half_sum -[hn _]/(x_n x1) n1 !big_ord1 big_mkcond !big_ord1 /= /prodQ HQ //.
  rewrite c0 /= addr0.
  by case: eqP => _; rewrite ?mulr0 // [in RHS]cRM.
pose u0 := ustate_init.
have [x2 [r [Ed Ee S2 C2 [h2 m2]]]] := diag_ok u0 (eigs := one_eigs) (k := Zpos xH) G1 m0 EH erefl.
have [d3 _] := DA.
have dz : diagonalised disp optim x2.
  exists (cap_or 1), s, lobj, "junctions"%string, cap_dict, x0, u0, [:: SetTrunc (Some [:: 2]%N)], [:: (mkW s u0 x1, Ok tt)].
  exists (mkW s u0 x1), one_eigs, argsort0, (Zpos xH), r; split; [exact: E0| |by split| |exact: Ed].
  - by cbn [run step w_x w_s w_u]; rewrite E1.
  - split; first exact: argsort0_sorts.
    move=> H; cbn [w_s w_x]; rewrite EH => -[<-] ncv lam V [<- <-]; split; last first.
      move=> [|//] [|//] _ _; rewrite d3 eqxx -[nth _ _ 0]/(fun x : nat => (one_v x)%:C) /dot.
      under eq_bigr do rewrite cjR -cRM; rewrite -rmorph_sum.
      have -> : \sum_(i < 3) one_v i * one_v i = 1.
        by rewrite !big_ord_recr big_ord0 /one_v /= !mulr0 mulr1 !add0r addr0.
      by [].
    move=> [|//] _; split; last by exists 1%N; rewrite ?d3 // /one_v /= cR1; apply/eqP/oner_neq0.
    move=> i; rewrite d3 => hi; have := diag_eigen (v := one_v) (z := 0) DA hi; rewrite d3 cR0; apply.
    rewrite mul0r /one_v; case: eqP => [->|_]; last by rewrite mulr0.
    by have [_ [-> _]] := charge3; rewrite [charge_unit * _]mulr0 !mulr0 ?mul0r.
exists x2; split.
- exact: dz.
- by rewrite /x_n S2 -[t_n _]/(x_n x1) S1.
- by rewrite C2 C1 S2 S1 HC mulr1.
- by rewrite Ee.
Qed.

(** ** The system: node 1 of the first circuit and node 2 of it are coupled to
    the node of the second by unit capacitors. *)
Definition two_cps : seq couple :=
  [:: mkCp 0 (ANode (Zpos xH)) 1 (ANode (Zpos xH)) 0; mkCp 0 (ANode (Zpos (xO xH))) 1 (ANode (Zpos xH)) 0].
Definition two_circs (x y : circ) (c : nat) : circ := if c == 0%N then x else y.

Section Two.
Variables (x y : circ) (u : ustate).
Hypotheses (nx : x_n x = 2%N) (n0x : t_n0 (x_st x) = 2%N) (Cx : toM 2 2 (x_C x) = 1%:M).
Hypotheses (Rx : toM 2 2 (t_R (x_st x)) = 1%:M) (fx : size (e_freqs (x_eig x)) = 3%N).
Hypotheses (ny : x_n y = 1%N) (n0y : t_n0 (x_st y) = 1%N) (Cy : x_C y 0%N 0%N = 1).
Hypotheses (Ry : t_R (x_st y) 0%N 0%N = 1) (fy : size (e_freqs (x_eig y)) = 1%N).
Let circs := two_circs x y.
Let S := mkSys two_cps [:: 0; 1]%N 3 [:: 3; 1]%N.
Let s := cap_store 1.

Lemma two_made : system circs u two_cps = Ok S.
Proof. by rewrite /system /= /efreqs /= fx fy /= !size_map fx fy nx ny. Qed.

Lemma two_aligned : aligned circs (s_ids S).
Proof. by move=> c; rewrite !inE => /orP [] /eqP ->; rewrite /circs /two_circs /= ?nx ?ny. Qed.

Lemma two_links : links_ok s (fun c => x_n (circs c)) (s_ids S) two_cps.
Proof.
move=> cp [<-|[<-|//]] _ /=; [exists (0, 1)%N|exists (0, 2)%N]; exists (1, 1)%N; split=> //;
by rewrite /is_node /= ?nx ?ny.
Qed.

Definition two_C (p q : nat) : R_ringType :=
  nth 0 (nth [::] [:: [:: 2%:R; 0; -1]; [:: 0; 2%:R; -1]; [:: -1; -1; 3%:R]] p) q.
Definition two_I (p q : nat) : R_ringType :=
  8%:R^-1 * nth 0 (nth [::] [:: [:: 5%:R; 1; 2%:R]; [:: 1; 5%:R; 2%:R]; [:: 2%:R; 2%:R; 4%:R]] p) q.

Lemma two_block (X : circ -> arr) : toM 2 2 (X x) = 1%:M -> X y 0%N 0%N = 1 ->
  toM 3 3 (block_diag [seq (t_n0 (x_st (circs c)), X (circs c)) | c <- s_ids S]) = 1%:M.
Proof.
move=> Hx Hy; apply/matrixP => i j; rewrite !mxE -(inj_eq val_inj) /= n0x n0y.
case: i => i hi; case: j => j hj /=.
case: (ltnP i 2) => h1; case: (ltnP j 2) => h2 /=.
- have /matrixP /(_ (Ordinal h1) (Ordinal h2)) := Hx; rewrite !mxE -(inj_eq val_inj) /= => ->; by case: eqP.
- by rewrite (ltn_eqF (leq_trans h1 h2)).
- by rewrite (gtn_eqF (leq_trans h2 h1)).
- have -> : i = 2%N by apply/eqP; rewrite eqn_leq h1 -ltnS hi.
  have -> : j = 2%N by apply/eqP; rewrite eqn_leq h2 -ltnS hj.
  by rewrite /= Hy.
Qed.

Lemma two_matrix : exists2 M, cap_matrix circs s S = Ok M & toM 3 3 M = toM 3 3 two_C.
Proof.
have U : uniq (s_ids S) by [].
have [M EM HM] := cap_matrixE (s := s) U two_aligned two_links; exists M => //.
apply/matrixP => -[i hi] [j hj]; rewrite !mxE /=.
have EN : node_list (fun c => x_n (circs c)) (s_ids S) = [:: (0, 1); (0, 2); (1, 1)]%N.
  by rewrite /node_list /= nx ny.
rewrite HM ?EN // big_cons big_cons big_nil /link_entry /own_entry /ind /=.
have cE a b : (a < 2)%N -> (b < 2)%N -> x_C x a b = if a == b then 1 else 0.
  move=> ha hb; have /matrixP /(_ (Ordinal ha) (Ordinal hb)) := Cx; rewrite !mxE -(inj_eq val_inj) /= => ->.
  by case: eqP.
case: i hi => [|[|[|//]]] _; case: j hj => [|[|[|//]]] _; rewrite /= /circs /two_circs /= ?cE ?Cy //= /two_C /= -?[IZR 1]/(GRing.one R_ringType); ring.
Qed.

Lemma two_inverse : toM 3 3 two_C \in unitmx /\ invmx (toM 3 3 two_C) = toM 3 3 two_I.
Proof.
have E : toM 3 3 two_C *m toM 3 3 two_I = 1%:M.
  apply/matrixP => i j; rewrite !mxE -(inj_eq val_inj) /=.
  have e8 : 8%:R^-1 * 8%:R = 1 :> R_fieldType by rewrite mulVf // Num.Theory.pnatr_eq0.
  move: e8; rewrite !big_ord_recr big_ord0 !mxE /two_C /two_I; set t := _^-1 => e8.
  case: i => [[|[|[|//]]] hi]; case: j => [[|[|[|//]]] hj] /=; try ring.
  - by transitivity (t * 8%:R); [ring|].
  - by transitivity (t * 8%:R); [ring|].
  - by transitivity (t * 8%:R); [ring|].
have [uM _] := mulmx1_unit E; split=> //.
by rewrite -[LHS]mulmx1 -E mulmxA mulVmx // mul1mx.
Qed.

(** The coefficient between the two nodes of the first circuit is 1/8. *)
Lemma two_coef : exists2 A, int_coef circs s S = Ok A & A 0%N 1%N = 8%:R^-1.
Proof.
have [M EM HM] := two_matrix; have [uM EI] := two_inverse.
have d3 : s_dim circs S = 3%N by rewrite /s_dim /= n0x n0y.
have B1 : toM 3 3 (bare_cap circs S) = 1%:M := two_block (X := x_C) Cx Cy.
have R1 : toM 3 3 (block_diag (R_blocks circs S)) = 1%:M := two_block (X := fun c => t_R (x_st c)) Rx Ry.
rewrite /int_coef EM d3 /inv HM uM B1 unitmx1; eexists; first by reflexivity.
move: R1; set Rb := block_diag _ => R1; set a := ofM _; set b := ofM _.
have E : toM 3 3 (mmul 3 (mmul 3 (tr Rb) (fun i j => a i j - b i j)) Rb) = toM 3 3 two_I - 1%:M.
  rewrite !toM_mmul toM_tr R1 trmx1 mul1mx mulmx1.
  have -> : toM 3 3 (fun i j => a i j - b i j) = toM 3 3 a - toM 3 3 b by apply/matrixP => i j; rewrite !mxE.
  by rewrite !toM_ofM EI invmx1.
have /matrixP /(_ (Ordinal (isT : 0 < 3)%N) (Ordinal (isT : 1 < 3)%N)) := E.
by rewrite !mxE -(inj_eq val_inj) /= => ->; rewrite /two_I /= mulr1 subr0.
Qed.
End Two.
