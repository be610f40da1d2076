(** P_SystemHam.v -- C55: when the Hamiltonian of a system is Hermitian. *)
From Coq Require Import Reals ZArith String Lia.
From Verif.Model Require Import Base Units Elements Edge LCWB HamConst.
From mathcomp Require Import all_ssreflect all_algebra.
From mathcomp Require Import complex.
From mathcomp Require Import ring.
From Verif.Numerics Require Import RStruct Bridge.
From Verif.Model Require Import Transform Op Ham Diag CircuitSM Partial System.
From Verif.Spec Require Import OpSpec EigSpec PerturbSpec SessionSpec SystemSpec.
From Verif.Proofs Require Import OpProofs HamProofs HamProofs2 HamProofs4 SMProofs SMProofs3 SystemProofs SystemProofs2 SystemProofs3.
From Verif.Proofs Require Import TransProofs HamConstProofs SessionCase CapCase SystemCase SystemCase2 SystemCase3 SystemCase4.
From Verif.Properties Require Import P_Diag P_System.

Set Implicit Arguments.
Unset Strict Implicit.
Unset Printing Implicit Defensive.
Import GRing.Theory.
Local Open Scope ring_scope.
Local Open Scope complex_scope.

(** The charge operators of the nodes of a circuit, in its eigenbasis, commute. *)
Definition charges_commute (x : circ) : Prop :=
  forall i j A B, (0 < i <= x_n x)%N -> (0 < j <= x_n x)%N ->
    charge_op_eig x (Z.of_nat i) = Ok A -> charge_op_eig x (Z.of_nat j) = Ok B -> commute A B.

Section Hermiticity.
Variables (disp : nat -> C -> op) (optim : bool) (circs : nat -> circ) (s : store) (u : ustate).
Variables (cps : seq couple) (S : sys).
Hypothesis made : system circs u cps = Ok S.
Hypothesis diags : forall c, c \in s_ids S -> diagonalised disp optim (circs c).
Let n (c : nat) : nat := x_n (circs c).
Let d (k : nat) : nat := nth 0%N (s_tr S) k.
Let total : nat := (\prod_(i < s_sub S) d i)%N.
Let row (p : nat * nat) : nat := Z.to_nat (node_idx circs S p.1 (Z.of_nat p.2)).

Let rdy c : c \in s_ids S -> ready disp (circs c).
Proof. by move/diags/diagonalised_ready. Qed.


Lemma some_sub H : s_hamiltonian circs s u S = Ok (Some H) -> (0 < s_sub S)%N.
Proof.
case E: (s_sub S) => [|//]; have E0 : s_ids S = [::] by apply: size0nil.
rewrite /s_hamiltonian /H_local /H_int E /=; case: int_coef => // A.
have -> : quadratic_Q circs S A = Ok None by have [_ _ EN _ _] := systemP made; rewrite /quadratic_Q EN E0.
by [].
Qed.

(** The Hamiltonian is formed as soon as the two matrices can be inverted. *)
Theorem C55_total A : (0 < s_sub S)%N -> int_coef circs s S = Ok A ->
  exists H, s_hamiltonian circs s u S = Ok (Some H).
Proof.
move=> s0 EA; have [l El _] := localE made; have [a Ea _] := quadE made rdy A.
rewrite /s_hamiltonian El /H_int EA Ea; case: l El => [l|] El; first by case: a Ea => *; eexists.
have [_ _ _ _ nz] := systemP made.
move: El; rewrite /H_local -(prednK s0) /=.
have -> : local_term circs u S 0 = Ok (local_op circs u S 0).
  rewrite /local_term /efreqs; case: eqP => [E|_]; first by case: (nz (nth 0%N (s_ids S) 0)); rewrite ?mem_nth.
  by rewrite size_map.
by move=> /acc_dim [].
Qed.

(** The Hamiltonian minus its adjoint: the commutators of the charges of nodes
    [i < j] of the same circuit, times the interaction coefficient of the pair. *)
Theorem C55_defect (Q : nat -> op) H : s_hamiltonian circs s u S = Ok (Some H) ->
  let nd i := nth (0, 0)%N (node_list n (s_ids S)) i in
  (forall i, (i < s_N S)%N -> charge_op_eig (circs (nd i).1) (Z.of_nat (nd i).2) = Ok (Q i)) ->
  exists2 A, int_coef circs s S = Ok A & dim H = total /\
    forall a b, (a < total)%N -> (b < total)%N ->
    ent H a b - (ent H b a)^* =
    \sum_(i < s_N S) \sum_(j < s_N S | (i < j)%N && ((nd i).1 == (nd j).1))
      (in_unit u 1 * A i j)%:C *
      ent (op_in_sys S (osub (omul (Q i) (Q j)) (omul (Q j) (Q i))) (index (nd i).1 (s_ids S))) a b.
Proof.
move=> EH nd HQ; have [A EA _] := s_hamiltonianE made rdy EH; exists A => //.
split=> [|a b ha hb]; first exact: (hamiltonian_dim made EH (some_sub EH)).
rewrite (defectE made rdy EH EA ha hb).
have QE i : (i < s_N S)%N -> Q i = charge_of circs S i.
  move=> hi; have := HQ i hi; have [_ _ _ _ nz] := systemP made.
  have /andP [/andP [h1 h2] h3] := nd_node made hi.
  rewrite -[in Z.of_nat _](prednK h2) (charge_eig (rdy h1) (nz _ h1)) ?prednK //.
  by case=> <-.
have PE i j : (i < s_N S)%N -> (j < s_N S)%N -> (pos_of circs S i == pos_of circs S j) = ((nd i).1 == (nd j).1).
  move=> hi hj; have /andP [/andP [h1 _] _] := nd_node made hi; have /andP [/andP [h2 _] _] := nd_node made hj.
  apply/eqP/eqP; rewrite /pos_of -/(nd i) -/(nd j); last by move=> ->.
  by move=> E; rewrite -(nth_index 0%N h1) E nth_index.
apply: eq_bigr => i _; apply: eq_big => [j|j _]; first by rewrite PE.
by rewrite !QE.
Qed.

Lemma charges : exists Q : nat -> op, forall i, (i < s_N S)%N ->
  let nd i := nth (0, 0)%N (node_list n (s_ids S)) i in
  charge_op_eig (circs (nd i).1) (Z.of_nat (nd i).2) = Ok (Q i) /\ dim (Q i) = d (index (nd i).1 (s_ids S)).
Proof.
exists (charge_of circs S) => i hi nd; have [_ _ _ _ nz] := systemP made.
have /andP [/andP [h1 h2] h3] := nd_node made hi.
split; last by rewrite (charge_dim made rdy).
by rewrite -[in LHS](prednK h2) (charge_eig (rdy h1) (nz _ h1)) ?prednK.
Qed.

(** If the charges of each circuit commute, the Hamiltonian is Hermitian. *)
Theorem C55_commuting H : s_hamiltonian circs s u S = Ok (Some H) ->
  (forall c, c \in s_ids S -> charges_commute (circs c)) -> herm H.
Proof.
move=> EH Hc; have [Q HQ] := charges.

have [A EA [dH HH]] := C55_defect EH (fun i hi => (HQ i hi).1).
split=> // a b; rewrite dH => ha hb; apply/eqP; rewrite -subr_eq0; apply/eqP.
change (ent H a b - (ent H b a)^* = 0); rewrite (HH _ _ ha hb) big1 // => i _; rewrite big1 // => j /andP [ij /eqP E].
have [Qi di] := HQ i (ltn_ord i); have [Qj dj] := HQ j (ltn_ord j).
have := nd_node made (ltn_ord i); have := nd_node made (ltn_ord j).
move: Qi Qj di dj E; set p := nth _ _ i; set q := nth _ _ j => Qi Qj di dj E.
move=> /andP [/andP [q1 q2] q3] /andP [/andP [p1 p2] p3].
have hk : (index p.1 (s_ids S) < s_sub S)%N by rewrite index_mem.
have Cm : commute (Q i) (Q j).
  by apply: (Hc p.1 p1 p.2 q.2 _ _ _ _ Qi); [apply/andP|rewrite E; apply/andP|rewrite E].
rewrite lift_sub //; last by rewrite /= dj E.
have [_ Ec] := lift_eq S (index p.1 (s_ids S)) Cm.
by rewrite Ec ?subrr ?mulr0 // lift_dim.
Qed.

(** In particular when every circuit has one node. *)
Theorem C55_hermitian H : s_hamiltonian circs s u S = Ok (Some H) ->
  (forall c, c \in s_ids S -> (n c <= 1)%N) -> herm H.
Proof.
move=> EH H1; apply: C55_commuting => // c hc i j A B /andP [i0 i1] /andP [j0 j1].
have one k : (0 < k)%N -> (k <= x_n (circs c))%N -> k = 1%N.
  by move=> k0 k1; apply/eqP; rewrite eqn_leq k0 (leq_trans k1 (H1 c hc)).
by rewrite (one i) // (one j) // => -> [<-].
Qed.

(** Not Hermitian: one circuit with two nodes whose charges do not commute, the
    others with one node, and a nonzero coefficient between the two nodes. *)
Theorem C55_not_hermitian c A B a H : c \in s_ids S -> n c = 2%N ->
  (forall c', c' \in s_ids S -> c' != c -> (n c' <= 1)%N) ->
  charge_op_eig (circs c) 1 = Ok A -> charge_op_eig (circs c) 2 = Ok B -> ~ commute A B ->
  int_coef circs s S = Ok a -> a (row (c, 1%N)) (row (c, 2%N)) <> 0 -> in_unit u 1 <> 0 ->
  s_hamiltonian circs s u S = Ok (Some H) -> ~ herm H.
Proof.
move=> hc n2 oth EA EB nc Ea a0 u0 EH [_ Hh]; apply: nc.

have [Q HQ] := charges; have [a' Ea' [dH HH]] := C55_defect EH (fun i hi => (HQ i hi).1).
have Eaa : a' = a by move: Ea'; rewrite Ea => -[]. 
rewrite {}Eaa {Ea'} in HH; have [U _] := C52_circuits made; have [_ _ EN Etr nz] := systemP made.
have N1 : is_node n (s_ids S) (c, 1%N) by rewrite /is_node /= hc n2.
have N2 : is_node n (s_ids S) (c, 2%N) by rewrite /is_node /= hc n2.
have [R1 L1] := node_row U N1; have [R2 L2] := node_row U N2; rewrite -EN in L1 L2.
have O1 := offset_index U N1; have O2 := offset_index U N2.
have E1 : row (c, 1%N) = index (c, 1%N) (node_list n (s_ids S)) by rewrite /row [node_idx _ _ _ _]R1 Nat2Z.id.
have E2 : row (c, 2%N) = index (c, 2%N) (node_list n (s_ids S)) by rewrite /row [node_idx _ _ _ _]R2 Nat2Z.id.
have lt : (row (c, 1%N) < row (c, 2%N))%N by rewrite E1 E2 O1 O2 ltn_add2l.
rewrite -E1 in L1; rewrite -E2 in L2.
pose i0 := Ordinal L1; pose j0 := Ordinal L2; pose k0 := index c (s_ids S).
have nd1 : nth (0, 0)%N (node_list n (s_ids S)) i0 = (c, 1%N) by rewrite /= E1 nth_index // mem_nodes.
have nd2 : nth (0, 0)%N (node_list n (s_ids S)) j0 = (c, 2%N) by rewrite /= E2 nth_index // mem_nodes.
have [] := HQ i0 L1; rewrite nd1 -[Z.of_nat 1]/(Zpos xH) EA => -[QA] dA.
have [] := HQ j0 L2; rewrite nd2 -[Z.of_nat 2]/(Zpos (xO xH)) EB => -[QB] dB.
rewrite -QA in dA; rewrite -QB in dB; rewrite -/k0 in dA dB.
have one (i j : 'I_(s_N S)) : (i < j)%N && ((nth (0, 0)%N (node_list n (s_ids S)) i).1 == (nth (0, 0)%N (node_list n (s_ids S)) j).1) =
    (i == i0) && (j == j0).
  apply/andP/andP => [[ij /eqP E]|[/eqP -> /eqP ->]]; last by rewrite nd1 nd2.
  have hi := nd_node made (ltn_ord i); have hj := nd_node made (ltn_ord j).
  have Ii : index (nth (0, 0)%N (node_list n (s_ids S)) i) (node_list n (s_ids S)) = i.
    by rewrite index_uniq ?uniq_nodes -?EN.
  have Ij : index (nth (0, 0)%N (node_list n (s_ids S)) j) (node_list n (s_ids S)) = j.
    by rewrite index_uniq ?uniq_nodes -?EN.
  move: hi hj Ii Ij E; case: (nth _ _ i) => c1 x; case: (nth _ _ j) => c2 y /=.
  move=> /andP [/andP [/= x1 x2] x3] /andP [/andP [/= _ y2] y3] Ii Ij E; rewrite -{c2}E in y3 Ij.
  case: (eqVneq c1 c) => [Ec|ne]; last first.
    have ne1 := oth _ x1 ne; have ex : x = 1%N by apply/eqP; rewrite eqn_leq x2 (leq_trans x3 ne1).
    have ey : y = 1%N by apply/eqP; rewrite eqn_leq y2 (leq_trans y3 ne1).
    by move: ij; rewrite -Ii -Ij ex ey ltnn.
  move: x3 y3; rewrite Ec (n2 : x_n (circs c) = 2%N) => x3 y3; rewrite Ec in Ii Ij.
  have [ex ey] : x = 1%N /\ y = 2%N.
    case: x x2 x3 Ii => [|[|[|x]]] // _ _ Ii; case: y y2 y3 Ij => [|[|[|y]]] // _ _ Ij //.
    - by move: ij; rewrite -Ii -Ij ltnn.
    - by move: lt; rewrite E1 E2 Ii Ij ltnNge (ltnW ij).
    - by move: ij; rewrite -Ii -Ij ltnn.
  by split; apply/eqP/val_inj; rewrite /= -?Ii -?Ij ?ex ?ey ?E1 ?E2.
have hk : (k0 < s_sub S)%N by rewrite index_mem.
have zero p q : (p < total)%N -> (q < total)%N ->
    ent (op_in_sys S (osub (omul A B) (omul B A)) k0) p q = 0.
  move=> hp hq; have := HH _ _ hp hq.
  have -> : ent H p q - (ent H q p)^* = 0 by apply/eqP; rewrite subr_eq0; apply/eqP; apply: Hh; rewrite dH.
  rewrite (bigD1 i0) //= [X in _ + X]big1 ?addr0; last first.
    by move=> i ne; rewrite big1 // => j; rewrite one (negbTE ne).
  rewrite (bigD1 j0) //=; last by rewrite nd1 nd2 /= eqxx andbT.
  rewrite [X in _ + X]big1 ?addr0; last first.
    by move=> j /andP [] /=; rewrite (one i0 j) eqxx /= => /eqP ->; rewrite eqxx.
  rewrite -QA -QB nd1 /= -/k0 => /esym/eqP; rewrite mulf_eq0 => /orP [/eqP /(congr1 (@complex.Re R))|/eqP //].
  by move=> /eqP; rewrite /= mulf_eq0 => /orP [] /eqP.
split=> /= [|p q hp hq]; first by rewrite dA dB.
pose dg r (k : nat) : nat := if k == k0 then r else 0%N.
have pos k : (k < s_sub S)%N -> (0 < d k)%N.
  by move=> h; rewrite /d Etr (nth_map 0%N) // lt0n; apply/eqP; apply: nz; rewrite mem_nth.
have leg r : (r < d k0)%N -> legal d (dg r) (s_sub S).
  by move=> hr k h; rewrite /dg; case: eqP => [->|_] //; exact: pos.
have La := leg p (eq_ind _ (fun z => is_true (p < z)%N) hp _ dA).
have Lb := leg q (eq_ind _ (fun z => is_true (q < z)%N) hq _ dA).
have [dd EE] := lift_acts hk (dA : dim (osub (omul A B) (omul B A)) = d k0).
have := EE _ _ La Lb; rewrite zero; try exact: posn_lt.
have -> : [forall k : 'I_(s_sub S), ((k : nat) == k0) || (dg p k == dg q k)].
  by apply/forallP => k; rewrite /dg; case: eqP.
by rewrite /dg eqxx /= => /esym/eqP; rewrite subr_eq0 => /eqP.
Qed.
End Hermiticity.
Print Assumptions C55_total.
Print Assumptions C55_defect.
Print Assumptions C55_commuting.
Print Assumptions C55_hermitian.
Print Assumptions C55_not_hermitian.

(** The system of SystemCase4: a circuit of two capacitors, whose charges do not
    commute in the space of its three lowest states, and a single capacitor. *)
Theorem C55_refuted disp optim (lobj : nat -> lrec) : exists x y S H,
  [/\ diagonalised disp optim x, diagonalised disp optim y,
      system (two_circs x y) ustate_init two_cps = Ok S,
      s_hamiltonian (two_circs x y) (cap_store 1) ustate_init S = Ok (Some H) & ~ herm H].
Proof.
have [x [dx [nx n0x] [Cx Rx] fx HQ]] := tw_diag disp optim lobj.
have [y [dy [ny n0y] [Cy Ry] fy]] := one_diag disp optim lobj.
have [A EA HA] := two_coef nx n0x Cx Rx ny n0y Cy Ry.
have made := two_made ustate_init nx fx ny fy.
set S := mkSys _ _ _ _ in made EA.
have dd c : c \in s_ids S -> diagonalised disp optim (two_circs x y c) by rewrite /two_circs; case: eqP.
have [H EH] := C55_total made dd (isT : (0 < s_sub S)%N) EA.
exists x, y, S, H; split=> //.
have [Q1 E1 [d1 e1]] := HQ 0%N isT; have [Q2 E2 [d2 e2]] := HQ 1%N isT.
have u0 : in_unit ustate_init 1 <> 0.
  by move=> E; have := in_unit_back ustate_init 1 unit_init; rewrite E Rmult_0_l => /esym; exact: R1_neq_R0.
apply: (C55_not_hermitian made dd (c := 0%N) _ nx _ E1 E2 _ EA _ u0 EH) => //.
- by move=> c; rewrite !inE => /orP [] /eqP -> // _; rewrite /two_circs /= ny.
- move=> [_ /(_ 1%N 2%N)]; rewrite /= d1 d2 => /(_ isT isT).
  rewrite !big_ord_recr !big_ord0 /= !e1 // !e2 //.
  rewrite (@tw_Q0 0 1 0) // (@tw_Q0 1 1 0) // !cR0 !mul0r !add0r -!cRM -!cRD => /(congr1 (@complex.Re R)); exact: tw_noncommuting.
- by rewrite /node_idx /= /two_circs /= HA; apply/eqP; rewrite invr_eq0 Num.Theory.pnatr_eq0.
Qed.
Print Assumptions C55_refuted.

Lemma two_inv (F : comRingType) (t : F) : t * 3%:R = 1 ->
  (0 + (1 + 1) * (t * 2%:R) + (0 + - 1) * (t * 1) = 1 /\ 0 + (1 + 1) * (t * 1) + (0 + - 1) * (t * 2%:R) = 0)
  /\ (0 + (0 + - 1) * (t * 2%:R) + (1 + 1) * (t * 1) = 0 /\ 0 + (0 + - 1) * (t * 1) + (1 + 1) * (t * 2%:R) = 1).
Proof.
by move=> e; split; split; [rewrite -[RHS]e; ring | ring | ring | rewrite -[RHS]e; ring].
Qed.

(** Two single capacitors coupled by a third: the Hamiltonian exists and is
    Hermitian. *)
Example C55_case disp optim (lobj : nat -> lrec) : exists y S H,
  [/\ diagonalised disp optim y, system (fun=> y) ustate_init [:: mkCp 0 (ANode 1) 1 (ANode 1) 0] = Ok S,
      s_hamiltonian (fun=> y) (cap_store 1) ustate_init S = Ok (Some H), dim H = 1%N & herm H].
Proof.
have [y [dy [ny n0y] [Cy Ry] fy]] := one_diag disp optim lobj.
pose cps := [:: mkCp 0 (ANode 1) 1 (ANode 1) 0].
pose S := mkSys cps [:: 0; 1]%N 2 [:: 1; 1]%N.
have made : system (fun=> y) ustate_init cps = Ok S by rewrite /system /= /efreqs fy /= size_map fy ny.
have dd c : c \in s_ids S -> diagonalised disp optim y by [].
have d2 : s_dim (fun=> y) S = 2%N by rewrite /s_dim /= n0y.
have [A EA] : exists A, int_coef (fun=> y) (cap_store 1) S = Ok A.
  have E1 : cap_matrix (fun=> y) (cap_store 1) S = Ok (add_cap (Rmult 1 1) 0 1 (bare_cap (fun=> y) S)).
    by rewrite /cap_matrix /= /node_idx /= ny d2.
  rewrite /int_coef E1 d2; set M := add_cap _ _ _ _.
  have ME : toM 2 2 M *m toM 2 2 (fun i j => 3%:R^-1 * (if i == j then 2%:R else 1)) = 1%:M.
    apply/matrixP => i j; rewrite !mxE -(inj_eq val_inj) !big_ord_recr big_ord0 !mxE /M /bare_cap /add_cap /add_at /= !n0y /=.
    rewrite -[Rmult 1 1]/(GRing.mul (GRing.one R_ringType) 1) !mul1r.
    have e3 : 3%:R^-1 * 3%:R = 1 :> R_fieldType by rewrite mulVf // Num.Theory.pnatr_eq0.
    move: e3; set t := _^-1 => e3.
    case: i => [[|[|//]] hi]; case: j => [[|[|//]] hj] /=; rewrite ?Cy.
    - exact: (two_inv e3).1.1.
    - exact: (two_inv e3).1.2.
    - exact: (two_inv e3).2.1.
    - exact: (two_inv e3).2.2.
  have [uM _] := mulmx1_unit ME; have [a Ea] := inv_unit uM; rewrite Ea.
  have [b Eb] : exists b, inv 2 (bare_cap (fun=> y) S) = Ok b.
    apply: inv_unit; have -> : toM 2 2 (bare_cap (fun=> y) S) = 1%:M; last by rewrite unitmx1.
    apply/matrixP => i j; rewrite !mxE -(inj_eq val_inj) /bare_cap /= !n0y.
    by case: i => [[|[|//]] hi]; case: j => [[|[|//]] hj] /=; rewrite ?Cy.
  by rewrite Eb; eexists.
have [H EH] := C55_total made dd (isT : (0 < s_sub S)%N) EA.
exists y, S, H; split=> //.
- by rewrite (hamiltonian_dim made EH isT) /s_total /= big_ord_recr big_ord1.
- by apply: (C55_hermitian made dd EH) => c _; rewrite ny.
Qed.
