(** P_System.v -- C52, C53, C54: node numbering, capacitance matrix and operators
    of a system of coupled circuits. *)
From Coq Require Import Reals ZArith String Lia Permutation.
From Verif.Model Require Import Base Units Elements Edge LCWB HamConst.
From mathcomp Require Import all_ssreflect all_algebra.
From mathcomp Require Import complex.
From Verif.Numerics Require Import RStruct Bridge.
From Verif.Model Require Import Transform Op Ham Diag CircuitSM Partial System.
From Verif.Spec Require Import OpSpec EigSpec SystemSpec.
From Verif.Proofs Require Import OpProofs HamProofs HamProofs2 HamProofs4 SMProofs SystemProofs SystemProofs2.
From Verif.Proofs Require Import SessionCase CapCase SystemCase SystemCase2 SystemCase3 SystemCase4 SystemCase5.

Set Implicit Arguments.
Unset Strict Implicit.
Unset Printing Implicit Defensive.
Import GRing.Theory.
Local Open Scope ring_scope.
Local Open Scope complex_scope.

(** ** C52 *)
(** The circuits of a system are those named in the couplings, each once. *)
Theorem C52_circuits circs u cps S : system circs u cps = Ok S ->
  uniq (s_ids S) /\
  forall c, c \in s_ids S <-> exists cp, List.In cp cps /\ (c = cp_c1 cp \/ c = cp_c2 cp).
Proof. by move=> /systemP [_ -> _ _ _]; exact: all_circuitsP. Qed.
Print Assumptions C52_circuits.

Section Numbering.
Variables (circs : nat -> circ) (u : ustate) (cps : seq couple) (S : sys).
Hypothesis made : system circs u cps = Ok S.
Let n (c : nat) : nat := x_n (circs c).

(** Nodes 1..n of the circuits and the numbers 0..N-1 correspond one to one, and
    [_node_idx_in_sub_sys] is the inverse of [_node_idx_in_sys]. *)
Theorem C52_bijection :
  [/\ forall c i, is_node n (s_ids S) (c, i) ->
        exists k, [/\ (k < s_N S)%N, node_idx circs S c (Z.of_nat i) = Z.of_nat k &
                      sub_idx circs S k = (Z.of_nat i, index c (s_ids S))],
      forall c i c' i', is_node n (s_ids S) (c, i) -> is_node n (s_ids S) (c', i') ->
        node_idx circs S c (Z.of_nat i) = node_idx circs S c' (Z.of_nat i') -> (c, i) = (c', i') &
      forall k, (k < s_N S)%N -> exists c i, [/\ is_node n (s_ids S) (c, i),
        node_idx circs S c (Z.of_nat i) = Z.of_nat k & sub_idx circs S k = (Z.of_nat i, index c (s_ids S))]].
Proof.
have [U _] := C52_circuits made; have [_ _ EN _ _] := systemP made.
have fwd c i : is_node n (s_ids S) (c, i) ->
    exists k, [/\ (k < s_N S)%N, node_idx circs S c (Z.of_nat i) = Z.of_nat k &
                  sub_idx circs S k = (Z.of_nat i, index c (s_ids S))].
  move=> H; have [E1 E2] := node_row U H; have hm := H; rewrite -mem_nodes in hm.
  exists (index (c, i) (node_list n (s_ids S))); split=> //; first by rewrite EN.
  by have := sub_loopE (circs := circs) (s_ids S) 0 E2; rewrite add0n nth_index.
split=> // [c i c' i' h h'|k hk].
  have [-> _] := node_row U h; have [-> _] := node_row U h' => /Nat2Z.inj E.
  rewrite -mem_nodes in h; rewrite -mem_nodes in h'.
  by rewrite -[LHS](nth_index (0, 0)%N h) -[RHS](nth_index (0, 0)%N h') E.
have hm : nth (0, 0)%N (node_list n (s_ids S)) k \in node_list n (s_ids S) by rewrite mem_nth -?EN.
case Ep : (nth _ _ k) hm => [c i] hm; exists c, i; rewrite -mem_nodes hm.
have := hm; rewrite mem_nodes => /(node_row U) [-> _].
have -> : index (c, i) (node_list n (s_ids S)) = k by rewrite -Ep index_uniq -?EN // uniq_nodes.
split=> //; have hk' : (k < size (node_list n (s_ids S)))%N by rewrite -EN.
by have := sub_loopE (circs := circs) (s_ids S) 0 hk'; rewrite add0n Ep.
Qed.

(** Node 0 (the ground) of a circuit is not a node of the system, yet it gets a
    number: that of the last node of the circuit before it, and -1 for the first
    circuit, which numpy reads as the last row.  Node n+1 is the first node of
    the circuit after. *)
Theorem C52_ground_refuted :
  [/\ forall p, (p.+1 < s_sub S)%N ->
        node_idx circs S (nth 0%N (s_ids S) p.+1) Z0 =
        node_idx circs S (nth 0%N (s_ids S) p) (Z.of_nat (n (nth 0%N (s_ids S) p))),
      (0 < s_N S)%N -> node_idx circs S (nth 0%N (s_ids S) 0) Z0 = Zneg xH /\
        np_row (s_N S) (Zneg xH) = Ok (s_N S).-1 &
      forall p, (p.+1 < s_sub S)%N ->
        node_idx circs S (nth 0%N (s_ids S) p) (Z.of_nat (n (nth 0%N (s_ids S) p)).+1) =
        node_idx circs S (nth 0%N (s_ids S) p.+1) (Zpos xH)].
Proof.
have [U _] := C52_circuits made.
have step p : (p.+1 < s_sub S)%N -> offset circs (s_ids S) (nth 0%N (s_ids S) p.+1) =
    (offset circs (s_ids S) (nth 0%N (s_ids S) p) + n (nth 0%N (s_ids S) p))%N.
  rewrite /s_sub; elim: (s_ids S) U p => // c ids IH /andP [Nc Uc] [|p] /=.
    case: ids Nc {IH Uc} => // c' ids; rewrite inE negb_or => /andP [ne _] _ /=.
    by rewrite (negbTE ne) !eqxx addn0.
  rewrite ltnS => hp; have h1 : nth 0%N ids p \in ids by rewrite mem_nth // ltnW.
  have h2 : nth 0%N ids p.+1 \in ids by rewrite mem_nth.
  have n1 : c == nth 0%N ids p = false by apply/negbTE; apply: contra Nc => /eqP ->.
  have n2 : c == nth 0%N ids p.+1 = false by apply/negbTE; apply: contra Nc => /eqP ->.
  by rewrite n1 n2 IH // addnA.
split.
- by move=> p hp; rewrite /node_idx step // -plusE Nat2Z.inj_add; lia.
- move=> N0; have -> : node_idx circs S (nth 0%N (s_ids S) 0) Z0 = Zneg xH.
    by rewrite /node_idx; case: (s_ids S) => //= c l; rewrite eqxx.
  split=> //; rewrite /np_row /py_index -[Z.leb Z0 (Zneg xH)]/false.
  move: N0 => /ltP N0; have -> : Z.leb Z0 (Z.add (Zneg xH) (Z.of_nat (s_N S))) = true by apply/Z.leb_le; lia.
  by congr Ok; rewrite -subn1 -minusE; lia.
- by move=> p hp; rewrite /node_idx step // -plusE Nat2Z.inj_add Nat2Z.inj_succ; lia.
Qed.
End Numbering.
Print Assumptions C52_bijection.
Print Assumptions C52_ground_refuted.

(** A circuit with nodes 1 and 2 and one with node 1, both built and diagonalised:
    numbers 0, 1, 2.  The second circuit's ground gets the number of node 2. *)
Example C52_case disp optim (lobj : nat -> lrec) u : exists x y S, [/\ diagonalised disp optim x, diagonalised disp optim y,
  system (two_circs x y) u two_cps = Ok S /\ s_ids S = [:: 0; 1]%N,
  [/\ node_idx (two_circs x y) S 0 1 = Z0, node_idx (two_circs x y) S 0 2 = Zpos xH &
      node_idx (two_circs x y) S 1 1 = Zpos (xO xH) /\ sub_idx (two_circs x y) S 2 = (Zpos xH, 1%N)] &
  node_idx (two_circs x y) S 1 0 = Zpos xH].
Proof.
have [x [dx [nx n0x] [Cx Rx] fx _]] := tw_diag disp optim lobj.
have [y [dy [ny n0y] [Cy Ry] fy]] := one_diag disp optim lobj.
exists x, y, (mkSys two_cps [:: 0; 1]%N 3 [:: 3; 1]%N); split=> //.
- by rewrite (two_made u nx fx ny fy).
- by rewrite /node_idx /sub_idx /= /two_circs /= nx ny.
- by rewrite /node_idx /= /two_circs /= nx.
Qed.

(** ** C53 *)
Section Capacitance.
Variables (circs : nat -> circ) (s : store) (u : ustate) (cps : seq couple) (S : sys).
Hypothesis made : system circs u cps = Ok S.
(** No circuit has lost a mode, and the coupling capacitors join nodes. *)
Hypothesis al : aligned circs (s_ids S).
Let n (c : nat) : nat := x_n (circs c).
Hypothesis ok : links_ok s n (s_ids S) cps.
Let Cm (c : nat) : nat -> nat -> R := x_C (circs c).
Let nodes := node_list n (s_ids S).
Let row (p : nat * nat) : nat := Z.to_nat (node_idx circs S p.1 (Z.of_nat p.2)).

(** Entry by entry: the blocks and, for every coupling capacitor, its Laplacian. *)
Theorem C53_entries : exists2 M, cap_matrix circs s S = Ok M &
  forall p q, is_node n (s_ids S) p -> is_node n (s_ids S) q ->
    M (row p) (row q) = own_entry Cm p q + \sum_(l <- cap_links s cps) link_entry p q l.
Proof.
have [U _] := C52_circuits made; have [Ec _ _ _ _] := systemP made.
have [|M EM HM] := cap_matrixE (s := s) U al; first by rewrite Ec.
exists M => // p q hp hq; have idx r : is_node n (s_ids S) r ->
    row r = index r nodes /\ (index r nodes < size nodes)%N.
  by case: r => c i /(node_row U) [E1 E2]; rewrite /row /= E1 Nat2Z.id.
have [-> h1] := idx p hp; have [-> h2] := idx q hq; rewrite -mem_nodes in hp; rewrite -mem_nodes in hq.
by rewrite HM // !nth_index // Ec.
Qed.

(** Symmetric if the circuits' matrices are. *)
Theorem C53_symmetric M : cap_matrix circs s S = Ok M ->
  (forall c a b, c \in s_ids S -> (a < n c)%N -> (b < n c)%N -> Cm c a b = Cm c b a) ->
  forall p q, (p < s_N S)%N -> (q < s_N S)%N -> M p q = M q p.
Proof.
have [U _] := C52_circuits made; have [Ec _ EN _ _] := systemP made.
have [|M' EM HM] := cap_matrixE (s := s) U al; first by rewrite Ec.
rewrite EM => -[<-] sym p q; rewrite EN => hp hq; rewrite !HM //; congr (_ + _); last first.
  by apply: eq_bigr => l _; rewrite /link_entry -mulrA [X in _ * X]mulrC mulrA.
have := mem_nth (0, 0)%N hp; have := mem_nth (0, 0)%N hq; rewrite !mem_nodes /own_entry [in RHS]eq_sym.
case: (nth _ _ p) => c a; case: (nth _ _ q) => c' b /andP [/andP [/= hc' b1] b2] /andP [/andP [/= hc a1] a2].
by case: eqP => // E; rewrite -E in b2 *; apply: sym; rewrite ?prednK.
Qed.

(** The energy of the node voltages [phi] is the sum of the circuits' energies and
    of C (phi_1 - phi_2)^2 over the coupling capacitors. *)
Theorem C53_energy M phi : cap_matrix circs s S = Ok M ->
  \sum_(p < s_N S) \sum_(q < s_N S) M p q * phi (nth (0, 0)%N nodes p) * phi (nth (0, 0)%N nodes q) =
  \sum_(c <- s_ids S) circuit_energy n Cm phi c + \sum_(l <- cap_links s cps) link_energy phi l.
Proof.
have [U _] := C52_circuits made; have [Ec _ EN _ _] := systemP made.
have [|M' EM HM] := cap_matrixE (s := s) U al; first by rewrite Ec.
rewrite EM => -[<-]; rewrite EN -(own_energy circs U).
pose G p q := own_entry Cm p q * phi p * phi q +
              \sum_(l <- cap_links s cps) link_entry p q l * phi p * phi q.
transitivity (\sum_(p < size nodes) \sum_(q < size nodes) G (nth (0, 0)%N nodes p) (nth (0, 0)%N nodes q)).
  by apply: eq_bigr => p _; apply: eq_bigr => q _; rewrite HM // Ec !mulrDl !mulr_suml.
transitivity (\sum_(p <- nodes) \sum_(q <- nodes) G p q).
  rewrite -(sum_nodes circs S (fun p => \sum_(q <- nodes) G p q)); apply: eq_bigr => p _.
  exact: (sum_nodes circs S (G _)).
under eq_bigr do rewrite big_split; rewrite big_split; congr (_ + _).
under eq_bigr do rewrite exchange_big; rewrite exchange_big /=.
have Hl : forall l, l \in [seq l | l <- cap_links s cps] -> l.2.1 \in nodes /\ l.2.2 \in nodes.
  move: ok; elim: (cps) => // cp l IH okl x; rewrite /=.
  have okl' : links_ok s n (s_ids S) l by move=> c hc; apply: okl; right.
  case Ek: (ekind s (cp_el cp)) => /=; [|exact: IH|exact: IH].
  have [p [q [Ep Eq hp hq]]] := okl cp (or_introl erefl) Ek; rewrite Ep Eq /= inE => /orP [/eqP ->|/IH]; last exact.
  by rewrite !mem_nodes.
rewrite map_id in Hl; apply: eq_big_seq => -[v [x y]] /Hl [hx hy].
exact: (link_sum U phi v hx hy).
Qed.
End Capacitance.
Print Assumptions C53_entries.
Print Assumptions C53_symmetric.
Print Assumptions C53_energy.

Lemma cap_links_perm s l l' : Permutation l l' -> forall F : R * ((nat * nat) * (nat * nat)) -> R_ringType,
  \sum_(x <- cap_links s l) F x = \sum_(x <- cap_links s l') F x.
Proof.
move=> P F; have sumE m : \sum_(x <- cap_links s m) F x =
    \sum_(cp <- m) (if ekind s (cp_el cp) is KCap then
       if as_node (cp_c1 cp) (cp_a1 cp) is Some p then if as_node (cp_c2 cp) (cp_a2 cp) is Some q then
         F (evalue s (cp_el cp), (p, q)) else 0 else 0 else 0).
  elim: m => [|cp m IH]; first by rewrite !big_nil.
  rewrite big_cons -IH /=; case: ekind => /=; rewrite ?add0r //.
  by case: as_node => [p|] /=; rewrite ?add0r //; case: as_node => [q|] /=; rewrite ?add0r ?big_cons.
rewrite !sumE; elim: P => // [x a b _ IH|x y a|a b c _ -> _ ->] //; first by rewrite !big_cons IH.
by rewrite !big_cons !addrA [X in X + _]addrC.
Qed.

(** The order of the couplings: the entry between two given nodes is the same. *)
Theorem C53_order circs s u cps cps' S S' M M' : Permutation cps cps' ->
  system circs u cps = Ok S -> system circs u cps' = Ok S' -> aligned circs (s_ids S) ->
  links_ok s (fun c => x_n (circs c)) (s_ids S) cps ->
  cap_matrix circs s S = Ok M -> cap_matrix circs s S' = Ok M' ->
  let row S (p : nat * nat) := Z.to_nat (node_idx circs S p.1 (Z.of_nat p.2)) in
  forall p q, is_node (fun c => x_n (circs c)) (s_ids S) p -> is_node (fun c => x_n (circs c)) (s_ids S) q ->
    M (row S p) (row S q) = M' (row S' p) (row S' q).
Proof.
move=> P E E' al ok EM EM' /= p q hp hq.
have [_ M1] := C52_circuits E; have [_ M2] := C52_circuits E'.
have same : s_ids S =i s_ids S'.
  have mem c : c \in s_ids S <-> c \in s_ids S'.
    rewrite M1 M2; split=> -[cp [hc h]]; exists cp; split=> //.
      exact: (Permutation_in _ P hc).
    exact: (Permutation_in _ (Permutation_sym P) hc).
  by move=> c; apply/idP/idP => /mem.
have nn r : is_node (fun c => x_n (circs c)) (s_ids S) r = is_node (fun c => x_n (circs c)) (s_ids S') r.
  by rewrite /is_node same.
have al' : aligned circs (s_ids S') by move=> c; rewrite -same; apply: al.
have ok' : links_ok s (fun c => x_n (circs c)) (s_ids S') cps'.
  move=> cp hc Ek; have [a [b [Ea Eb ha hb]]] := ok cp (Permutation_in _ (Permutation_sym P) hc) Ek.
  by exists a, b; rewrite -!nn.
have [N EN HN] := C53_entries E al ok; have [N' EN' HN'] := C53_entries E' al' ok'.
move: EM; rewrite EN => -[<-]; move: EM'; rewrite EN' => -[<-].
by rewrite HN // HN' -?nn // (cap_links_perm s P).
Qed.
Print Assumptions C53_order.

(** The matrix of that system: (2, 0, -1), (0, 2, -1), (-1, -1, 3). *)
Example C53_case disp optim (lobj : nat -> lrec) u : exists x y S M, [/\ diagonalised disp optim x, diagonalised disp optim y,
  system (two_circs x y) u two_cps = Ok S, cap_matrix (two_circs x y) (cap_store 1) S = Ok M &
  [/\ M 0%N 0%N = 2%:R, M 0%N 1%N = 0, M 0%N 2%N = -1 & M 2%N 2%N = 3%:R]].
Proof.
have [x [dx [nx n0x] [Cx Rx] fx _]] := tw_diag disp optim lobj.
have [y [dy [ny n0y] [Cy Ry] fy]] := one_diag disp optim lobj.
have [M EM HM] := two_matrix nx n0x Cx ny n0y Cy.
exists x, y, (mkSys two_cps [:: 0; 1]%N 3 [:: 3; 1]%N), M; split=> //; first by rewrite (two_made u nx fx ny fy).
have E i j (hi : (i < 3)%N) (hj : (j < 3)%N) : M i j = two_C i j.
  by have /matrixP /(_ (Ordinal hi) (Ordinal hj)) := HM; rewrite !mxE.
by rewrite !E.
Qed.

(** Two copies of a circuit that lost a mode (two nodes, one mode), node 1 of the
    one coupled to node 1 of the other.  Rows 0 and 1 are the first circuit's
    nodes, rows 2 and 3 the second's; the capacitor is put between rows 0 and 1. *)
Theorem C53_removed_refuted disp (lobj : nat -> lrec) u : (forall m a, dim (disp m a) = m) ->
  exists x S M, [/\ diagonalised disp false x /\ t_n0 (x_st x) = 2%N, toM 2 2 (x_C x) = 1%:M,
    system (fun=> x) u [:: mkCp 0 (ANode 1) 1 (ANode 1) 0] = Ok S,
    cap_matrix (fun=> x) rm_store S = Ok M /\ evalue rm_store 0 = 1 &
    [/\ M 0%N 1%N = -1, M 1%N 1%N = 2%:R, M 0%N 2%N = 0 & M 2%N 2%N = 1]].
Proof.
move=> Hd; have [x [dx [nx n0x] Cx fx]] := rm_diag lobj Hd.
have cE a b : (a < 2)%N -> (b < 2)%N -> x_C x a b = if a == b then 1 else 0.
  move=> ha hb; have /matrixP /(_ (Ordinal ha) (Ordinal hb)) := Cx; rewrite !mxE -(inj_eq val_inj) /= => ->.
  by case: eqP.
pose S := mkSys [:: mkCp 0 (ANode 1) 1 (ANode 1) 0] [:: 0; 1]%N 2 [:: 1; 1]%N.
have sy : system (fun=> x) u [:: mkCp 0 (ANode 1) 1 (ANode 1) 0] = Ok S.
  by rewrite /system /= /efreqs fx /= size_map fx nx.
exists x, S, (add_cap 1 0 1 (bare_cap (fun=> x) S)).
split=> //; last by rewrite /add_cap /add_at /bare_cap /= !n0x /= !cE //= ?add0r.
split=> //; rewrite /cap_matrix /= /node_idx /= nx.
by rewrite /s_dim /= n0x.
Qed.
Print Assumptions C53_removed_refuted.

(** ** C54 *)
Section Lifting.
Variable S : sys.
Let d (k : nat) : nat := nth 0%N (s_tr S) k.

(** [_op_in_sys] acts as the operator on its factor and as the identity on the
    others. *)
Theorem C54_acts A k : (k < s_sub S)%N -> dim A = d k -> acts_on (s_sub S) d k (ent A) (op_in_sys S A k).
Proof. exact: lift_acts. Qed.

(** It preserves products, adjoints and the identity. *)
Theorem C54_morphism A B k : dim A = d k -> dim B = d k ->
  [/\ eqop (omul (op_in_sys S A k) (op_in_sys S B k)) (op_in_sys S (omul A B) k),
      eqop (oadj (op_in_sys S A k)) (op_in_sys S (oadj A) k) &
      eqop (op_in_sys S (oeye (d k)) k) (oeye (\prod_(i < s_sub S) d i)%N)].
Proof. by move=> dA dB; split; [apply: lift_mul|apply: lift_adj|apply: lift_eye]. Qed.

(** The lift of two operators is the product of the single lifts, whether or not
    they belong to the same sub-circuit; on different ones they commute. *)
Theorem C54_two A k B l : dim A = d k -> dim B = d l ->
  eqop (op_times_op S A k B l) (omul (op_in_sys S A k) (op_in_sys S B l)) /\
  (k != l -> commute (op_in_sys S A k) (op_in_sys S B l)).
Proof. by move=> dA dB; split; [apply: lift2|move=> ne; apply: lift_commute]. Qed.
End Lifting.
Print Assumptions C54_acts.
Print Assumptions C54_morphism.
Print Assumptions C54_two.

(** Two and three levels: a on the first times a on the second takes state
    (1, 1), number 4, to state (0, 0). *)
Example C54_case : let S := mkSys [::] [:: 0; 1]%N 0 [:: 2; 3]%N in
  dim (op_times_op S (destroy 2) 0 (destroy 3) 1) = 6%N /\
  ent (op_times_op S (destroy 2) 0 (destroy 3) 1) 0 4 = 1 /\
  ent (op_in_sys S (destroy 2) 0) 1 4 = 1.
Proof.
by rewrite /= !sqrt_1 !cR1 !mulr1.
Qed.
