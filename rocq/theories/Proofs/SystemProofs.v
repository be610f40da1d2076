(** SystemProofs.v -- node numbering and capacitance matrix of a system. *)
From Coq Require Import Reals ZArith String Lia Permutation.
From Verif.Model Require Import Base Units Elements Edge LCWB HamConst.
From mathcomp Require Import all_ssreflect all_algebra.
From mathcomp Require Import complex.
From Verif.Numerics Require Import RStruct Bridge.
From Verif.Model Require Import Transform Op Ham Diag CircuitSM Partial System.
From Verif.Spec Require Import OpSpec SystemSpec.
From Verif.Proofs Require Import OpProofs.

Set Implicit Arguments.
Unset Strict Implicit.
Unset Printing Implicit Defensive.
Import GRing.Theory.
Local Open Scope ring_scope.

(** ** The circuits of the couplings *)
Lemma add_newP l c : uniq l -> uniq (add_new l c) /\ add_new l c =i [predU l & pred1 c].
Proof.
move=> U; rewrite /add_new; case: ifP => H; split=> //.
- by move=> a; rewrite !inE; case: (eqVneq a c) => [->|_]; rewrite ?H ?orbF.
- by rewrite rcons_uniq H U.
- by move=> a; rewrite mem_rcons !inE orbC.
Qed.

Lemma all_circuitsP cps : uniq (all_circuits cps) /\
  forall c, c \in all_circuits cps <-> exists cp, List.In cp cps /\ (c = cp_c1 cp \/ c = cp_c2 cp).
Proof.
rewrite /all_circuits; set f := fun l c => _.
suff H l : uniq l -> uniq (foldl f l cps) /\ forall c, c \in foldl f l cps <->
    c \in l \/ exists cp, List.In cp cps /\ (c = cp_c1 cp \/ c = cp_c2 cp).
  by have [//|U M] := H [::]; split=> // c; rewrite M; split=> [[//|]|]; auto.
elim: cps l => [|cp cps IH] l U /=; first by split=> // c; split=> [|[//|[? [[]]]]]; auto.
have [U1 M1] := add_newP (cp_c1 cp) U; have [U2 M2] := add_newP (cp_c2 cp) U1.
have [//|U3 M3] := IH (f l cp); split=> // c; rewrite M3 /f /= M2 !inE M1 !inE; split.
- case=> [/orP [/orP [h|/eqP h]|/eqP h]|[cp' [h1 h2]]]; first by left.
  + by right; exists cp; split; auto.
  + by right; exists cp; split; auto.
  + by right; exists cp'; split; auto.
- case=> [->|[cp' [[<-|h1] h2]]]; first by left.
  + by left; case: h2 => ->; rewrite eqxx ?orbT.
  + by right; exists cp'.
Qed.

Section Nodes.
Variable n : nat -> nat.

Lemma node_list_cons c ids : node_list n (c :: ids) = [seq (c, i) | i <- iota 1 (n c)] ++ node_list n ids.
Proof. by []. Qed.

Lemma size_nodes ids : size (node_list n ids) = sumn [seq n c | c <- ids].
Proof. by elim: ids => //= c ids IH; rewrite node_list_cons size_cat size_map size_iota IH. Qed.

Lemma mem_nodes ids p : (p \in node_list n ids) = is_node n ids p.
Proof.
rewrite /is_node; apply/idP/idP.
  by case/allpairsPdep => c [i [hc]]; rewrite mem_iota add1n ltnS => /andP [h1 h2] ->; rewrite hc h1 h2.
case: p => c i /= /andP [/andP [hc h1] h2]; apply/allpairsPdep; exists c, i.
by rewrite hc mem_iota h1 add1n ltnS h2.
Qed.

Lemma uniq_nodes ids : uniq ids -> uniq (node_list n ids).
Proof.
elim: ids => //= c ids IH /andP [Nc U]; rewrite node_list_cons cat_uniq (IH U) andbT.
rewrite map_inj_uniq ?iota_uniq => [|i j [] //]; apply/hasPn => -[c' i]; rewrite mem_nodes => /andP [/andP [/= h _] _].
by apply/negP => /mapP [j _ [E _]]; rewrite -E h in Nc.
Qed.
End Nodes.

Section Index.
Variable circs : nat -> circ.
Let n (c : nat) : nat := x_n (circs c).

Lemma offset_index ids c i : uniq ids -> is_node n ids (c, i) ->
  index (c, i) (node_list n ids) = (offset circs ids c + i.-1)%N.
Proof.
elim: ids => [|c0 ids IH]; first by rewrite /is_node in_nil.
cbn [uniq offset]; move=> /andP [N0 U] /andP [/andP [hc h1] h2]; cbn [fst snd] in hc, h1, h2.
rewrite node_list_cons index_cat; case: (eqVneq c0 c) => [E|ne].
  rewrite -E in h2 *; rewrite map_f ?mem_iota ?h1 ?add1n ?ltnS //.
  rewrite index_map => [|a b [] //]; rewrite add0n.
  have hs : (i.-1 < n c0)%N by rewrite prednK.
  have Ei : nth 0%N (iota 1 (n c0)) i.-1 = i by rewrite nth_iota // add1n prednK.
  by rewrite -{1}Ei index_uniq ?iota_uniq ?size_iota.
rewrite ifN; last by apply/mapP => -[j _ [E _]]; rewrite E eqxx in ne.
move: hc; rewrite inE eq_sym (negbTE ne) /= => hc.
by rewrite size_map size_iota IH ?addnA // /is_node /= hc h1.
Qed.

Lemma sub_loopE all ids N k : (k < size (node_list n ids))%N ->
  let p := nth (0, 0)%N (node_list n ids) k in
  sub_loop circs all ids N (N + k)%N = (Z.of_nat p.2, index p.1 all).
Proof.
elim: ids N k => // c ids IH N k; rewrite node_list_cons size_cat size_map size_iota => hk /=.
rewrite nth_cat size_map size_iota ltn_add2l -/(n c); case: ltnP => hn.
  by rewrite (nth_map 0%N) ?size_iota //= nth_iota // addKn add1n.
by rewrite -(subnKC hn) addKn addnA; apply: IH; rewrite ltn_subLR.
Qed.
End Index.

(** ** The capacitance matrix *)
Lemma block_entry (n : nat -> nat) (Cm : nat -> arr) ids p q : uniq ids ->
  (p < size (node_list n ids))%N -> (q < size (node_list n ids))%N ->
  block_diag [seq (n c, Cm c) | c <- ids] p q =
  own_entry Cm (nth (0, 0)%N (node_list n ids) p) (nth (0, 0)%N (node_list n ids) q).
Proof.
elim: ids p q => // c ids IH p q /andP [Nc U]; rewrite node_list_cons size_cat size_map size_iota => hp hq.
have first k : (k < n c)%N -> nth (0, 0)%N [seq (c, i) | i <- iota 1 (n c)] k = (c, k.+1).
  by move=> hk; rewrite (nth_map 0%N) ?size_iota // nth_iota.
have other k : (n c <= k)%N -> (k < n c + size (node_list n ids))%N ->
    (nth (0, 0)%N (node_list n ids) (k - n c)).1 != c.
  move=> hk hk2; have : nth (0, 0)%N (node_list n ids) (k - n c) \in node_list n ids.
    by rewrite mem_nth // ltn_subLR.
  by rewrite mem_nodes => /andP [/andP [h _] _]; apply: contra Nc => /eqP <-.
rewrite /= !nth_cat size_map size_iota.
case: (ltnP p (n c)) => h1; case: (ltnP q (n c)) => h2 /=.
- by rewrite !first // /own_entry eqxx.
- by rewrite first // /own_entry /= eq_sym (negbTE (other _ _ _)).
- by rewrite first // /own_entry /= (negbTE (other _ _ _)).
- by apply: IH => //; rewrite ltn_subLR.
Qed.

Lemma add_capE v i j A p q :
  add_cap v i j A p q = A p q + v * (ind (p == i) - ind (p == j)) * (ind (q == i) - ind (q == j)).
Proof.
rewrite /add_cap /add_at /ind.
by case: (p == i); case: (p == j); case: (q == i); case: (q == j) => /=;
  rewrite ?subrr ?subr0 ?sub0r ?mulr0 ?mul0r ?mulrN ?mulNr ?mulr1 ?addr0 ?opprK ?addrK ?subrK.
Qed.

Lemma np_row_nat d k : (k < d)%N -> np_row d (Z.of_nat k) = Ok k.
Proof.
move=> /ltP h; rewrite /np_row /py_index; have -> : Z.leb Z0 (Z.of_nat k) = true by apply/Z.leb_le; lia.
have -> : Z.ltb (Z.of_nat k) (Z.of_nat d) = true by apply/Z.ltb_lt; lia.
by rewrite Nat2Z.id.
Qed.

(** Every mode is still there: the sizes of C agree with the numbers of modes. *)
Definition aligned (circs : nat -> circ) (ids : seq nat) : Prop :=
  forall c, c \in ids -> x_n (circs c) = t_n0 (x_st (circs c)).

Section Cap.
Variables (circs : nat -> circ) (s : store) (S : sys).
Let n (c : nat) : nat := x_n (circs c).
Let nodes := node_list n (s_ids S).
Let Cm (c : nat) : arr := x_C (circs c).
Hypothesis U : uniq (s_ids S).
Hypothesis al : aligned circs (s_ids S).

Lemma s_dimE : s_dim circs S = size nodes.
Proof. by rewrite size_nodes /s_dim; congr sumn; apply/eq_in_map => c hc; rewrite /n al. Qed.

Lemma bare_entry p q : (p < size nodes)%N -> (q < size nodes)%N ->
  bare_cap circs S p q = own_entry Cm (nth (0, 0)%N nodes p) (nth (0, 0)%N nodes q).
Proof.
move=> hp hq; rewrite -block_entry //; congr (block_diag _ p q).
by apply/eq_in_map => c hc; rewrite /n al.
Qed.

Lemma node_row c i : is_node n (s_ids S) (c, i) ->
  node_idx circs S c (Z.of_nat i) = Z.of_nat (index (c, i) nodes) /\ (index (c, i) nodes < size nodes)%N.
Proof.
move=> H; have hm := H; rewrite -mem_nodes in hm; split; last by rewrite index_mem.
rewrite offset_index // /node_idx; case/andP: H => /andP [_ /ltP]; cbn [snd] => h _.
by rewrite -plusE Nat2Z.inj_add; cbv [Nat.pred]; case: (i) h => [|k] h; [lia|rewrite Nat2Z.inj_succ; lia].
Qed.

Lemma as_nodeP c a p : as_node c a = Some p -> a = ANode (Z.of_nat p.2) /\ p.1 = c.
Proof. by case: a => [[|z|z]|] //= [<-]; rewrite /= positive_nat_Z. Qed.

Lemma pos_eq x k : x \in nodes -> (k < size nodes)%N -> (k == index x nodes) = (nth (0, 0)%N nodes k == x).
Proof.
move=> hx hk; apply/eqP/eqP => [->|<-]; first exact: nth_index.
by rewrite index_uniq // uniq_nodes.
Qed.

Lemma cap_foldE cps A : links_ok s n (s_ids S) cps ->
  exists2 M, foldl (add_couple circs s S) (Ok A) cps = Ok M &
    forall p q, (p < size nodes)%N -> (q < size nodes)%N ->
      M p q = A p q + \sum_(l <- cap_links s cps) link_entry (nth (0, 0)%N nodes p) (nth (0, 0)%N nodes q) l.
Proof.
elim: cps A => [|cp cps IH] A ok; first by exists A => // p q _ _; rewrite big_nil addr0.
have ok' : links_ok s n (s_ids S) cps by move=> c hc; apply: ok; right.
rewrite -[foldl _ _ (cp :: cps)]/(foldl (add_couple circs s S) (add_couple circs s S (Ok A) cp) cps).
case E: (ekind s (cp_el cp)); [|..].
all: swap 1 3.
- by rewrite /add_couple E; have [M EM HM] := IH A ok'; exists M => // p q hp hq; rewrite HM //= E.
- by rewrite /add_couple E; have [M EM HM] := IH A ok'; exists M => // p q hp hq; rewrite HM //= E.
have [[c1 i1] [[c2 i2] [E1 E2 h1 h2]]] := ok cp (or_introl erefl) E.
have [A1 B1] := as_nodeP E1; have [A2 B2] := as_nodeP E2; cbn [fst snd] in A1, A2, B1, B2.
have [F1 G1] := node_row h1; have [F2 G2] := node_row h2.
have -> : add_couple circs s S (Ok A) cp =
    Ok (add_cap (evalue s (cp_el cp)) (index (c1, i1) nodes) (index (c2, i2) nodes) A).
  by rewrite /add_couple E A1 A2 /= -B1 -B2 F1 F2 s_dimE !np_row_nat.
have [M -> HM] := IH (add_cap (evalue s (cp_el cp)) (index (c1, i1) nodes) (index (c2, i2) nodes) A) ok'.
exists M => // p q hp hq; rewrite HM // add_capE /= E E1 E2 /= big_cons -addrA; congr (_ + (_ + _)).
by rewrite /link_entry /= !pos_eq ?mem_nodes.
Qed.

Lemma cap_matrixE : links_ok s n (s_ids S) (s_cps S) -> exists2 M, cap_matrix circs s S = Ok M &
  forall p q, (p < size nodes)%N -> (q < size nodes)%N ->
    M p q = own_entry Cm (nth (0, 0)%N nodes p) (nth (0, 0)%N nodes q) +
            \sum_(l <- cap_links s (s_cps S)) link_entry (nth (0, 0)%N nodes p) (nth (0, 0)%N nodes q) l.
Proof.
move=> ok; have [M EM HM] := cap_foldE (bare_cap circs S) ok; exists M => // p q hp hq.
by rewrite HM // bare_entry.
Qed.

Lemma sum_nodes (F : nat * nat -> R) : \sum_(p < size nodes) F (nth (0, 0)%N nodes p) = \sum_(x <- nodes) F x.
Proof. by rewrite [RHS](big_nth (0, 0)%N) big_mkord. Qed.

Lemma sum_ind x (phi : nat * nat -> R) : x \in nodes -> \sum_(p <- nodes) ind (p == x) * phi p = phi x.
Proof.
move=> hx; rewrite (bigD1_seq x) ?uniq_nodes //= /ind eqxx mul1r big1 ?addr0 // => p /negbTE ->.
by rewrite mul0r.
Qed.

Lemma own_energy phi :
  \sum_(p <- nodes) \sum_(q <- nodes) own_entry Cm p q * phi p * phi q =
  \sum_(c <- s_ids S) circuit_energy n Cm phi c.
Proof.
rewrite /nodes /node_list big_allpairs_dep; apply: eq_big_seq => c hc; rewrite /circuit_energy.
have iota1 (F : nat -> R) m : \sum_(i <- iota 1 m) F i = \sum_(a < m) F a.+1.
  by rewrite -[iota 1 m]/(iota (1 + 0) m) iotaDl big_map -{1}[m]subn0 -/(index_iota 0 m) big_mkord.
rewrite iota1; apply: eq_bigr => a _; rewrite big_allpairs_dep (bigD1_seq c) //= [X in _ + X]big1_seq ?addr0.
  by rewrite iota1; apply: eq_bigr => b _; rewrite /own_entry eqxx.
move=> c' /andP [ne _]; rewrite big1 // => b _; by rewrite /own_entry /= eq_sym (negbTE ne) !mul0r.
Qed.

Lemma link_sum phi v x y : x \in nodes -> y \in nodes ->
  \sum_(p <- nodes) \sum_(q <- nodes) link_entry p q (v, (x, y)) * phi p * phi q = link_energy phi (v, (x, y)).
Proof.
move=> hx hy; rewrite /link_entry /link_energy; cbn [fst snd].
have E : \sum_(p <- nodes) (ind (p == x) - ind (p == y)) * phi p = phi x - phi y.
  rewrite -(sum_ind phi hx) -(sum_ind phi hy) -sumrB; apply: eq_bigr => p _; exact: mulrBl.
have -> : v * (phi x - phi y) ^+ 2 = v * (phi x - phi y) * (phi x - phi y) by rewrite expr2 mulrA.
rewrite -{1}E mulr_sumr mulr_suml; apply: eq_bigr => p _.
rewrite -E mulr_sumr; apply: eq_bigr => q _.
by rewrite -!mulrA; do 2!congr (_ * _); rewrite mulrCA.
Qed.
End Cap.
