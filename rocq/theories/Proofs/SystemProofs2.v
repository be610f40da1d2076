(** SystemProofs2.v -- lifting operators to a system, and its Hamiltonian. *)
From Coq Require Import Reals ZArith String Lia.
From Verif.Model Require Import Base Units Elements Edge LCWB HamConst.
From mathcomp Require Import all_ssreflect all_algebra.
From mathcomp Require Import complex.
From Verif.Numerics Require Import RStruct Bridge.
From Verif.Model Require Import Transform Op Ham Diag CircuitSM Partial System.
From Verif.Spec Require Import OpSpec EigSpec SystemSpec.
From Verif.Proofs Require Import OpProofs HamProofs HamProofs2 HamProofs4 NgProofs SMProofs GradProofs SystemProofs.

Set Implicit Arguments.
Unset Strict Implicit.
Unset Printing Implicit Defensive.
Import GRing.Theory.
Local Open Scope ring_scope.
Local Open Scope complex_scope.

Section Lift.
Variable S : sys.
Let n := s_sub S.
Let d (i : nat) : nat := nth 0%N (s_tr S) i.
Let z : arr := fun _ _ => 0.
Definition lift_ctx : hin := mkH (mkT 0 n 0 0 z z z z z z (fun=> 0)) (s_tr S) (fun=> 0) z.
Definition s_total : nat := (\prod_(i < n) d i)%N.

Lemma liftE A k : op_in_sys S A k = T (fun i => if i == k then A else oeye (d i)) n.
Proof. by []. Qed.

Lemma lift_acts A k : (k < n)%N -> dim A = d k -> acts_on n d k (ent A) (op_in_sys S A k).
Proof. by move=> hk dA; exact: (@emb_acts lift_ctx k A). Qed.

Lemma lift_dim A k : (k < n)%N -> dim A = d k -> dim (op_in_sys S A k) = s_total.
Proof. by move=> hk dA; have [-> _] := lift_acts hk dA. Qed.

Lemma lift_mul A B k : dim A = d k -> dim B = d k ->
  eqop (omul (op_in_sys S A k) (op_in_sys S B k)) (op_in_sys S (omul A B) k).
Proof.
move=> dA dB; rewrite !liftE; apply: eqop_trans (T_mul _) _ => [i _|]; first by case: eqP => //; rewrite dA dB.
by apply: T_eq => i _; case: eqP => // _; apply: omul1.
Qed.

Lemma lift_eye k : eqop (op_in_sys S (oeye (d k)) k) (oeye s_total).
Proof.
have -> : op_in_sys S (oeye (d k)) k = T (fun i => oeye (d i)) n.
  by rewrite liftE; apply: T_ext => i _; case: eqP => [->|].
exact: T_eye.
Qed.

Lemma lift_adj A k : eqop (oadj (op_in_sys S A k)) (op_in_sys S (oadj A) k).
Proof.
rewrite !liftE; apply: eqop_trans (T_adj _ _) _; apply: T_eq => i _; case: eqP => // _.
exact: eqop_sym (herm_eye _).
Qed.

Lemma lift_eq A B k : eqop A B -> eqop (op_in_sys S A k) (op_in_sys S B k).
Proof. by move=> H; rewrite !liftE; apply: T_eq => i _; case: eqP. Qed.

Lemma lift_herm A k : herm A -> herm (op_in_sys S A k).
Proof. by move=> H; apply: eqop_trans (lift_eq k H) (eqop_sym (lift_adj A k)). Qed.

Lemma lift2 A k B l : dim A = d k -> dim B = d l ->
  eqop (op_times_op S A k B l) (omul (op_in_sys S A k) (op_in_sys S B l)).
Proof.
move=> dA dB; rewrite /op_times_op; case: (eqVneq k l) => [E|ne].
  by rewrite -E in dB *; apply: eqop_sym; apply: lift_mul.
rewrite !liftE; apply: eqop_sym; apply: eqop_trans (T_mul _) _ => [i _|].
  by case: eqP => [->|_]; case: eqP => // E; rewrite ?dA ?dB // E.
apply: T_eq => i _; case: eqP => [->|_]; first by rewrite (negbTE ne); apply: omulA1.
by case: eqP => [->|_]; apply: omul1.
Qed.

Lemma lift_commute A k B l : dim A = d k -> dim B = d l -> k != l ->
  commute (op_in_sys S A k) (op_in_sys S B l).
Proof.
move=> dA dB ne; rewrite /commute; apply: eqop_trans (eqop_sym (lift2 dA dB)) _.
apply: eqop_trans (lift2 dB dA); rewrite /op_times_op [l == k]eq_sym (negbTE ne).
apply: (@T_eq (fun i => if i == k then A else if i == l then B else oeye (d i))
              (fun i => if i == l then B else if i == k then A else oeye (d i))) => i _.
by case: eqP => [->|_]; case: eqP => // E; rewrite E eqxx in ne.
Qed.

(** Lifting is linear. *)
Lemma lift_sub A B k a b : (k < n)%N -> dim A = d k -> dim B = d k -> (a < s_total)%N -> (b < s_total)%N ->
  ent (op_in_sys S (osub A B) k) a b = ent (op_in_sys S A k) a b - ent (op_in_sys S B k) a b.
Proof.
move=> hk dA dB ha hb; have [da [La <-]] := posn_surj ha; have [db [Lb <-]] := posn_surj hb.
have [_ ->] := lift_acts hk (dA : dim (osub A B) = d k) => //.
have [_ ->] := lift_acts hk dA => //; have [_ ->] := lift_acts hk dB => //.
by case: ifP => // _; rewrite subr0.
Qed.

Lemma dim2 A k B l : (k < n)%N -> (l < n)%N -> dim A = d k -> dim B = d l -> dim (op_times_op S A k B l) = s_total.
Proof. by move=> hk hl dA dB; have [-> _] := lift2 dA dB; rewrite /= lift_dim. Qed.
End Lift.

(** ** The charge operators in the eigenbasis *)
Lemma inner_herm v A w : herm A -> (inner v A w)^* = inner w A v.
Proof.
case=> _ H; rewrite /inner cj_sum.
transitivity (\sum_(i < dim A) \sum_(j < dim A) v i * ((ent A i j)^* * (w j)^*)).
  apply: eq_bigr => i _; rewrite cjM cjK cj_sum mulr_sumr.
  by apply: eq_bigr => j _; rewrite cjM.
rewrite exchange_big; apply: eq_bigr => j _; rewrite mulr_sumr; apply: eq_bigr => i _.
by rewrite (H j i) // [X in _ = X]mulrA [X in _ = X]mulrC [X in _ = _ * X]mulrC.
Qed.

(** The operator of node [k + 1] of a circuit in its eigenbasis. *)
Definition eigQ (x : circ) (k : nat) : op :=
  let vs := e_vecs (x_eig x) in
  Op (size vs) (fun a b => inner (nth (fun=> 0) vs a) (opQ (hof x) k) (nth (fun=> 0) vs b)).

Lemma eigQ_herm x k : herm (eigQ x k).
Proof.
split=> // a b _ _; change (ent (eigQ x k) a b = (ent (eigQ x k) b a)^*).
rewrite /eigQ; cbn [ent]; rewrite inner_herm //; exact: (mode_op_ok (hof x) Capacitive k).2.
Qed.

(** A circuit whose operators are up to date and which has been diagonalised. *)
Record ready (disp : nat -> C -> op) (x : circ) : Prop := mkRd {
  rd_good : good disp x; rd_m : x_m x <> [::];
  rd_size : size (e_vecs (x_eig x)) = size (e_freqs (x_eig x)) }.

Lemma charge_eig disp x k : ready disp x -> size (e_freqs (x_eig x)) <> 0%N -> (k < x_n x)%N ->
  charge_op_eig x (Z.of_nat k.+1) = Ok (eigQ x k).
Proof.
case=> G m0 sz nz hk; rewrite /charge_op_eig; case: (x_m x =P [::]) => [//|_].
case: (g_ops G) => // F; have -> : (size (x_m x) == 0%N) = false by apply/negbTE; rewrite size_eq0; apply/eqP.
have -> : Z.sub (Z.of_nat k.+1) (Zpos xH) = Z.of_nat k by lia.
rewrite /py_nth (fo_Q F) size_map size_iota np_row_nat // sz.
have -> : (size (e_freqs (x_eig x)) == 0%N) = false by apply/negbTE/eqP.
by rewrite (nth_map 0%N) ?size_iota // nth_iota // /eigQ sz.
Qed.

Lemma num_eigsP circs u ids l : num_eigs circs u ids = Ok l ->
  l = [seq size (e_freqs (x_eig (circs c))) | c <- ids] /\
  forall c, c \in ids -> size (e_freqs (x_eig (circs c))) <> 0%N.
Proof.
elim: ids l => [|c ids IH] l; first by case=> <-.
cbn [num_eigs]; rewrite /efreqs; case: eqP => // nz; case E: num_eigs => [l'|//] [<-].
have [El Hl] := IH _ E; split=> [|c']; first by rewrite /= El size_map.
by rewrite inE => /orP [/eqP ->|/Hl].
Qed.

Lemma systemP circs u cps S : system circs u cps = Ok S ->
  [/\ s_cps S = cps, s_ids S = all_circuits cps, s_N S = size (node_list (fun c => x_n (circs c)) (s_ids S)),
      s_tr S = [seq size (e_freqs (x_eig (circs c))) | c <- s_ids S] &
      forall c, c \in s_ids S -> size (e_freqs (x_eig (circs c))) <> 0%N].
Proof.
by rewrite /system; case E: num_eigs => [l|//] [<-] /=; have [El Hl] := num_eigsP E; split=> //; rewrite size_nodes.
Qed.

(** ** The Hamiltonian *)
Definition ocomm (A B : op) : op := osub (omul A B) (omul B A).

Section Hamil.
Variables (disp : nat -> C -> op) (circs : nat -> circ) (s : store) (u : ustate) (cps : seq couple) (S : sys).
Hypothesis made : system circs u cps = Ok S.
Hypothesis rdy : forall c, c \in s_ids S -> ready disp (circs c).
Let n (c : nat) : nat := x_n (circs c).
Let nodes := node_list n (s_ids S).
Let nd (i : nat) : nat * nat := nth (0, 0)%N nodes i.
(** The position of the circuit of system node [i], and its charge operator. *)
Definition pos_of (i : nat) : nat := index (nd i).1 (s_ids S).
Definition charge_of (i : nat) : op := eigQ (circs (nd i).1) (nd i).2.-1.

Lemma nd_node i : (i < s_N S)%N -> is_node n (s_ids S) (nd i).
Proof. by have [_ _ -> _ _] := systemP made; move=> hi; rewrite -mem_nodes mem_nth. Qed.

Lemma pos_lt i : (i < s_N S)%N -> (pos_of i < s_sub S)%N.
Proof. by move/nd_node/andP => [/andP [h _] _]; rewrite /pos_of index_mem. Qed.

Lemma sub_idxE i : (i < s_N S)%N -> sub_idx circs S i = (Z.of_nat (nd i).2, pos_of i).
Proof.
have [_ _ EN _ _] := systemP made; rewrite EN => hi.
by have := sub_loopE (circs := circs) (s_ids S) 0 hi; rewrite add0n.
Qed.

Lemma node_chargeE i : (i < s_N S)%N -> node_charge circs S i = Ok (charge_of i).
Proof.
move=> hi; rewrite /node_charge sub_idxE //; cbn [fst snd].
have /andP [/andP [h1 h2] h3] := nd_node hi; have [_ _ _ _ nz] := systemP made.
rewrite /pos_of nth_index // -[in Z.of_nat _](prednK h2) (charge_eig (rdy h1) (nz _ h1)) //.
by rewrite prednK.
Qed.

Lemma charge_dim i : (i < s_N S)%N -> dim (charge_of i) = nth 0%N (s_tr S) (pos_of i).
Proof.
move=> hi; have /andP [/andP [h1 h2] h3] := nd_node hi; have [_ _ _ -> nz] := systemP made.
by rewrite (nth_map 0%N) ?index_mem // /pos_of nth_index //= (rd_size (rdy h1)).
Qed.

Definition pair_op (i j : nat) : op := op_times_op S (charge_of i) (pos_of i) (charge_of j) (pos_of j).

Lemma QQE i j : (i < s_N S)%N -> (j < s_N S)%N -> QQ_op circs S i j = Ok (pair_op i j).
Proof. by move=> hi hj; rewrite /QQ_op !node_chargeE // !sub_idxE. Qed.

Definition q_coef (A : arr) (i j : nat) : R_ringType :=
  if i == j then halfR (A i i) else if (i < j)%N then A i j else 0.

Lemma quad_rowE A i js acc : (i < s_N S)%N -> (forall j, j \in js -> (j < s_N S)%N) ->
  exists2 a, foldl (quad_term circs S A i) (Ok acc) js = Ok a &
    forall p q, oent a p q = oent acc p q + \sum_(j <- js) (q_coef A i j)%:C * ent (pair_op i j) p q.
Proof.
move=> hi; elim: js acc => [|j js IH] acc hj; first by exists acc => // p q; rewrite big_nil addr0.
have hj1 : (j < s_N S)%N by apply: hj; rewrite inE eqxx.
have hj2 k : k \in js -> (k < s_N S)%N by move=> hk; apply: hj; rewrite inE hk orbT.
have [acc' Eacc Hacc] : exists2 acc', quad_term circs S A i (Ok acc) j = Ok acc' &
    forall p q, oent acc' p q = oent acc p q + (q_coef A i j)%:C * ent (pair_op i j) p q.
  rewrite /quad_term /q_coef; case: eqP => [E|ne].
    by rewrite /racc -E QQE //; eexists; [reflexivity|move=> p q; rewrite oent_add].
  case: ifP => _; last by exists acc => // p q; rewrite mul0r addr0.
  by rewrite /racc QQE //; eexists; [reflexivity|move=> p q; rewrite oent_add].
have [a Ea Ha] := IH acc' hj2; exists a; first by rewrite /= Eacc.
by move=> p q; rewrite Ha Hacc big_cons addrA.
Qed.

Lemma quadE A : exists2 a, quadratic_Q circs S A = Ok a & forall p q, oent a p q =
  \sum_(i < s_N S) \sum_(j < s_N S) (q_coef A i j)%:C * ent (pair_op i j) p q.
Proof.
have H ks acc : (forall i, i \in ks -> (i < s_N S)%N) ->
    exists2 a, foldl (fun acc i => foldl (quad_term circs S A i) acc (iota 0 (s_N S))) (Ok acc) ks = Ok a &
    forall p q, oent a p q = oent acc p q + \sum_(i <- ks) \sum_(j < s_N S) (q_coef A i j)%:C * ent (pair_op i j) p q.
  elim: ks acc => [|i ks IH] acc hk; first by exists acc => // p q; rewrite big_nil addr0.
  have [|j|a Ea Ha] := @quad_rowE A i (iota 0 (s_N S)) acc; first by apply: hk; rewrite inE eqxx.
    by rewrite mem_iota.
  have [j hj|b Eb Hb] := IH a; first by apply: hk; rewrite inE hj orbT.
  exists b; first by rewrite /= Ea.
  move=> p q; rewrite Hb Ha big_cons addrA; congr (_ + _ + _).
  by rewrite -{1}[s_N S]subn0 -/(index_iota 0 (s_N S)) big_mkord.
have [i|a Ea Ha] := H (iota 0 (s_N S)) None; first by rewrite mem_iota.
exists a => // p q; rewrite Ha /= add0r.
by rewrite -{1}[s_N S]subn0 -/(index_iota 0 (s_N S)) big_mkord.
Qed.

Definition local_op (i : nat) : op :=
  let f := e_freqs (x_eig (circs (nth 0%N (s_ids S) i))) in
  op_in_sys S (odiag (size f) (fun k => (nth 0 [seq in_unit u w | w <- f] k)%:C)) i.

Lemma localE : exists2 a, H_local circs u S = Ok a &
  forall p q, oent a p q = \sum_(i < s_sub S) ent (local_op i) p q.
Proof.
have [_ _ _ _ nz] := systemP made.
have [i hi|a Ea Ha] := @racc_sum nat (local_term circs u S) local_op (iota 0 (s_sub S)) None.
  have hi' : (i < s_sub S)%N by move: (inP hi); rewrite mem_iota.
  rewrite /local_term /efreqs; case: eqP => [E|_]; first by case: (nz (nth 0%N (s_ids S) i)); rewrite ?mem_nth.
  by rewrite size_map.
exists a => // p q; rewrite Ha /= add0r.
by rewrite -{1}[s_sub S]subn0 -/(index_iota 0 (s_sub S)) big_mkord.
Qed.

Lemma s_hamiltonianE H : s_hamiltonian circs s u S = Ok H -> exists2 A, int_coef circs s S = Ok A &
  forall p q, oent H p q = \sum_(i < s_sub S) ent (local_op i) p q +
    (in_unit u 1)%:C * \sum_(i < s_N S) \sum_(j < s_N S) (q_coef A i j)%:C * ent (pair_op i j) p q.
Proof.
have [l El Hl] := localE; rewrite /s_hamiltonian El /H_int; case EA: int_coef => [A|//].
have [a Ea Ha] := quadE A; rewrite Ea => -[<-]; exists A => // p q; rewrite oent_acc Hl -Ha; congr (_ + _).
by case: (a) => //=; rewrite mulr0.
Qed.
End Hamil.

Lemma adj_mul A B : dim B = dim A -> herm A -> herm B -> eqop (oadj (omul A B)) (omul B A).
Proof.
move=> d [_ HA] [_ HB]; split=> //= i j hi hj; rewrite cj_sum d; apply: eq_bigr => k _.
have E1 : (ent B k i)^* = ent B i k by rewrite [RHS]HB ?d.
have E2 : (ent A j k)^* = ent A k j by rewrite [RHS]HA.
by rewrite cjM mulrC E1 E2.
Qed.

Section Defect.
Variables (disp : nat -> C -> op) (circs : nat -> circ) (s : store) (u : ustate) (cps : seq couple) (S : sys).
Hypothesis made : system circs u cps = Ok S.
Hypothesis rdy : forall c, c \in s_ids S -> ready disp (circs c).

Lemma acc_dim (K : Type) (f : K -> res op) ks A r : foldl (racc f) (Ok (Some A)) ks = Ok r ->
  exists2 B, r = Some B & dim B = dim A.
Proof.
elim: ks A => [|k ks IH] A /=; first by case=> <-; exists A.
case: (f k) => [X|e]; last by have -> : foldl (racc f) (Err e) ks = Err e by elim: ks {IH}.
by move=> /IH [B -> dB]; exists B.
Qed.

Lemma local_dim i : (i < s_sub S)%N -> dim (local_op circs u S i) = s_total S.
Proof.
move=> hi; have [_ _ _ Et _] := systemP made; apply: lift_dim => //=.
by rewrite Et (nth_map 0%N).
Qed.

Lemma hamiltonian_dim H : s_hamiltonian circs s u S = Ok (Some H) -> (0 < s_sub S)%N -> dim H = s_total S.
Proof.
rewrite /s_hamiltonian => + s0; case El: H_local => [l|//]; case: H_int => [h|//] [Eh].
have [B EB dB] : exists2 B, l = Some B & dim B = s_total S.
  move: El; rewrite /H_local -(prednK s0) /=.
  have [_ _ _ _ nz] := systemP made.
  have -> : local_term circs u S 0 = Ok (local_op circs u S 0).
    rewrite /local_term /efreqs; case: eqP => [E|_]; first by case: (nz (nth 0%N (s_ids S) 0)); rewrite ?mem_nth.
    by rewrite size_map.
  by move=> /acc_dim [B -> dB]; exists B => //; rewrite dB local_dim.
by move: Eh; rewrite EB; case: h => [h|] [<-].
Qed.

Lemma local_herm i : herm (local_op circs u S i).
Proof. by apply: lift_herm; apply: herm_diag. Qed.

Lemma pair_defect i j a b : (i < s_N S)%N -> (j < s_N S)%N -> (a < s_total S)%N -> (b < s_total S)%N ->
  ent (pair_op circs S i j) a b - (ent (pair_op circs S i j) b a)^* =
  if pos_of circs S i == pos_of circs S j
  then ent (op_in_sys S (ocomm (charge_of circs S i) (charge_of circs S j)) (pos_of circs S i)) a b else 0.
Proof.
move=> hi hj ha hb.
have di := charge_dim made rdy hi; have dj := charge_dim made rdy hj.
have pi := pos_lt made hi; have pj := pos_lt made hj.
have Hi := eigQ_herm (circs (nth (0, 0)%N (node_list (fun c => x_n (circs c)) (s_ids S)) i).1)
   (nth (0, 0)%N (node_list (fun c => x_n (circs c)) (s_ids S)) i).2.-1.
have Hj := eigQ_herm (circs (nth (0, 0)%N (node_list (fun c => x_n (circs c)) (s_ids S)) j).1)
   (nth (0, 0)%N (node_list (fun c => x_n (circs c)) (s_ids S)) j).2.-1.
rewrite -/(charge_of circs S i) in Hi; rewrite -/(charge_of circs S j) in Hj.
rewrite /pair_op; case: (eqVneq (pos_of circs S i) (pos_of circs S j)) => [E|ne].
  rewrite -E in dj *; rewrite /op_times_op eqxx.
  have dij : dim (omul (charge_of circs S i) (charge_of circs S j)) = nth 0%N (s_tr S) (pos_of circs S i) by [].
  have dji : dim (omul (charge_of circs S j) (charge_of circs S i)) = nth 0%N (s_tr S) (pos_of circs S i) by [].
  rewrite /ocomm lift_sub //; congr (_ - _).
  have [_ E2] := eqop_trans (lift_adj S (omul (charge_of circs S i) (charge_of circs S j)) (pos_of circs S i))
                            (lift_eq S (pos_of circs S i) (adj_mul (etrans dj (esym di)) Hi Hj)).
  by apply: E2; rewrite /= lift_dim.
have Li := lift_herm S (pos_of circs S i) Hi; have Lj := lift_herm S (pos_of circs S j) Hj.
have [_ E1] := lift2 di dj; have dd := dim2 pi pj di dj; rewrite !E1 ?dd //.
have Hc := lift_commute di dj ne.
have [_ Hm] := herm_mul (etrans (lift_dim pj dj) (esym (lift_dim pi di))) Li Lj Hc.
by rewrite Hm ?subrr //= lift_dim.
Qed.

(** The anti-Hermitian part of the Hamiltonian. *)
Lemma defectE H A : s_hamiltonian circs s u S = Ok (Some H) -> int_coef circs s S = Ok A ->
  forall a b, (a < s_total S)%N -> (b < s_total S)%N ->
  ent H a b - (ent H b a)^* =
  \sum_(i < s_N S) \sum_(j < s_N S | (i < j)%N && (pos_of circs S i == pos_of circs S j))
    (in_unit u 1 * A i j)%:C *
    ent (op_in_sys S (ocomm (charge_of circs S i) (charge_of circs S j)) (pos_of circs S i)) a b.
Proof.
move=> EH EA a b ha hb; have [A' EA' HA'] := s_hamiltonianE made rdy EH.
have : A' = A by move: EA'; rewrite EA => -[].
move=> EE; rewrite {}EE in HA'.
have Ha : ent H a b = _ := HA' a b; have Hb : ent H b a = _ := HA' b a; rewrite Ha Hb cjD cjM cjR cj_sum.
have HL : \sum_(i < s_sub S) ent (local_op circs u S i) a b = \sum_(i < s_sub S) (ent (local_op circs u S i) b a)^*.
  by apply: eq_bigr => i _; have [_ HI] := local_herm i; rewrite HI ?local_dim.
rewrite -HL opprD addrACA subrr add0r -mulrBr cj_sum -sumrB mulr_sumr; apply: eq_bigr => i _.
rewrite cj_sum -sumrB mulr_sumr [RHS]big_mkcond /=; apply: eq_bigr => j _.
rewrite cjM cjR -mulrBr pair_defect // /q_coef.
case: (ltngtP i j) => [lt|gt|E] /=.
- case: ifP => _; last by rewrite !mulr0.
  by rewrite [X in _ = X * _]cRM mulrA.
- by rewrite cR0 mul0r mulr0.
- have EE : i = j by apply: val_inj.
  have dj := charge_dim made rdy (ltn_ord j); have pj := pos_lt made (ltn_ord j).
  by rewrite EE eqxx /ocomm lift_sub ?subrr ?mulr0.
Qed.
End Defect.
