(** CompositeProofs.v -- matrix elements between product states. *)
From Coq Require Import Reals ZArith String Lia.
From Verif.Model Require Import Base Units Elements Edge LCWB HamConst.
From mathcomp Require Import all_ssreflect all_algebra.
From mathcomp Require Import complex.
From Verif.Numerics Require Import RStruct Bridge.
From Verif.Model Require Import Transform Op Ham Diag CircuitSM Partial System.
From Verif.Spec Require Import OpSpec EigSpec PerturbSpec SessionSpec SystemSpec CompositeSpec.
From Verif.Proofs Require Import OpProofs HamProofs HamProofs2 HamProofs3 HamProofs4 SMProofs SystemProofs SystemProofs2 PerturbProofs.

Set Implicit Arguments.
Unset Strict Implicit.
Unset Printing Implicit Defensive.
Import GRing.Theory.
Local Open Scope ring_scope.
Local Open Scope complex_scope.

Lemma inner_eqop v A B w : eqop A B -> inner v A w = inner v B w.
Proof.
case=> dA HA; rewrite /inner -dA; apply: eq_bigr => i _; congr (_ * _); apply: eq_bigr => j _.
by rewrite HA.
Qed.
Lemma inner_ext v v' A w w' : (forall i, (i < dim A)%N -> v i = v' i) -> (forall i, (i < dim A)%N -> w i = w' i) ->
  inner v A w = inner v' A w'.
Proof.
move=> Hv Hw; rewrite /inner; apply: eq_bigr => i _; rewrite Hv //; congr (_ * _).
by apply: eq_bigr => j _; rewrite Hw.
Qed.
Lemma inner_eye v w d : inner v (oeye d) w = dot d v w.
Proof.
rewrite /inner /dot /=; apply: eq_bigr => i _; congr (_ * _); rewrite (bigD1 i) //= eqxx mul1r.
by rewrite big1 ?addr0 // => j ne; rewrite eq_sym val_eqE (negbTE ne) mul0r.
Qed.

Lemma inner_kron v w A B v' w' :
  inner (fun x => v (x %/ dim B)%N * w (x %% dim B)%N) (kron A B) (fun x => v' (x %/ dim B)%N * w' (x %% dim B)%N) =
  inner v A v' * inner w B w'.
Proof.
pose g x y : C := (v x * w y)^* * \sum_(j < dim A * dim B)
   (ent A x (j %/ dim B)%N * ent B y (j %% dim B)%N) * (v' (j %/ dim B)%N * w' (j %% dim B)%N).
rewrite {1}/inner [dim (kron A B)]/=; transitivity (\sum_(k < dim A * dim B) g (k %/ dim B)%N (k %% dim B)%N).
  by apply: eq_bigr.
rewrite sum_divmod {1}/inner mulr_suml; apply: eq_bigr => x _; rewrite /inner mulr_sumr; apply: eq_bigr => y _.
rewrite /g (sum_divmod _ _ (fun i j => ent A x i * ent B y j * (v' i * w' j))) cjM mulrACA; congr (_ * _).
rewrite mulr_suml; apply: eq_bigr => i _; rewrite mulr_sumr; apply: eq_bigr => j _; exact: mulrACA.
Qed.

(** Matrix elements of tensor products are products. *)
Lemma inner_T D F psi phi n : (forall k, (k < n)%N -> dim (F k) = D k) ->
  inner (product_state D psi n) (T F n) (product_state D phi n) = \prod_(k < n) inner (psi k) (F k) (phi k).
Proof.
case: n => [|n] HF; first by rewrite big_ord0 T0 inner_eye /dot big_ord1 -[product_state D psi 0 _]/(1 : C) -[product_state D phi 0 _]/(1 : C) cj1 mulr1.
elim: n HF => [|n IH] HF.
  by rewrite T1 big_ord1; apply: inner_ext => i hi; rewrite /= mul1r modn_small // -HF.
rewrite TS big_ord_recr /= -IH => [|k hk]; last by apply: HF; rewrite ltnW.
by rewrite -inner_kron HF.
Qed.

(** An operator that acts on one factor is the tensor product with identities. *)
Lemma acts_T n D k A X : (k < n)%N -> dim A = D k -> acts_on n D k (ent A) X ->
  eqop X (T (fun i => if i == k then A else oeye (D i)) n).
Proof.
move=> hk dA [dX EX].
have dF i : dim (if i == k then A else oeye (D i)) = D i by case: eqP => [->|].
have dT : dim (T (fun i => if i == k then A else oeye (D i)) n) = (\prod_(k < n) D k)%N.
  by rewrite T_dim; apply: eq_bigr => i _.
split=> [|x y]; first by rewrite dX dT.
rewrite dX => /posn_surj [d [Hd <-]] /posn_surj [d' [Hd' <-]].
rewrite EX // (@T_ent _ n D d d') => [|i _|//|//]; last exact: dF.
case: ifP => [/forallP H|/negbT]; last first.
  rewrite negb_forall; case/existsP => i; rewrite negb_or => /andP [n1 n2].
  by rewrite (bigD1 i) //= (negbTE n1) /= (negbTE n2) mul0r.
rewrite (bigD1 (Ordinal hk)) //= eqxx big1 ?mulr1 // => i ne.
have := H i; rewrite -[k]/(nat_of_ord (Ordinal hk)) val_eqE (negbTE ne) /= => /eqP ->.
by rewrite eqxx.
Qed.

(** ** The system and the whole space *)
Section Whole.
Variables (disp : nat -> C -> op) (circs : nat -> circ) (s : store) (u : ustate) (cps : seq couple) (S : sys).
Hypothesis made : system circs u cps = Ok S.
Hypothesis rdy : forall c, c \in s_ids S -> ready disp (circs c).
Let n := s_sub S.
Let N := s_N S.
Let nn (c : nat) : nat := x_n (circs c).
Let tr (k : nat) : nat := nth 0%N (s_tr S) k.
Let circ_at (k : nat) : circ := circs (nth 0%N (s_ids S) k).
Let vs (k : nat) : seq cvec := e_vecs (x_eig (circ_at k)).
Let state (d : nat -> nat) (k : nat) : cvec := nth (fun=> 0) (vs k) (d k).
Variable Hm : nat -> op.
Let D (k : nat) : nat := dim (Hm k).
Hypothesis tot : forall k, (k < n)%N -> total (hof (circ_at k)) = D k.
Hypothesis onb : forall k, (k < n)%N -> orthonormal (D k) (vs k).
Hypothesis eig : forall k a, (k < n)%N -> (a < size (vs k))%N ->
  eigenpair (Hm k) (nth 0 (e_freqs (x_eig (circ_at k))) a)%:C (nth (fun=> 0) (vs k) a).

Lemma tr_vs k : (k < n)%N -> tr k = size (vs k).
Proof.
move=> hk; have [_ _ _ E _] := systemP made; rewrite /tr E (nth_map 0%N) // /vs /circ_at.
by rewrite (rd_size (rdy _)) // mem_nth.
Qed.

Variables d d' : nat -> nat.
Hypothesis Ld : legal tr d n.
Hypothesis Ld' : legal tr d' n.
Let Psi : cvec := product_state D (state d) n.
Let Psi' : cvec := product_state D (state d') n.

Lemma state_dot k : (k < n)%N -> inner (state d k) (oeye (D k)) (state d' k) = ent (oeye (tr k)) (d k) (d' k).
Proof. by move=> hk; rewrite inner_eye onb -?tr_vs //; [exact: Ld|exact: Ld']. Qed.

(** Matrix elements between products of kept states, factor by factor. *)
Lemma compress F G : (forall k, (k < n)%N -> dim (F k) = D k) -> (forall k, (k < n)%N -> dim (G k) = tr k) ->
  (forall k, (k < n)%N -> inner (state d k) (F k) (state d' k) = ent (G k) (d k) (d' k)) ->
  inner Psi (T F n) Psi' = ent (T G n) (posn tr d n) (posn tr d' n).
Proof.
move=> HF HG E; rewrite inner_T // (@T_ent G n tr d d') //.
by apply: eq_bigr => k _; apply: E.
Qed.

(** The circuits' Hamiltonians. *)
Lemma compress_local k X : (k < n)%N -> acts_on n D k (ent (Hm k)) X ->
  (in_unit u 1)%:C * inner Psi X Psi' = ent (local_op circs u S k) (posn tr d n) (posn tr d' n).
Proof.
move=> hk aX; rewrite (inner_eqop _ _ (acts_T hk (erefl : dim (Hm k) = D k) aX)).
have sz : size (e_freqs (x_eig (circ_at k))) = size (vs k) by rewrite /vs (rd_size (rdy _)) // mem_nth.
rewrite inner_T => [|i _]; last by case: eqP => [->|].
rewrite /local_op liftE (@T_ent _ n tr d d') // => [|i hi]; last first.
  by case: eqP => [->|//] /=; rewrite sz -tr_vs.
rewrite (bigD1 (Ordinal hk)) //= [in RHS](bigD1 (Ordinal hk)) //= !eqxx mulrA; congr (_ * _); last first.
  apply: eq_bigr => i ne; rewrite -[k]/(nat_of_ord (Ordinal hk)) val_eqE (negbTE ne).
  exact: state_dot.
have hd : (d k < size (vs k))%N by rewrite -tr_vs //; exact: Ld.
have hd' : (d' k < size (vs k))%N by rewrite -tr_vs //; exact: Ld'.
have -> : inner (state d k) (Hm k) (state d' k) =
    (nth 0 (e_freqs (x_eig (circ_at k))) (d' k))%:C * (if d k == d' k then 1 else 0).
  rewrite -(onb hk hd hd') /inner /dot mulr_sumr; apply: eq_bigr => i _.
  by rewrite (eig hk hd').1 // mulrCA.
rewrite /odiag; cbn [ent]; case: eqP => [E|_]; last by rewrite !mulr0.
rewrite mulr1 -cRM (nth_map 0) -?E ?sz //; congr (_%:C).
by rewrite /in_unit -RmultE /Rdiv Rmult_1_l Rmult_comm.
Qed.

(** Two charges: of different circuits exactly, of the same circuit up to the leak. *)
Variable Q : nat -> op.
Hypothesis HQ : forall i, (i < N)%N -> Q i = opQ (hof (circs (nth (0, 0)%N (node_list nn (s_ids S)) i).1))
                                               (nth (0, 0)%N (node_list nn (s_ids S)) i).2.-1.
Let pos (i : nat) : nat := index (nth (0, 0)%N (node_list nn (s_ids S)) i).1 (s_ids S).

Lemma pos_lt' i : (i < N)%N -> (pos i < n)%N.
Proof. exact: (pos_lt made). Qed.
Lemma charge_ent i a b : (i < N)%N -> ent (charge_of circs S i) a b =
  inner (nth (fun=> 0) (vs (pos i)) a) (Q i) (nth (fun=> 0) (vs (pos i)) b).
Proof.
move=> hi; have /andP [/andP [h1 _] _] := nd_node made hi.
by rewrite /charge_of /eigQ /= HQ // /vs /circ_at /pos nth_index.
Qed.

Lemma dim_Q i : (i < N)%N -> dim (Q i) = D (pos i).
Proof.
move=> hi; have /andP [/andP [h1 _] _] := nd_node made hi.
by rewrite HQ // dim_opQ -tot ?pos_lt' // /circ_at /pos nth_index.
Qed.
Lemma dim_charge i : (i < N)%N -> dim (charge_of circs S i) = tr (pos i).
Proof. exact: (charge_dim made rdy). Qed.

Definition same_else (p : nat) : bool := [forall k : 'I_n, ((k : nat) == p) || (d k == d' k)].

Lemma compress_pair i j X Y : (i < N)%N -> (j < N)%N ->
  acts_on n D (pos i) (ent (Q i)) X -> acts_on n D (pos j) (ent (Q j)) Y ->
  inner Psi (omul X Y) Psi' = ent (pair_op circs S i j) (posn tr d n) (posn tr d' n) +
    (if (pos i == pos j) && same_else (pos i) then leak (vs (pos i)) (Q i) (Q j) (d (pos i)) (d' (pos i)) else 0).
Proof.
move=> hi hj aX aY; have pi := pos_lt' hi; have pj := pos_lt' hj.
pose F l (k : nat) := if k == pos l then Q l else oeye (D k).
have dF l k : (l < N)%N -> dim (F l k) = D k by move=> hl; rewrite /F; case: eqP => [->|//]; exact: dim_Q.
have EX : eqop X (T (F i) n) by apply: acts_T aX => //; exact: dim_Q.
have EY : eqop Y (T (F j) n) by apply: acts_T aY => //; exact: dim_Q.
have EXY : eqop (omul X Y) (T (fun k => omul (F i k) (F j k)) n).
  apply: eqop_trans (omul_eq EX EY _) _; first by rewrite aX.1 aY.1.
  by apply: T_mul => k _; rewrite !dF.
rewrite (inner_eqop _ _ EXY) inner_T => [|k _]; last by rewrite /= dF.
have ey k : (k < n)%N -> inner (state d k) (omul (oeye (D k)) (oeye (D k))) (state d' k) = ent (oeye (tr k)) (d k) (d' k).
  by move=> hk; rewrite (inner_eqop _ _ (omul1 (erefl : D k = dim (oeye (D k))))) state_dot.
rewrite /pair_op /op_times_op -/(pos i) -/(pos j); case: (eqVneq (pos i) (pos j)) => [E|ne] /=; last first.
  rewrite addr0 -/(T (fun k => if k == pos i then charge_of circs S i else
     if k == pos j then charge_of circs S j else oeye (tr k)) n) (@T_ent _ n tr d d') // => [|k hk]; last first.
    by case: eqP => [->|_]; [exact: dim_charge|case: eqP => [->|//]; exact: dim_charge].
  apply: eq_bigr => k _; rewrite /F; case: eqP => [Ek|_].
    rewrite Ek (negbTE ne) (inner_eqop _ _ (omulA1 _)) ?dim_Q // charge_ent //.
  case: eqP => [Ek|_]; last exact: ey.
  by rewrite Ek (inner_eqop _ _ (omul1 _)) ?dim_Q // charge_ent.
rewrite liftE (@T_ent _ n tr d d') // => [|k hk]; last by case: eqP => [->|//]; exact: dim_charge.
rewrite (bigD1 (Ordinal pi)) //= [in RHS](bigD1 (Ordinal pi)) //= !eqxx.
have -> : \prod_(k < n | k != Ordinal pi) inner (state d k) (omul (F i k) (F j k)) (state d' k) =
          if same_else (pos i) then 1 else 0.
  rewrite /same_else; case: ifP => [/forallP H|/negbT].
    apply: big1 => k nk; have := H k; rewrite -[pos i]/(nat_of_ord (Ordinal pi)) val_eqE (negbTE nk) /= => /eqP Ed.
    have nk' : (k : nat) == pos i = false by rewrite -[pos i]/(nat_of_ord (Ordinal pi)) val_eqE (negbTE nk).
    by rewrite /F -E nk' ey // /= Ed eqxx.
  rewrite negb_forall; case/existsP => k; rewrite negb_or => /andP [n1 n2].
  rewrite (bigD1 k) /=; last by rewrite -val_eqE.
  by rewrite /F -E (negbTE n1) ey // /= (negbTE n2) mul0r.
have -> : \prod_(k < n | k != Ordinal pi)
    ent (if (k : nat) == pos i then omul (charge_of circs S i) (charge_of circs S j) else oeye (tr k)) (d k) (d' k) =
    if same_else (pos i) then 1 else 0.
  rewrite /same_else; case: ifP => [/forallP H|/negbT].
    apply: big1 => k nk; have := H k; rewrite -[pos i]/(nat_of_ord (Ordinal pi)) val_eqE (negbTE nk) /= => /eqP Ed.
    by rewrite Ed eqxx.
  rewrite negb_forall; case/existsP => k; rewrite negb_or => /andP [n1 n2].
  rewrite (bigD1 k) /=; last by rewrite -val_eqE.
  by rewrite (negbTE n1) /= (negbTE n2) mul0r.
case: same_else; last by rewrite !mulr0 addr0.
have -> : ent (omul (charge_of circs S i) (charge_of circs S j)) (d (pos i)) (d' (pos i)) =
    \sum_(l < size (vs (pos i))) inner (state d (pos i)) (Q i) (nth (fun=> 0) (vs (pos i)) l) *
                               inner (nth (fun=> 0) (vs (pos i)) l) (Q j) (state d' (pos i)).
  rewrite /omul; cbn [ent]; rewrite dim_charge // tr_vs //; apply: eq_bigr => l _.
  by rewrite !charge_ent // -E.
by rewrite !mulr1 /leak /F -E eqxx addrC subrK.
Qed.

Lemma inner_sum (I : finType) (g : I -> op) (c : I -> C) (m : nat) v w : (forall k, dim (g k) = m) ->
  inner v (Op m (fun x y => \sum_k c k * ent (g k) x y)) w = \sum_k c k * inner v (g k) w.
Proof.
move=> Hd; rewrite /inner /=; under [RHS]eq_bigr => k _ do rewrite Hd mulr_sumr.
rewrite exchange_big; apply: eq_bigr => i _.
transitivity ((v i)^* * \sum_k c k * \sum_(j < m) ent (g k) i j * w j); last first.
  by rewrite mulr_sumr; apply: eq_bigr => k _; rewrite mulrCA.
congr (_ * _); under eq_bigr => j _ do rewrite mulr_suml.
by rewrite exchange_big; apply: eq_bigr => k _; rewrite mulr_sumr; apply: eq_bigr => j _; rewrite mulrA.
Qed.

(** The quadratic form of the charges with a symmetric matrix. *)
Lemma half_form (X : nat -> nat -> C) A : (forall i j, (i < N)%N -> (j < N)%N -> A i j = A j i) ->
  (forall i j, (i < N)%N -> (j < N)%N -> X i j = X j i) ->
  \sum_(i < N) \sum_(j < N) (halfR (A i j))%:C * X i j = \sum_(i < N) \sum_(j < N) (q_coef A i j)%:C * X i j.
Proof.
move=> SA SX; have := half_sumE SA SX; rewrite /half_sum => E.
have two : (2%:R : C) != 0 by rewrite Num.Theory.pnatr_eq0.
apply: (mulfI two); transitivity (\sum_(i < N) \sum_(j < N) (A i j)%:C * X i j).
  rewrite mulr_sumr; apply: eq_bigr => i _; rewrite mulr_sumr; apply: eq_bigr => j _.
  by rewrite mulrA two_half.
rewrite -E; congr (_ * _); apply: eq_bigr => i _; rewrite [in RHS](bigID (fun j : 'I_N => (i <= j)%N)) /=.
rewrite [X in _ = _ + X]big1 ?addr0 => [|j]; last first.
  rewrite -ltnNge /q_coef => lt; rewrite gtn_eqF // ltnNge (ltnW lt) /= cR0 mul0r //.
apply: eq_bigr => j le; rewrite /q_coef; case: eqP => [->//|ne].
by rewrite ltn_neqAle le andbT; case: eqP.
Qed.

Variables HH QQ : nat -> op.
Hypothesis aH : forall k, (k < n)%N -> acts_on n D k (ent (Hm k)) (HH k).
Hypothesis aQ : forall i, (i < N)%N -> acts_on n D (pos i) (ent (Q i)) (QQ i).

Lemma QQ_commute i j : (i < N)%N -> (j < N)%N -> eqop (omul (QQ i) (QQ j)) (omul (QQ j) (QQ i)).
Proof.
move=> hi hj; pose F l (k : nat) := if k == pos l then Q l else oeye (D k).
have dF l k : (l < N)%N -> dim (F l k) = D k by move=> hl; rewrite /F; case: eqP => [->|//]; exact: dim_Q.
have EX l : (l < N)%N -> eqop (QQ l) (T (F l) n) by move=> hl; apply: acts_T (aQ hl); [exact: pos_lt'|exact: dim_Q].
have step a b : (a < N)%N -> (b < N)%N -> eqop (omul (QQ a) (QQ b)) (T (fun k => omul (F a k) (F b k)) n).
  move=> ha hb; apply: eqop_trans (omul_eq (EX a ha) (EX b hb) _) _; first by rewrite (aQ ha).1 (aQ hb).1.
  by apply: T_mul => k _; rewrite !dF.
apply: eqop_trans (step _ _ hi hj) (eqop_trans _ (eqop_sym (step _ _ hj hi))); apply: T_eq => k _.
rewrite /F; case: (k =P pos i) => [Ei|_]; case: (k =P pos j) => [Ej|_] //.
- have /andP [/andP [h1 h2] _] := nd_node made hi; have /andP [/andP [h3 h4] _] := nd_node made hj.
  have E : (nth (0, 0)%N (node_list nn (s_ids S)) i).1 = (nth (0, 0)%N (node_list nn (s_ids S)) j).1.
    have := etrans (esym Ei) Ej; rewrite /pos => E.
    by rewrite -(nth_index 0%N h1) E nth_index.
  rewrite !HQ // E; set a := _.-1; set b := _.-1; case: (eqVneq a b) => [->//|]; exact: opQ_commute.
- by apply: eqop_trans (omulA1 _) (eqop_sym (omul1 _)); rewrite dim_Q // Ei.
- by apply: eqop_trans (omul1 _) (eqop_sym (omulA1 _)); rewrite dim_Q // Ej.
Qed.

(** The matrix element of the whole Hamiltonian between products of kept states. *)
Lemma compress_all A H : (forall i j, (i < N)%N -> (j < N)%N -> A i j = A j i) ->
  int_coef circs s S = Ok A -> s_hamiltonian circs s u S = Ok (Some H) ->
  (in_unit u 1)%:C * inner Psi (composite n N D HH QQ A) Psi' =
  ent H (posn tr d n) (posn tr d' n) +
  (in_unit u 1)%:C * \sum_(i < N) \sum_(j < N) (q_coef A i j)%:C *
    (if (pos i == pos j) && same_else (pos i) then leak (vs (pos i)) (Q i) (Q j) (d (pos i)) (d' (pos i)) else 0).
Proof.
move=> SA EA EH; have [A' EA' HE] := s_hamiltonianE made rdy EH.
have EAA : A' = A by move: EA'; rewrite EA => -[].
rewrite {}EAA {EA'} in HE.
have := HE (posn tr d n) (posn tr d' n); rewrite -[oent _ _ _]/(ent H _ _) => ->.
pose M := (\prod_(k < n) D k)%N.
have split_inner : inner Psi (composite n N D HH QQ A) Psi' =
    \sum_(k < n) inner Psi (HH k) Psi' + \sum_(i < N) \sum_(j < N) (halfR (A i j))%:C * inner Psi (omul (QQ i) (QQ j)) Psi'.
  transitivity (\sum_(k < n) 1 * inner Psi (HH k) Psi' +
     \sum_(p : 'I_N * 'I_N) (halfR (A p.1 p.2))%:C * inner Psi (omul (QQ p.1) (QQ p.2)) Psi'); last first.
    congr (_ + _); first by apply: eq_bigr => k _; rewrite mul1r.
    by rewrite (pair_bigA _ (fun i j => (halfR (A (nat_of_ord i) (nat_of_ord j)))%:C * inner Psi (omul (QQ (nat_of_ord i)) (QQ (nat_of_ord j))) Psi')).
  rewrite -(@inner_sum _ (fun k : 'I_n => HH k) (fun=> 1) M); last by move=> k; rewrite (aH (ltn_ord k)).1.
  rewrite -(@inner_sum _ (fun p : 'I_N * 'I_N => omul (QQ p.1) (QQ p.2)) (fun p => (halfR (A p.1 p.2))%:C) M); last first.
    by move=> p; rewrite /= (aQ (ltn_ord _)).1.
  rewrite /inner /= -big_split; apply: eq_bigr => a _ /=; rewrite -mulrDr -big_split /=; congr (_ * _).
  apply: eq_bigr => b _; rewrite -mulrDl; congr (_ * _); congr (_ + _).
    by apply: eq_bigr => k _; rewrite mul1r.
  by rewrite (pair_bigA _ (fun i j : 'I_N => (halfR (A i j))%:C * ent (omul (QQ i) (QQ j)) a b)).
rewrite split_inner mulrDr mulr_sumr -addrA; congr (_ + _).
  by apply: eq_bigr => k _; rewrite (compress_local (ltn_ord k) (aH (ltn_ord k))).
rewrite (half_form (X := fun i j => inner Psi (omul (QQ i) (QQ j)) Psi') SA) => [|i j hi hj]; last first.
  exact: inner_eqop (QQ_commute hi hj).
rewrite -mulrDr -big_split; congr (_ * _); apply: eq_bigr => i _; rewrite -big_split; apply: eq_bigr => j _ /=.
by rewrite (compress_pair (ltn_ord i) (ltn_ord j) (aQ (ltn_ord i)) (aQ (ltn_ord j))) mulrDr.
Qed.

Lemma herm_eqop X Y : eqop X Y -> herm Y -> herm X.
Proof.
case=> dX HX [_ HY]; split=> //= a b ha hb; rewrite !HX //; rewrite dX in ha hb.
by rewrite HY.
Qed.
Lemma acts_herm k B X : (k < n)%N -> dim B = D k -> herm B -> acts_on n D k (ent B) X -> herm X.
Proof.
move=> hk dB hB aX; apply: herm_eqop (acts_T hk dB aX) _; apply: herm_T => i _.
by case: eqP => // _; exact: herm_eye.
Qed.

Lemma composite_herm A : (forall k, (k < n)%N -> herm (Hm k)) -> herm (composite n N D HH QQ A).
Proof.
move=> hH; have hHH k : (k < n)%N -> herm (HH k) by move=> hk; apply: (acts_herm hk erefl (hH _ hk)) (aH hk).
have hQ i : (i < N)%N -> herm (Q i).
  by move=> hi; rewrite HQ // opQE; apply: herm_one => k; apply: herm_Qiso.
have hQQ i : (i < N)%N -> herm (QQ i).
  by move=> hi; apply: (acts_herm (pos_lt' hi) (dim_Q hi) (hQ _ hi)) (aQ hi).
have hP i j : (i < N)%N -> (j < N)%N -> herm (omul (QQ i) (QQ j)).
  by move=> hi hj; apply: herm_mul; rewrite ?(aQ hi).1 ?(aQ hj).1 //; [exact: hQQ|exact: hQQ|exact: QQ_commute].
split=> // a b ha hb; rewrite /composite /= cjD; rewrite /composite /= in ha hb; congr (_ + _).
  rewrite rmorph_sum; apply: eq_bigr => k _; have [_ H] := hHH k (ltn_ord k); apply: H; by rewrite (aH (ltn_ord k)).1.
rewrite rmorph_sum; apply: eq_bigr => i _; rewrite rmorph_sum; apply: eq_bigr => j _.
have [_ H] := hP i j (ltn_ord i) (ltn_ord j); rewrite [RHS]cjM cjR; congr (_ * _).
apply: H; by rewrite /= (aQ (ltn_ord i)).1.
Qed.
End Whole.

Lemma inner_herm v w X : herm X -> inner v X w = (inner w X v)^*.
Proof.
move=> [_ H]; rewrite -[inner v X w]/(dot (dim X) v (apply_to (dim X) (ent X) w)).
by rewrite dot_herm // => i j hi hj; rewrite H.
Qed.

(** No leak when all levels are kept. *)
Lemma leak_full m vs A B a b : orthonormal m vs -> size vs = m -> dim A = m -> dim B = m -> leak vs A B a b = 0.
Proof.
move=> O sz dA dB; rewrite /leak; set va := nth _ vs a; set vb := nth _ vs b; apply/eqP; rewrite subr_eq0; apply/eqP.
pose f := apply_to m (ent B) vb.
have -> : inner va (omul A B) vb = dot m va (apply_to m (ent A) f).
  rewrite /inner /= dA /dot; apply: eq_bigr => i _; congr (_ * _); rewrite /apply_to.
  under eq_bigr do rewrite mulr_suml; rewrite exchange_big; apply: eq_bigr => l _.
  by rewrite /f /apply_to mulr_sumr; apply: eq_bigr => j _; rewrite mulrA.
transitivity (dot m va (apply_to m (ent A) (fun x => \sum_(l < size vs) dot m (nth (fun=> 0) vs l) f * nth (fun=> 0) vs l x))).
  rewrite /dot; apply: eq_bigr => i _; congr (_ * _); apply: eq_bigr => x _; congr (_ * _); exact: resolution.
rewrite /dot /apply_to.
under eq_bigr => i _ do (under eq_bigr => x _ do rewrite mulr_sumr); under eq_bigr => i _ do rewrite exchange_big mulr_sumr.
rewrite exchange_big; apply: eq_bigr => l _; rewrite /inner dA dB mulr_suml; apply: eq_bigr => i _.
rewrite -mulrA; congr (_ * _); rewrite mulr_suml; apply: eq_bigr => x _.
by rewrite -mulrA; congr (_ * _); rewrite mulrC.
Qed.

(** The loss for a charge with itself: the squared length of the part of Q v that
    is not in the span of the kept levels. *)
Lemma leak_self m vs A a : orthonormal m vs -> dim A = m -> herm A ->
  let f := apply_to m (ent A) (nth (fun=> 0) vs a) in
  let g x := f x - \sum_(l < size vs) inner (nth (fun=> 0) vs l) A (nth (fun=> 0) vs a) * nth (fun=> 0) vs l x in
  leak vs A A a a = dot m g g.
Proof.
move=> O dA hA f g; set v := nth (fun=> 0) vs.
have fl l : inner (v l) A (v a) = dot m (v l) f by rewrite /inner dA.
have lf l : inner (v a) A (v l) = (dot m (v l) f)^* by rewrite -fl -inner_herm.
pose c (l : nat) := dot m (v l) f.
have gE x : g x = f x - \sum_(l < size vs) c l * v l x by rewrite /g; congr (_ - _); apply: eq_bigr => l _; rewrite fl.
have E1 : inner (v a) (omul A A) (v a) = dot m f f.
  rewrite /inner /= dA /dot.
  transitivity (dot m (v a) (apply_to m (ent A) f)).
    rewrite /dot; apply: eq_bigr => i _; congr (_ * _); rewrite /apply_to.
    under eq_bigr do rewrite mulr_suml; rewrite exchange_big; apply: eq_bigr => l _.
    by rewrite /f /apply_to mulr_sumr; apply: eq_bigr => j _; rewrite mulrA.
  rewrite dot_herm; last by move=> i j hi hj; have [_ H] := hA; rewrite H // dA.
  by rewrite -/f /dot rmorph_sum; apply: eq_bigr => i _; rewrite [LHS]cjM conjcK mulrC.
have E2 l : (l < size vs)%N -> dot m (v l) g = 0.
  move=> hl; have -> : dot m (v l) g = c l - \sum_(k < size vs) c k * dot m (v l) (v k).
    rewrite /dot; under eq_bigr do rewrite gE mulrBr; rewrite big_split /= sumrN; congr (_ - _).
    under eq_bigr do rewrite mulr_sumr; rewrite exchange_big; apply: eq_bigr => k _; rewrite mulr_sumr.
    by apply: eq_bigr => i _; rewrite mulrCA.
  rewrite (bigD1 (Ordinal hl)) //= O // eqxx mulr1 big1 ?addr0 ?subrr // => k ne.
  by rewrite O // eq_sym -val_eqE in ne *; rewrite (negbTE ne) mulr0.
have E3 : dot m g g = dot m f g.
  transitivity (dot m f g - \sum_(l < size vs) (c l)^* * dot m (v l) g).
    rewrite /dot; under eq_bigr do rewrite [in X in X * _]gE rmorphB mulrBl; rewrite big_split /= sumrN; congr (_ - _).
    under eq_bigr do rewrite rmorph_sum mulr_suml; rewrite exchange_big; apply: eq_bigr => k _; rewrite mulr_sumr.
    by apply: eq_bigr => i _; rewrite mulrA; congr (_ * _); exact: cjM.
  by rewrite big1 ?subr0 // => l _; rewrite E2 // mulr0.
rewrite E3 /leak E1 /dot; under [RHS]eq_bigr do rewrite gE mulrBr; rewrite big_split /= sumrN; congr (_ - _).
under [RHS]eq_bigr do rewrite mulr_sumr; rewrite exchange_big; apply: eq_bigr => l _.
rewrite -/(v l) -/(v a) lf fl -/(c l) mulrC; under eq_bigr do rewrite mulrCA; rewrite -mulr_sumr; congr (_ * _).
by rewrite /c /dot rmorph_sum; apply: eq_bigr => i _; rewrite [LHS]cjM conjcK mulrC.
Qed.
