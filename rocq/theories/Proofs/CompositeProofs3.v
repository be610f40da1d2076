(** CompositeProofs3.v -- the interaction matrix of a system. *)
From Coq Require Import Reals ZArith String Lia.
From Verif.Model Require Import Base Units Elements Edge LCWB HamConst.
From mathcomp Require Import all_ssreflect all_algebra.
From mathcomp Require Import complex.
From Verif.Numerics Require Import RStruct Bridge.
From Verif.Model Require Import Transform Op Ham Diag CircuitSM Partial System.
From Verif.Spec Require Import OpSpec EigSpec PerturbSpec SessionSpec SystemSpec CompositeSpec.
From Verif.Proofs Require Import OpProofs TransProofs SMProofs CapGrad SystemProofs SystemProofs2 CompositeProofs2.
From Verif.Properties Require Import P_System.

Set Implicit Arguments.
Unset Strict Implicit.
Unset Printing Implicit Defensive.
Import GRing.Theory.
Local Open Scope ring_scope.

(** Products of block matrices. *)
Lemma block_mul (n : nat -> nat) (F G : nat -> arr) ids i j :
  (i < sumn [seq n c | c <- ids])%N -> (j < sumn [seq n c | c <- ids])%N ->
  \sum_(k < sumn [seq n c | c <- ids])
     block_diag [seq (n c, F c) | c <- ids] i k * block_diag [seq (n c, G c) | c <- ids] k j =
  block_diag [seq (n c, mmul (n c) (F c) (G c)) | c <- ids] i j.
Proof.
elim: ids i j => // c ids IH i j /=; rewrite big_split_ord /= => hi hj.
have lt (k : 'I_(n c)) : (k < n c)%N = true by rewrite ltn_ord.
have ge k : (n c <= n c + k)%N by rewrite leq_addr.
have lf k : (n c + k < n c)%N = false by rewrite ltnNge ge.
under eq_bigr => k _ do rewrite lt andbT [(n c <= k)%N]leqNgt lt /= andbF.
under [X in _ + X]eq_bigr => k _ do rewrite lf ge andbF /= andbT addKn.
case: (ltnP i (n c)) => h1; case: (ltnP j (n c)) => h2 /=.
- by rewrite [X in _ + X]big1 ?addr0 // => k _; rewrite mul0r.
- by rewrite !big1 ?addr0 // => k _; rewrite ?mulr0 ?mul0r.
- by rewrite !big1 ?addr0 // => k _; rewrite ?mulr0 ?mul0r.
- rewrite big1 ?add0r => [|k _]; last by rewrite mul0r.
  by rewrite IH // ltn_subLR.
Qed.
Lemma block_tr (n : nat -> nat) (F : nat -> arr) ids i j :
  block_diag [seq (n c, F c) | c <- ids] j i = block_diag [seq (n c, tr (F c)) | c <- ids] i j.
Proof. by elim: ids i j => // c ids IH i j /=; rewrite andbC [(n c <= j)%N && _]andbC IH. Qed.
Lemma block_eye (n : nat -> nat) (F : nat -> arr) ids i j :
  (forall c a b, c \in ids -> (a < n c)%N -> (b < n c)%N -> F c a b = if a == b then 1 else 0) ->
  (i < sumn [seq n c | c <- ids])%N -> (j < sumn [seq n c | c <- ids])%N ->
  block_diag [seq (n c, F c) | c <- ids] i j = if i == j then 1 else 0.
Proof.
elim: ids i j => // c ids IH i j /= HF hi hj.
case: (ltnP i (n c)) => h1; case: (ltnP j (n c)) => h2 /=.
- by apply: HF; rewrite ?inE ?eqxx.
- by rewrite ltn_eqF // (leq_trans h1).
- by rewrite gtn_eqF // (leq_trans h2).
- rewrite IH ?ltn_subLR // => [|c' a b hc]; last by apply: HF; rewrite inE hc orbT.
  by rewrite -[in RHS](subnK h1) -[in RHS](subnK h2) eqn_add2r.
Qed.
Lemma block_ext (n : nat -> nat) (F G : nat -> arr) ids i j :
  (forall c a b, c \in ids -> (a < n c)%N -> (b < n c)%N -> F c a b = G c a b) ->
  (i < sumn [seq n c | c <- ids])%N -> (j < sumn [seq n c | c <- ids])%N ->
  block_diag [seq (n c, F c) | c <- ids] i j = block_diag [seq (n c, G c) | c <- ids] i j.
Proof.
elim: ids i j => // c ids IH i j /= HF hi hj.
case: (ltnP i (n c)) => h1; case: (ltnP j (n c)) => h2 //=.
- by apply: HF; rewrite ?inE ?eqxx.
- by apply: IH; rewrite ?ltn_subLR // => c' a b hc; apply: HF; rewrite inE hc orbT.
Qed.

Section Interaction.
Variables (optim : bool) (circs : nat -> circ) (s : store) (u : ustate) (cps : seq couple) (S : sys).
Hypothesis made : system circs u cps = Ok S.
Hypothesis al : aligned circs (s_ids S).
Let n (c : nat) : nat := x_n (circs c).
Hypothesis ok : links_ok s n (s_ids S) cps.
Hypothesis mat : forall c, c \in s_ids S -> matched optim (circs c).
Let N := s_N S.
Let nd (i : nat) : nat * nat := nth (0, 0)%N (node_list n (s_ids S)) i.

Lemma dimN : s_dim circs S = N.
Proof. by have [_ _ EN _ _] := systemP made; rewrite s_dimE // /N EN. Qed.
Lemma sumN : sumn [seq n c | c <- s_ids S] = N.
Proof. by have [_ _ EN _ _] := systemP made; rewrite /N EN size_nodes. Qed.
Lemma blocksE (F : nat -> arr) : [seq (t_n0 (x_st (circs c)), F c) | c <- s_ids S] = [seq (n c, F c) | c <- s_ids S].
Proof. by apply/eq_in_map => c hc; rewrite /n (al hc). Qed.

Lemma circ_sym c a b : c \in s_ids S -> (a < n c)%N -> (b < n c)%N -> x_C (circs c) a b = x_C (circs c) b a.
Proof.
move=> hc ha hb; have [s' Sy] := mat hc; have [s2 [lobj [_ H]]] := sy_lcwb Sy; rewrite (sy_C Sy).
move: ha hb; rewrite /n (al hc) => /ltP ha /ltP hb.
by have [] := SymProofs.C_symmetric _ _ _ _ _ _ _ H a b ha hb.
Qed.

(** The parts of the interaction matrix. *)
Lemma int_coefP A : int_coef circs s S = Ok A -> exists M a b, [/\ cap_matrix circs s S = Ok M,
  inv N M = Ok a, inv N (bare_cap circs S) = Ok b &
  toM N N A = (toM N N (block_diag (R_blocks circs S)))^T *m (toM N N a - toM N N b) *m toM N N (block_diag (R_blocks circs S))].
Proof.
rewrite /int_coef dimN; case EM: cap_matrix => [M|//]; case Ea: (inv N M) => [a|//].
case Eb: (inv N _) => [b|//] [<-]; exists M, a, b; split=> //.
apply/matrixP => i j; rewrite !mxE /mmul; apply: eq_bigr => k _; rewrite !mxE; congr (_ * _).
by apply: eq_bigr => l _; rewrite !mxE.
Qed.

Lemma int_sym A i j : int_coef circs s S = Ok A -> (i < N)%N -> (j < N)%N -> A i j = A j i.
Proof.
move=> /int_coefP [M [a [b [EM /invP [uM Ea] /invP [ub Eb] EA]]]] hi hj.
have sM : (toM N N M)^T = toM N N M.
  by apply/matrixP => p q; rewrite !mxE (C53_symmetric made al ok EM circ_sym).
have sb : (toM N N (bare_cap circs S))^T = toM N N (bare_cap circs S).
  apply/matrixP => p q; rewrite !mxE /bare_cap /bare_blocks blocksE block_tr; apply: block_ext; rewrite ?sumN //.
  by move=> c a' b' hc ha hb; rewrite /tr circ_sym.
have sA : (toM N N A)^T = toM N N A.
  by rewrite EA !trmx_mul trmxK mulmxA Ea Eb linearB /= !trmx_inv sM sb.
by have /matrixP /(_ (Ordinal hj) (Ordinal hi)) := sA; rewrite !mxE.
Qed.

(** Together with the circuits' own charging energies: the inverse of the
    capacitance matrix of the whole, in the circuits' coordinates. *)
Let Rc (c : nat) : arr := t_R (x_st (circs c)).
Let cI (c : nat) : arr := t_cI (x_st (circs c)).
Let Ci (c : nat) : arr := ofM (invmx (toM (n c) (n c) (x_C (circs c)))).

Let big_mul (F G : nat -> arr) :
  toM N N (block_diag [seq (n c, F c) | c <- s_ids S]) *m toM N N (block_diag [seq (n c, G c) | c <- s_ids S]) =
  toM N N (block_diag [seq (n c, mmul (n c) (F c) (G c)) | c <- s_ids S]).
Proof.
by apply/matrixP => i j; rewrite !mxE -block_mul ?sumN //; apply: eq_bigr => k _; rewrite !mxE.
Qed.
Let big_ext (F G : nat -> arr) : (forall c, c \in s_ids S -> toM (n c) (n c) (F c) = toM (n c) (n c) (G c)) ->
  toM N N (block_diag [seq (n c, F c) | c <- s_ids S]) = toM N N (block_diag [seq (n c, G c) | c <- s_ids S]).
Proof.
move=> H; apply/matrixP => i j; rewrite !mxE; apply: block_ext; rewrite ?sumN // => c a b hc ha hb.
by have /matrixP /(_ (Ordinal ha) (Ordinal hb)) := H c hc; rewrite !mxE.
Qed.

Lemma own_energy : toM N N (bare_cap circs S) \in unitmx /\
  toM N N (block_diag [seq (n c, cI c) | c <- s_ids S]) =
  (toM N N (block_diag (R_blocks circs S)))^T *m invmx (toM N N (bare_cap circs S)) *m toM N N (block_diag (R_blocks circs S)).
Proof.
rewrite /bare_cap /bare_blocks /R_blocks !blocksE.
have un c : c \in s_ids S -> toM (n c) (n c) (x_C (circs c)) \in unitmx.
  by move=> hc; have [s' Sy] := mat hc; have := sy_unit Sy; rewrite /n (al hc).
have E1 : toM N N (block_diag [seq (n c, x_C (circs c)) | c <- s_ids S]) *m
          toM N N (block_diag [seq (n c, Ci c) | c <- s_ids S]) = 1%:M.
  rewrite big_mul; apply/matrixP => i j; rewrite !mxE -val_eqE.
  rewrite block_eye ?sumN // => [|c a b hc ha hb]; first by case: eqP.
  have := toM_mmul (n c) (n c) (n c) (x_C (circs c)) (Ci c); rewrite /Ci toM_ofM mulmxV ?un //.
  by move=> /matrixP /(_ (Ordinal ha) (Ordinal hb)); rewrite !mxE -val_eqE -/(Ci c) /= => ->; case: eqP.
have [uB _] := mulmx1_unit E1; split=> //.
have -> : invmx (toM N N (block_diag [seq (n c, x_C (circs c)) | c <- s_ids S])) =
          toM N N (block_diag [seq (n c, Ci c) | c <- s_ids S]).
  by rewrite -[LHS]mulmx1 -E1 mulKmx.
have -> : (toM N N (block_diag [seq (n c, Rc c) | c <- s_ids S]))^T =
          toM N N (block_diag [seq (n c, tr (Rc c)) | c <- s_ids S]).
  by apply/matrixP => i j; rewrite !mxE block_tr.
rewrite !big_mul; apply: big_ext => c hc; rewrite !toM_mmul toM_tr toM_ofM.
have [s' Sy] := mat hc; have := sy_cI Sy (al hc); rewrite /n (al hc) => ->.
by [].
Qed.

Lemma int_energy A : int_coef circs s S = Ok A -> exists M V : nat -> nat -> R, [/\ cap_matrix circs s S = Ok M,
  (forall p q, (p < N)%N -> (q < N)%N ->
     (\sum_(k < N) M p k * V k q = if p == q then 1 else 0) /\ \sum_(k < N) V p k * M k q = if p == q then 1 else 0) &
  forall i j, (i < N)%N -> (j < N)%N ->
  A i j + own_entry cI (nd i) (nd j) =
  \sum_(p < N) \sum_(q < N) own_entry Rc (nd p) (nd i) * V p q * own_entry Rc (nd q) (nd j)].
Proof.
move=> /int_coefP [M [a [b [EM /invP [uM Ea] /invP [ub Eb] EA]]]]; exists M, a; split=> //.
  move=> p q hp hq; have L := mulmxV uM; have L' := mulVmx uM; rewrite -Ea in L L'.
  move: L => /matrixP /(_ (Ordinal hp) (Ordinal hq)); rewrite !mxE -val_eqE /= => L.
  move: L' => /matrixP /(_ (Ordinal hp) (Ordinal hq)); rewrite !mxE -val_eqE /= => L'.
  split.
    move: L; under eq_bigr => k _ do rewrite !mxE.
    by move=> ->; case: eqP.
  move: L'; under eq_bigr => k _ do rewrite !mxE.
  by move=> ->; case: eqP.
move=> i j hi hj; have [_ own] := own_energy.
have [_ Ei EN _ _] := systemP made; have [U _] := C52_circuits made.
have be (F : nat -> arr) p q : (p < N)%N -> (q < N)%N ->
  block_diag [seq (n c, F c) | c <- s_ids S] p q = own_entry F (nd p) (nd q).
  by rewrite /N EN => hp hq; apply: block_entry.
have E : toM N N A + toM N N (block_diag [seq (n c, cI c) | c <- s_ids S]) =
  (toM N N (block_diag (R_blocks circs S)))^T *m toM N N a *m toM N N (block_diag (R_blocks circs S)).
  by rewrite own EA -Eb mulmxBr mulmxBl addrNK.
have := E; rewrite /R_blocks blocksE => /matrixP /(_ (Ordinal hi) (Ordinal hj)); rewrite !mxE /= be // => ->.
under eq_bigr => q _ do rewrite !mxE mulr_suml.
rewrite exchange_big /=; apply: eq_bigr => p _; apply: eq_bigr => q _.
by rewrite !mxE !be.
Qed.
End Interaction.
