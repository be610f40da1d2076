(** FanProofs.v -- the sum of the lowest energies is the smallest sum of expectation values. *)
From Coq Require Import Reals ZArith.
From Verif.Model Require Import Base Units Edge Accuracy HamConst.
From mathcomp Require Import all_ssreflect all_algebra.
From mathcomp Require Import complex.
From Verif.Numerics Require Import RStruct Bridge.
From Verif.Model Require Import Op Transform Ham.
From Verif.Spec Require Import OpSpec PerturbSpec LevelsSpec FanSpec.
From Verif.Proofs Require Import OpProofs MinMaxProofs.

Set Implicit Arguments.
Unset Strict Implicit.
Unset Printing Implicit Defensive.
Import GRing.Theory.
Local Open Scope ring_scope.
Local Open Scope complex_scope.

(** Shares of at most 1 that add up to k weigh the lowest k numbers least. *)
Lemma lowest_share N k (E q : nat -> R) : (k <= N)%N -> (forall i j, (i <= j < N)%N -> E i <= E j) ->
  (forall i, (i < N)%N -> 0 <= q i <= 1) -> \sum_(i < N) q i = k%:R ->
  \sum_(i < k) E i <= \sum_(i < N) E i * q i.
Proof.
case: k => [|k] kN up q01 S.
  rewrite big_ord0 big1 // => i _; have z : forall i : 'I_N, q i = 0.
    move=> j; have /Num.Theory.psumr_eq0P H : \sum_(i < N) q i = 0 by rewrite S.
    by apply: H => // l _; have /andP [] := q01 l (ltn_ord l).
  by rewrite z mulr0.
pose b (i : nat) : R := if (i < k.+1)%N then 1 else 0.
have cut (f : nat -> R) : \sum_(i < k.+1) f i = \sum_(i < N) f i * b i.
  rewrite (big_ord_widen _ f kN) big_mkcond /=; apply: eq_bigr => i _.
  by rewrite /b; case: ifP => _; rewrite ?mulr1 ?mulr0.
have Sb : \sum_(i < N) b i = k.+1%:R.
  have := cut (fun=> 1); rewrite sumr_const card_ord => ->; by apply: eq_bigr => i _; rewrite mul1r.
rewrite cut -Num.Theory.subr_ge0 -sumrB.
rewrite (eq_bigr (fun i : 'I_N => (E i - E k) * (q i - b i) + E k * (q i - b i))); last first.
  by move=> i _; rewrite -mulrDl subrK mulrBr.
rewrite big_split /= -mulr_sumr sumrB S Sb subrr mulr0 addr0; apply: Num.Theory.sumr_ge0 => i _.
have /andP [q0 q1] := q01 i (ltn_ord i); rewrite /b; case: ltnP => h.
  apply: Num.Theory.mulr_le0; rewrite Num.Theory.subr_le0 //; apply: up; by rewrite -ltnS h.
by rewrite subr0; apply: Num.Theory.mulr_ge0 => //; rewrite Num.Theory.subr_ge0; apply: up; rewrite (ltnW h) ltn_ord.
Qed.

Lemma nrm_conj z : nrm (z^*) = nrm z.
Proof. by apply: complexI; rewrite -!nrmE -[(z^*)^*]/(conjc (conjc z)) conjcK mulrC. Qed.
Lemma dot_conj N v w : PerturbSpec.dot N w v = (PerturbSpec.dot N v w)^*.
Proof.
rewrite /PerturbSpec.dot -[RHS]/(conjc _) rmorph_sum; apply: eq_bigr => i _.
by rewrite rmorphM /= -[conjc (v i)^*]/(conjc (conjc (v i))) conjcK mulrC.
Qed.

Lemma fan A E u k : energies A E -> basis (dim A) u -> (k <= dim A)%N ->
  lowest_sum k E <= \sum_(j < k) expect A (u j).
Proof.
move=> [v [As EV ON]] U kN; set N := dim A in As EV ON U kN *.
pose p i j := nrm (PerturbSpec.dot N (v i) (u j)).
have X j : expect A (u j) = \sum_(i < N) p i j * E i.
  have [_ X] := combination (c := fun i => PerturbSpec.dot N (v i) (u j)) EV ON (fun a ha => complete (u j) ON ha).
  by rewrite /expect X ReR.
have W j : (j < N)%N -> \sum_(i < N) p i j = 1.
  move=> hj; have [W _] := combination (c := fun i => PerturbSpec.dot N (v i) (u j)) EV ON (fun a ha => complete (u j) ON ha).
  by apply: complexI; rewrite -W U // eqxx.
have W' i : (i < N)%N -> \sum_(j < N) p i j = 1.
  move=> hi.
  have Z : forall (j a : nat), (j < N)%N -> (a < N)%N -> \sum_(b < N) (fun _ _ : nat => 0 : C) a b * u j b = ((fun=> 0) j : R)%:C * u j a.
    by move=> j a _ _; rewrite mul0r big1 // => b _; rewrite mul0r.
  have [W1 _] := combination (h := fun _ _ => 0) (E := fun=> 0) (c := fun j => PerturbSpec.dot N (u j) (v i)) Z U (fun a ha => complete (v := u) (v i) U ha).
  have O1 := ON i i hi hi; rewrite eqxx W1 in O1; apply: complexI; rewrite [RHS](_ : _ = 1) // -O1; congr (_%:C).
  by apply: eq_bigr => j _; rewrite /p dot_conj nrm_conj.
pose q i := \sum_(j < k) p i j.
have -> : \sum_(j < k) expect A (u j) = \sum_(i < N) E i * q i.
  rewrite (eq_bigr (fun j : 'I_k => \sum_(i < N) p i j * E i)); last by move=> j _; exact: X.
  by rewrite exchange_big; apply: eq_bigr => i _; rewrite mulr_sumr; apply: eq_bigr => j _; rewrite mulrC.
apply: lowest_share => //.
- by move=> i j hij; apply/RleP; exact: As.
- move=> i hi; rewrite Num.Theory.sumr_ge0 /=; last by move=> j _; exact: nrm_ge0.
  rewrite -(W' i hi) /q (big_ord_widen _ (fun j => p i j) kN) big_mkcond /=; apply: Num.Theory.ler_sum => j _.
  by case: ifP => // _; exact: nrm_ge0.
- rewrite /q exchange_big /= (eq_bigr (fun=> 1)) ?sumr_const ?card_ord // => j _.
  by apply: W; exact: leq_trans (ltn_ord j) kN.
Qed.

(** The states of an operator attain it. *)
Lemma fan_own A E v k : levels_of A E v -> (k <= dim A)%N ->
  lowest_sum k E = \sum_(j < k) expect A (v j).
Proof.
move=> [_ EV ON] kN; apply: eq_bigr => j _; have hj := leq_trans (ltn_ord j) kN.
rewrite /expect (_ : \sum_(a < dim A) _ = (E j)%:C) //.
transitivity ((E j)%:C * \sum_(a < dim A) (v j a)^* * v j a); last by rewrite ON // eqxx mulr1.
by rewrite mulr_sumr; apply: eq_bigr => a _; rewrite EV // mulrCA.
Qed.
