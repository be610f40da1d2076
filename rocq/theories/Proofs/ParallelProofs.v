(** ParallelProofs.v -- sums over the elements as sums over the edges. *)
From Coq Require Import Reals ZArith Lia Lra String List FunctionalExtensionality.
From Verif.Model Require Import Base Units Edge Elements LCWB Accuracy HamConst.
From Verif.Spec Require Import GraphSpec CircuitSpec.
From Verif.Proofs Require Import LCWBProofs.

Lemma ind_coef_split L p : (ind_coef L p = (Phi0 / 2 / PI / sqrt hbar) * (p / L))%R.
Proof. unfold ind_coef, Rdiv. ring. Qed.

From mathcomp Require Import all_ssreflect all_algebra.
From mathcomp Require Import complex.
From mathcomp Require Import ssrZ.
From Verif.Numerics Require Import RStruct Bridge.
From Verif.Model Require Import FluxDist Op Transform Ham.
From Verif.Spec Require Import OneNodeSpec PerturbSpec LevelsSpec ParallelSpec.
From Verif.Proofs Require Import OpProofs HamProofs HamProofs2 HamProofs5 HamProofs6 MinMaxProofs.

Set Implicit Arguments.
Unset Strict Implicit.
Unset Printing Implicit Defensive.
Import GRing.Theory.
Local Open Scope ring_scope.
Local Open Scope complex_scope.

Lemma spread (K T : eqType) (l : seq K) (key : K -> T) (f : K -> C) (g : T -> C) (U : seq T) :
  uniq U -> (forall k, k \in l -> key k \in U) ->
  \sum_(k <- l) f k * g (key k) = \sum_(e <- U) (\sum_(k <- l | key k == e) f k) * g e.
Proof.
move=> uU lU; under [RHS]eq_bigr do rewrite mulr_suml big_mkcond; rewrite exchange_big /=.
rewrite big_seq [RHS]big_seq; apply: eq_bigr => k hk.
rewrite (bigD1_seq (key k)) //=; last exact: lU.
by rewrite eqxx big1 ?addr0 // => e ne; rewrite eq_sym (negbTE ne).
Qed.

Lemma group (K K' T : eqType) (l : seq K) (l' : seq K') (key : K -> T) (key' : K' -> T) (f : K -> C) (f' : K' -> C) (g : T -> C) :
  (forall e, \sum_(k <- l | key k == e) f k = \sum_(k <- l' | key' k == e) f' k) ->
  \sum_(k <- l) f k * g (key k) = \sum_(k <- l') f' k * g (key' k).
Proof.
move=> H; pose U := undup ([seq key k | k <- l] ++ [seq key' k | k <- l']).
rewrite (spread f g (undup_uniq _ : uniq U)); last by move=> k hk; rewrite mem_undup mem_cat map_f.
rewrite (spread f' g (undup_uniq _ : uniq U)); last by move=> k hk; rewrite mem_undup mem_cat map_f ?orbT.
by apply: eq_bigr => e _; rewrite H.
Qed.

Section Amplitudes.
Variables (disp : nat -> C -> op) (h : hin) (s s' : store) (ph ph' : nat -> R).

Lemma junction_sum (s0 : store) (p0 : nat -> R) (ks : seq (edge * nat * nat * nat)) a b :
  \sum_(k <- ks) (evalue s0 k.1.1.2)%:C * jjent disp h (p0 k.1.2) k.2 a b =
  2%:R^-1 * (\sum_(k <- ks) ((evalue s0 k.1.1.2)%:C * expi (p0 k.1.2)) * ent (opExp disp h k.2) a b +
             (\sum_(k <- ks) ((evalue s0 k.1.1.2)%:C * expi (p0 k.1.2)) * ent (opExp disp h k.2) b a)^*).
Proof.
elim: ks => [|k ks IH]; first by rewrite !big_nil cj0 addr0 mulr0.
rewrite !big_cons IH cjD /jjent mulrCA -mulrDr; congr (_ * _).
by rewrite [RHS]addrACA; congr (_ + _); rewrite mulrDr !mulrA !cjM cjR !mulrA.
Qed.

Lemma amplitudes_suffice (ks ks' : seq (edge * nat * nat * nat)) a b : (forall w, amplitude s ph ks w = amplitude s' ph' ks' w) ->
  \sum_(k <- ks) (evalue s k.1.1.2)%:C * jjent disp h (ph k.1.2) k.2 a b =
  \sum_(k <- ks') (evalue s' k.1.1.2)%:C * jjent disp h (ph' k.1.2) k.2 a b.
Proof.
move=> H; rewrite !junction_sum; congr (_ * (_ + _^*)).
  exact: (group (key := fun k => k.2) (key' := fun k => k.2) (fun w => ent (opExp disp h w) a b) H).
exact: (group (key := fun k => k.2) (key' := fun k => k.2) (fun w => ent (opExp disp h w) b a) H).
Qed.

Lemma pulls_suffice (ks ks' : seq (edge * nat * nat)) a b : (forall e, pull s ph ks e = pull s' ph' ks' e) ->
  \sum_(k <- ks) (ind_coef (evalue s k.1.2) (ph k.2))%:C * cpl h k.1.1 a b =
  \sum_(k <- ks') (ind_coef (evalue s' k.1.2) (ph' k.2))%:C * cpl h k.1.1 a b.
Proof.
move=> H; pose z := Rdiv (Rdiv (Rdiv Phi0 2) PI) (sqrt hbar).
have coefE L p : (ind_coef L p)%:C = z%:C * (Rdiv p L)%:C.
  by rewrite -cRM; congr (_%:C); exact: ind_coef_split.
have S (s0 : store) ph0 (l : seq (edge * nat * nat)) : \sum_(k <- l) (ind_coef (evalue s0 k.1.2) (ph0 k.2))%:C * cpl h k.1.1 a b =
  z%:C * \sum_(k <- l) (Rdiv (ph0 k.2) (evalue s0 k.1.2))%:C * cpl h k.1.1 a b.
  by rewrite mulr_sumr; apply: eq_bigr => k _; rewrite coefE mulrA.
rewrite !S; congr (_ * _).
apply: (group (key := fun k => k.1.1) (key' := fun k => k.1.1) (fun e => cpl h e a b)) => e.
by have := congr1 (fun x : R => x%:C) (H e); rewrite /pull !rmorph_sum.
Qed.
End Amplitudes.
