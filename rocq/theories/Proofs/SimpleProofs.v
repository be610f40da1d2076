(** SimpleProofs.v -- Hamiltonians that join neighbouring states only. *)
From Coq Require Import Reals ZArith Lia Lra.
From Verif.Model Require Import Base Units Edge HamConst.
From mathcomp Require Import all_ssreflect all_algebra.
From mathcomp Require Import complex ring zify.
From Verif.Numerics Require Import RStruct Bridge.
From Verif.Model Require Import Op.
From Verif.Spec Require Import OpSpec LevelsSpec PerturbSpec.
From Verif.Proofs Require Import OpProofs MinMaxProofs.

Set Implicit Arguments.
Unset Strict Implicit.
Unset Printing Implicit Defensive.
Import GRing.Theory.
Local Open Scope ring_scope.
Local Open Scope complex_scope.

Section Jacobi.
Variables (n : nat) (h : nat -> nat -> C).
Hypothesis band : forall a b, (a < n)%N -> (b < n)%N -> (a.+1 < b)%N || (b.+1 < a)%N -> h a b = 0.
Hypothesis up : forall a, (a.+1 < n)%N -> h a a.+1 != 0.
Hypothesis down : forall a, (a.+1 < n)%N -> h a.+1 a != 0.
Variables (x : C) (v : nat -> C).
Hypothesis EV : forall a, (a < n)%N -> \sum_(b < n) h a b * v b = x * v a.

Lemma from_first : v 0%N = 0 -> forall a, (a < n)%N -> v a = 0.
Proof.
move=> v0; elim/ltn_ind => -[//|a] IH ha.
have := EV (ltnW ha); rewrite (IH a) ?mulr0 ?(ltnW ha) // (bigD1 (Ordinal ha)) //= big1 ?addr0.
  by move/eqP; rewrite mulf_eq0 (negbTE (up ha)) => /eqP.
move=> b ne; case: (ltngtP b a.+1) => c; first by rewrite IH ?mulr0.
  by rewrite band ?mul0r ?c // ltnW.
by case/eqP: ne; apply: val_inj.
Qed.
Lemma from_last k : n = k.+1 -> v k = 0 -> forall a, (a < n)%N -> v a = 0.
Proof.
move=> nk vk; suff H j : (j <= k)%N -> v (k - j)%N = 0.
  by move=> a; rewrite nk ltnS => ha; have := H (k - a)%N (leq_subr _ _); rewrite subKn.
elim/ltn_ind: j => -[|j] IH hj; first by rewrite subn0.
set a := (k - j.+1)%N; have aE : (a.+1 = k - j)%N by rewrite /a subnSK.
have ha1 : (a.+1 < n)%N by rewrite aE nk ltnS leq_subr.
have z b : (a < b)%N -> (b < n)%N -> v b = 0.
  move=> ab hb; have := IH (k - b)%N; rewrite subKn; last by rewrite -ltnS -nk.
  by apply; [move: ab hb; rewrite nk /a; lia|exact: leq_subr].
have := EV ha1; rewrite (z a.+1) // mulr0 (bigD1 (Ordinal (ltnW ha1))) //= big1 ?addr0.
  by move/eqP; rewrite mulf_eq0 (negbTE (down ha1)) => /eqP.
move=> b ne; case: (ltngtP b a) => c; last by case/eqP: ne; apply: val_inj.
  by rewrite band ?mul0r // ltnS c orbT.
by rewrite z ?mulr0.
Qed.
End Jacobi.

Section Levels.
Variables (A : op) (E : nat -> R) (v : nat -> nat -> C).
Hypothesis band : forall a b, (a < dim A)%N -> (b < dim A)%N -> (a.+1 < b)%N || (b.+1 < a)%N -> ent A a b = 0.
Hypothesis up : forall a, (a.+1 < dim A)%N -> ent A a a.+1 != 0.
Hypothesis down : forall a, (a.+1 < dim A)%N -> ent A a.+1 a != 0.
Hypothesis L : levels_of A E v.

(** No energy level is without the lowest and the highest state. *)
Lemma first_occupied i : (i < dim A)%N -> v i 0%N <> 0.
Proof.
have [_ EV ON] := L; move=> hi v0; have z := from_first band up (fun a ha => EV i a hi ha) v0.
have := ON i i hi hi; rewrite eqxx big1 => [/esym/eqP|a _]; first by rewrite oner_eq0.
by rewrite z ?mulr0.
Qed.
Lemma last_occupied i : (i < dim A)%N -> v i (dim A).-1 <> 0.
Proof.
have [_ EV ON] := L; move=> hi v0; have d0 : dim A = (dim A).-1.+1 by rewrite prednK // (leq_ltn_trans _ hi).
have z := from_last band down (fun a ha => EV i a hi ha) d0 v0.
have := ON i i hi hi; rewrite eqxx big1 => [/esym/eqP|a _]; first by rewrite oner_eq0.
by rewrite z ?mulr0.
Qed.

Lemma energies_differ i j : (i < j)%N -> (j < dim A)%N -> Rlt (E i) (E j).
Proof.
have [asc EV ON] := L; move=> ij hj; have hi := ltn_trans ij hj.
case: (Rle_lt_or_eq_dec _ _ (asc i j _)) => [|//|e]; first by rewrite ltnW.
pose w a := v j 0%N * v i a - v i 0%N * v j a.
have W a : (a < dim A)%N -> \sum_(b < dim A) ent A a b * w b = (E j)%:C * w a.
  move=> ha; transitivity (v j 0%N * (\sum_(b < dim A) ent A a b * v i b) - v i 0%N * (\sum_(b < dim A) ent A a b * v j b)).
    rewrite !mulr_sumr -sumrB; apply: eq_bigr => b _; rewrite /w; ring.
  by rewrite !EV // e /w; ring.
have w0 : w 0%N = 0 by rewrite /w mulrC subrr.
have z := from_first band up W w0.
have e0 : \sum_(a < dim A) (v i a)^* * w a = v j 0%N.
  transitivity (v j 0%N * (\sum_(a < dim A) (v i a)^* * v i a) - v i 0%N * (\sum_(a < dim A) (v i a)^* * v j a)).
    rewrite !mulr_sumr -sumrB; apply: eq_bigr => b _; rewrite /w.
    by move: ((v i b)^*) (v i b) (v j b) (v i 0%N) (v j 0%N) => ? ? ? ? ?; ring.
  by rewrite !ON // eqxx (ltn_eqF ij) mulr1 mulr0 subr0.
case: (first_occupied hj); rewrite -e0 big1 // => a _; by rewrite z ?mulr0.
Qed.
End Levels.
