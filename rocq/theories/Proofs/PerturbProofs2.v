(** PerturbProofs2.v -- the gradient operators have the size of the Hamiltonian. *)
From Coq Require Import Reals ZArith String.
From Verif.Model Require Import Base Units Edge Elements LCWB HamConst PartialConst.
From mathcomp Require Import all_ssreflect all_algebra.
From mathcomp Require Import complex.
From Verif.Numerics Require Import RStruct Bridge.
From Verif.Model Require Import Transform Op Ham Diag CircuitSM Partial.
From Verif.Spec Require Import OpSpec GradSpec.
From Verif.Proofs Require Import OpProofs HamProofs HamProofs2 HamProofs3 HamProofs4 HamProofs5 HamProofs6 SMProofs MemProofs GradProofs.

Set Implicit Arguments.
Unset Strict Implicit.
Unset Printing Implicit Defensive.
Import GRing.Theory.
Local Open Scope ring_scope.
Local Open Scope complex_scope.

Definition sized (N : nat) (P : option op) : Prop := if P is Some A then dim A = N else True.

Lemma racc_dim N (K : Type) (f : K -> res op) ks : (forall k A, List.In k ks -> f k = Ok A -> dim A = N) ->
  forall acc P, (forall Q, acc = Ok Q -> sized N Q) -> foldl (racc f) acc ks = Ok P -> sized N P.
Proof.
elim: ks => [|k ks IH] H acc P Ha /=; first exact: Ha.
apply: IH => [j A hj|Q]; first by apply: H; right.
rewrite /racc; case: acc Ha => [A|//] Ha; case E: (f k) => [X|//] [<-].
have /= dX := H k X (or_introl erefl) E; have := Ha A erefl.
by case: A {Ha}.
Qed.

Lemma loop_dim disp s x l P : (forall m a, dim (disp m a) = m) -> regular disp s x ->
  reported_grad s x (CLoop l) None = Ok P -> sized (total (hof x)) P.
Proof.
move=> Hd R; have [M [E F]] := filledP R; rewrite /reported_grad E /partial_H.
case: loop_index => [j|//]; apply: racc_dim => [[[[e el] b] w] A hk|Q].
  have [_ EM _] := fl_jj F hk; rewrite -[x_mem _]/M /fetch EM => -[<-] /=.
  exact: exp_dim.
apply: racc_dim => [[[e el] b] A hk|Q' [<-] //].
have [X EA EM] := fl_ind F hk; rewrite -[x_mem _]/M /fetch EM => -[<-] /=.
by have [_ [_ _ d _ _]] := couplingP EA.
Qed.

Lemma jj_dim disp s x el b0 P : (forall m a, dim (disp m a) = m) -> regular disp s x -> ekind s el = KJJ ->
  reported_grad s x (CEl el) b0 = Ok P -> sized (total (hof x)) P.
Proof.
move=> Hd R Ek; have [M [E F]] := filledP R; rewrite /reported_grad E /partial_H Ek.
apply: racc_dim => [[[[e el'] b] w] A|Q [<-] //].
move=> /filter_In [hk /andP [/eqP /= Ee _]]; rewrite Ee in hk.
have [EM _ _] := fl_jj F hk; rewrite /fetch EM => -[<-] /=.
exact: exp_dim.
Qed.
