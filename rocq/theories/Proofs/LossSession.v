(** LossSession.v -- what calls that leave elements and matrices alone keep. *)
From Coq Require Import Reals ZArith String.
From Verif.Model Require Import Base Units Settings Edge LCWB HamConst Trunc.
From mathcomp Require Import all_ssreflect all_algebra.
From mathcomp Require Import complex.
From Verif.Numerics Require Import RStruct Bridge.
From Verif.Model Require Import FluxDist Transform Op Ham Diag CircuitSM.
From Verif.Spec Require Import SessionSpec LossSpec.
From Verif.Proofs Require Import SMProofs SMProofs2 SMProofs3.

Set Implicit Arguments.
Unset Strict Implicit.
Unset Printing Implicit Defensive.

Definition same_matrices (x y : circ) : Prop :=
  [/\ x_st x = x_st y, x_c x = x_c y, x_C x = x_C y & x_dict x = x_dict y].

Section Machine.
Variable disp : nat -> C -> op.
Variable optim : bool.

Lemma leave_step w c w1 r : leaves c -> step disp optim w c = Some (w1, r) ->
  w_s w1 = w_s w /\ same_matrices (w_x w1) (w_x w).
Proof.
case: w => s u x; case: c => [nums|m a|m a|c p|u'|vs o|o| |eigs argsort k|rd] //= _.
- by rewrite /set_trunc; case: nums => [l|]; [case: ifP => _; [|case: mem_err => [e|]]|] => -[<- _].
- rewrite /set_offset; case: island_of => [i|]; last by case=> <- _.
  by case: ifP => _; [|case: mem_err => [e|]] => -[<- _].
- by rewrite /set_charge_noise; case: island_of => [i|] -[<- _].
- by case=> <- _.
- by rewrite /hamil; case: ifP => _; [|case: foldl => M h] => -[<- _].
- rewrite /diag_sm; case: ifP => _; first by case=> <- _.
  case: k => [k|]; last by case=> <- _.
  by rewrite /hamil; case: ifP => _; [|case: foldl => M h]; case: diag => e h' -[<- _].
- by case=> <- _.
Qed.

Lemma leave_run cs : forall w tr, all leaves cs -> run disp optim w cs = Some tr ->
  w_s (final w tr) = w_s w /\ same_matrices (w_x (final w tr)) (w_x w).
Proof.
elim: cs => [|c cs IH] w tr /=; first by move=> _ [<-].
case/andP=> qc qcs; case Es: step => [[w1 r]|] //; case Er: run => [tr'|] // [<-].
have [e1 [a1 a2 a3 a4]] := leave_step qc Es; have [e2 [b1 b2 b3 b4]] := IH _ _ qcs Er.
by split; [exact: etrans e1 | split; [exact: etrans a1 | exact: etrans a2 | exact: etrans a3 | exact: etrans a4]].
Qed.

Lemma leave_updates cs : forall w tr, all leaves cs -> run disp optim w cs = Some tr -> updates_ok optim w cs tr.
Proof.
elim: cs => [|c cs IH] w tr; first by [].
rewrite /=; case/andP=> qc qcs; case Es: step => [[w1 r]|] //; case Er: run => [tr'|] // [<-] /=.
by rewrite IH // andbT; case: c qc {Es}.
Qed.
End Machine.
