(** SystemProofs3.v -- a diagonalised circuit is ready to be coupled. *)
From Coq Require Import Reals ZArith String Lia.
From Verif.Model Require Import Base Units Elements Edge LCWB HamConst.
From mathcomp Require Import all_ssreflect all_algebra.
From mathcomp Require Import complex.
From Verif.Numerics Require Import RStruct Bridge.
From Verif.Model Require Import Transform Op Ham Diag CircuitSM Partial System.
From Verif.Spec Require Import OpSpec EigSpec PerturbSpec SessionSpec SystemSpec.
From Verif.Proofs Require Import OpProofs HamProofs HamProofs2 HamProofs4 SMProofs SMProofs3 SystemProofs SystemProofs2.
From Verif.Properties Require Import P_Diag.

Set Implicit Arguments.
Unset Strict Implicit.
Unset Printing Implicit Defensive.
Import GRing.Theory.
Local Open Scope ring_scope.
Local Open Scope complex_scope.

Lemma diagonalised_ready disp optim x : diagonalised disp optim x -> ready disp x.
Proof.
move=> [o [s [lobj [fd [d [x0 [u [cs [tr [w [eigs [argsort [k [r [E0 Er [Hu Ew] [Ha _] Ed]]]]]]]]]]]]]]].
have G0 := good_construct disp E0; have G := good_run (G0 : good disp (w_x (mkW s u x0))) Er Hu.
have := good_diag eigs argsort (w_u w) (Some k) (w_s w) G; rewrite -Ew Ed /= => Gx.
move: Ed; rewrite /diag_sm; case: eqP => // m0.
have [_ [M [HM _]]] := hamilE (w_s w) G; rewrite -Ew in HM.
case EH: hamil => [xh H]; rewrite EH /= in HM.
rewrite /diag /=; case: H EH => [H|e] EH //; case En: diag_np => [e|//] [Ex _].
split=> //; first by rewrite -Ex HM /= => E; apply: m0; rewrite E.
by have [lam [V [ncv [_ [_ [_ [p [_ [s1 [s2 _]]]]]]]]]] := C40_pairing Ha En; rewrite -Ex /= s2 s1.
Qed.

