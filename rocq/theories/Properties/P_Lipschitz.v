(** P_Lipschitz.v -- C82: how far energies move with the fluxes and the junctions. *)
From Coq Require Import Reals ZArith String Lia Lra.
From Verif.Model Require Import Base Units Settings Edge Elements LCWB Accuracy HamConst.
From Verif.Proofs Require Import BookProofs.
Lemma abs_both x y d : Rle y (x + d) -> Rle x (y + d) -> Rle (Rabs (Rminus x y)) d.
Proof. intros. apply Rabs_le. lra. Qed.
Lemma abs_mix v d b : Rplus (Rabs (Rminus v v)) (Rmult (Rabs v) (Rabs (Rmult d b))) = Rmult (Rabs (Rmult v b)) (Rabs d).
Proof. replace (Rminus v v) with 0%R by ring. rewrite Rabs_R0, !Rabs_mult. ring. Qed.
From mathcomp Require Import all_ssreflect all_algebra.
From mathcomp Require Import complex ring.
From Verif.Numerics Require Import RStruct Bridge.
From Verif.Model Require Import Op Transform Ham Diag CircuitSM.
From Verif.Spec Require Import OpSpec HalfSpec SessionSpec LevelsSpec.
From Verif.Proofs Require Import OpProofs HamProofs HamProofs2 HamProofs5 HamProofs6 HalfProofs
  SMProofs SMProofs2 SMProofs3 MinMaxProofs ContractProofs.
From Verif.Properties Require Import P_Ops.

Set Implicit Arguments.
Unset Strict Implicit.
Unset Printing Implicit Defensive.
Import GRing.Theory Order.TTheory.
Local Open Scope ring_scope.
Local Open Scope complex_scope.

Lemma sum_inR (X : Type) (s : seq X) (F G : X -> R) : (forall k, List.In k s -> F k = G k) ->
  \sum_(k <- s) F k = \sum_(k <- s) G k.
Proof.
elim: s => [|x s IH] H; rewrite ?big_nil // !big_cons H; last by left.
by rewrite IH // => k hk; apply: H; right.
Qed.

Section Energies.
Variables (disp : nat -> C -> op) (h : hin) (B : arr) (ks : keys).
Hypothesis dims : forall m a, dim (disp m a) = m.
Hypothesis unit : forall m a, unitary (disp m a).

(** Two sets of junction energies and loop fluxes; the inductors have the same values
    and the same external flux in both.  Every energy moves at most by the sum over
    the junctions of |EJ - EJ'| + |EJ| |phi - phi'|. *)
Theorem C82_lipschitz val val' loops loops' A A' E E' :
  (forall i, List.In i (k_ind ks) -> val' i.1.2 = val i.1.2 /\ ext_flux loops' B i.2 = ext_flux loops B i.2) ->
  hamiltonian disp h val loops B ks = Ok A -> hamiltonian disp h val' loops' B ks = Ok A' ->
  energies A E -> energies A' E' -> forall k, (k < dim A)%N ->
  Rle (Rabs (Rminus (E k) (E' k))) (\sum_(j <- k_jj ks) (Rabs (Rminus (val j.1.1.2) (val' j.1.1.2)) +
     Rabs (val j.1.1.2) * Rabs (Rminus (ext_flux loops B j.1.2) (ext_flux loops' B j.1.2)))).
Proof.
move=> same EA EA' HE HE' k hk; have [le1 le2] := level_shift unit dims same EA EA' HE HE' hk.
exact: abs_both.
Qed.

(** The fluxes alone: the slope of an energy in the flux of a loop is at most the sum
    of the energies of the junctions times their share in that loop. *)
Theorem C82_flux val loops l x A A' E E' : (l < size loops)%N ->
  (forall i, List.In i (k_ind ks) -> B i.2 l = 0) ->
  hamiltonian disp h val loops B ks = Ok A -> hamiltonian disp h val (set_nth 0 loops l x) B ks = Ok A' ->
  energies A E -> energies A' E' -> forall k, (k < dim A)%N ->
  Rle (Rabs (Rminus (E k) (E' k)))
      (Rmult (\sum_(j <- k_jj ks) Rabs (Rmult (val j.1.1.2) (B j.1.2 l))) (Rabs (Rminus (nth 0 loops l) x))).
Proof.
move=> hl ind EA EA' HE HE' k hk.
have D b : Rminus (ext_flux loops B b) (ext_flux (set_nth 0 loops l x) B b) = (nth 0 loops l - x) * B b l.
  rewrite RminusE /ext_flux size_set_nth (maxn_idPr hl) -sumrB (bigD1 (Ordinal hl)) //= nth_set_nth /= eqxx.
  rewrite [X in _ + X]big1 ?addr0 ?mulrBl // => i; rewrite -val_eqE /= => /negbTE ne.
  by rewrite nth_set_nth /= ne subrr.
have same i : List.In i (k_ind ks) -> val i.1.2 = val i.1.2 /\ ext_flux (set_nth 0 loops l x) B i.2 = ext_flux loops B i.2.
  move=> hi; split=> //; apply/esym; apply/eqP; rewrite -subr_eq0 -RminusE D ind // mulr0 //.
have := C82_lipschitz same EA EA' HE HE' hk; rewrite RmultE big_distrl /=.
rewrite (eq_bigr (fun j => Rabs (Rmult (val j.1.1.2) (B j.1.2 l)) * Rabs (Rminus (nth 0 loops l) x))) // => j _.
by rewrite D; exact: abs_mix.
Qed.

(** Without the junctions (their energies set to 0). *)
Theorem C82_bare val val' loops A A' E E' :
  (forall i, List.In i (k_ind ks) -> val' i.1.2 = val i.1.2) -> (forall j, List.In j (k_jj ks) -> val' j.1.1.2 = 0) ->
  hamiltonian disp h val loops B ks = Ok A -> hamiltonian disp h val' loops B ks = Ok A' ->
  energies A E -> energies A' E' -> forall k, (k < dim A)%N ->
  Rle (Rabs (Rminus (E k) (E' k))) (\sum_(j <- k_jj ks) Rabs (val j.1.1.2)).
Proof.
move=> ind jj EA EA' HE HE' k hk.
have same i : List.In i (k_ind ks) -> val' i.1.2 = val i.1.2 /\ ext_flux loops B i.2 = ext_flux loops B i.2 by move=> /ind.
have := C82_lipschitz same EA EA' HE HE' hk.
set s1 := \sum_(_ <- _) _; set s2 := \sum_(_ <- _) _; have -> : s1 = s2; last by [].
apply: sum_inR => j hj; rewrite (jj j hj) Rminus_0_r [Rminus (ext_flux _ _ _) _](_ : _ = R0); last exact: Rminus_eq_0.
by rewrite Rabs_R0 mulr0 addr0.
Qed.
End Energies.
Print Assumptions C82_lipschitz.
Print Assumptions C82_flux.
Print Assumptions C82_bare.

(** In a session: two calls of hamiltonian() on the same circuit with other fluxes
    and other junction energies in between. *)
Theorem C82_session disp optim o s0 lobj fd d x0 u cs tr s' x1 x2 A A' E E' :
  (forall m a, dim (disp m a) = m) -> (forall m a, unitary (disp m a)) ->
  construct optim o s0 lobj fd d = Some (Ok x0) -> run disp optim (mkW s0 u x0) cs = Some tr ->
  updates_ok optim (mkW s0 u x0) cs tr ->
  let s := w_s (final (mkW s0 u x0) tr) in let x := w_x (final (mkW s0 u x0) tr) in
  let flux s b := ext_flux [seq lvalue s l | l <- c_loops (x_c x)] (x_B x) b in
  hamil s x = (x1, Ok A) -> hamil s' x = (x2, Ok A') ->
  (forall i, List.In i (c_keys_ind (x_c x)) -> evalue s' i.1.2 = evalue s i.1.2 /\ flux s' i.2 = flux s i.2) ->
  energies A E -> energies A' E' -> forall k, (k < dim A)%N ->
  Rle (Rabs (Rminus (E k) (E' k))) (\sum_(j <- c_keys_jj (x_c x)) (Rabs (Rminus (evalue s j.1.1.2) (evalue s' j.1.1.2)) +
     Rabs (evalue s j.1.1.2) * Rabs (Rminus (flux s j.1.2) (flux s' j.1.2)))).
Proof.
move=> D U b r up s x flux E1 E2 same HE HE' k hk.
have G : good disp x by exact: good_run (good_construct disp b : good disp (w_x (mkW s0 u x0))) r up.
have [H1 _] := hamilE s G; have [H2 _] := hamilE s' G; rewrite E1 /= in H1; rewrite E2 /= in H2.
have := C82_lipschitz D U _ (esym H1) (esym H2) HE HE' hk; apply; exact: same.
Qed.
Print Assumptions C82_session.

(** One junction of energy [val 1] in a loop with flux [x]: the energies move at most
    by |val 1| |x - y| when the flux is changed to [y]. *)
Example C82_case val x y : let disp := fun m (_ : C) => oeye m in
  let ks := mkKeys [::] [:: (Zpos xH, Zpos (xO xH), 1%N, 0%N, 0%N)] in
  exists A A' E E', [/\ hamiltonian disp case_h val [:: x] (fun _ _ => 1) ks = Ok A,
    hamiltonian disp case_h val [:: y] (fun _ _ => 1) ks = Ok A', dim A = 6%N, energies A E /\ energies A' E' &
    forall k, (k < 6)%N -> Rle (Rabs (Rminus (E k) (E' k))) (Rmult (Rabs (val 1%N)) (Rabs (Rminus x y)))].
Proof.
move=> disp ks; have D m a : dim (disp m a) = m by [].
have U m a : unitary (disp m a) by exact: unitary_eye.
have m0 : h_m case_h <> [::] by [].
have [//|A EA] := @C35_total disp case_h val [:: x] (fun _ _ => 1) ks m0 isT.
have [//|A' EA'] := @C35_total disp case_h val [:: y] (fun _ _ => 1) ks m0 isT.
have [dA hA] := hamiltonian_ok D EA; have [_ hA'] := hamiltonian_ok D EA'.
have [E HE] := energies_exist hA; have [E' HE'] := energies_exist hA'; exists A, A', E, E'.
have d6 : dim A = 6%N by rewrite dA /total !big_ord_recr big_ord0.
split=> //; rewrite -d6 => k hk.
have := @C82_flux disp case_h (fun _ _ => 1) ks D U val [:: x] 0 y A A' E E' isT _ EA EA' HE HE' k hk; rewrite /= big_seq1 Rmult_1_r; apply=> //.
Qed.
