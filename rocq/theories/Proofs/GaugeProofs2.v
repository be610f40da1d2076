(** GaugeProofs2.v -- the Hamiltonian with turned charge states, its energies, and
    Hamiltonians that differ in the external phases alone. *)
From Coq Require Import Reals ZArith Lia Lra.
From Verif.Model Require Import Base Units Edge Accuracy HamConst.
From mathcomp Require Import all_ssreflect all_algebra.
From mathcomp Require Import complex ring zify.
From Verif.Numerics Require Import RStruct Bridge.
From Verif.Model Require Import Op Transform Ham.
From Verif.Spec Require Import OpSpec LevelsSpec GaugeSpec.
From Verif.Proofs Require Import OpProofs HamProofs HamProofs2 HamProofs5 HamProofs6 ChargeShiftProofs PhaseMulti SymmetryProofs2 GaugeProofs.

Set Implicit Arguments.
Unset Strict Implicit.
Unset Printing Implicit Defensive.
Import GRing.Theory.
Local Open Scope ring_scope.
Local Open Scope complex_scope.

(** Only the external phases count. *)
Lemma ham_ext disp h val loops loops' B B' ks : (forall b, ext_flux loops' B' b = ext_flux loops B b) ->
  hamiltonian disp h val loops' B' ks = hamiltonian disp h val loops B ks.
Proof.
move=> H; rewrite /hamiltonian /ind_hamil.
have -> : forall x, foldl (ind_term h val loops' B') x (k_ind ks) = foldl (ind_term h val loops B) x (k_ind ks).
  by elim: (k_ind ks) => [//|[[e el] b] l IH] x; cbn [foldl]; rewrite IH; congr foldl; case: x => [a|//]; cbn [ind_term]; rewrite H.
case: ifP => // _; case: foldl => [a|//].
have -> : forall x, foldl (jj_term disp h val loops' B') x (k_jj ks) = foldl (jj_term disp h val loops B) x (k_jj ks).
  by elim: (k_jj ks) => [//|[[[e el] b] w] l IH] x; cbn [foldl]; rewrite IH; congr foldl; cbn [jj_term]; rewrite H.
by [].
Qed.

(** Two sets of external phases as two settings of two loops. *)
Definition two (f f' : nat -> R) : arr := fun b i => if i == 0%N then f b else f' b.
Lemma two_first f f' b : ext_flux [:: 1; 0] (two f f') b = f b.
Proof. by rewrite /ext_flux !big_ord_recl big_ord0 /= /two /= mul1r mul0r !addr0. Qed.
Lemma two_second f f' b : ext_flux [:: 0; 1] (two f f') b = f' b.
Proof. by rewrite /ext_flux !big_ord_recl big_ord0 /= /two /= mul1r mul0r add0r addr0. Qed.
Lemma ham_first disp h val loops B ks f' :
  hamiltonian disp h val [:: 1; 0] (two (ext_flux loops B) f') ks = hamiltonian disp h val loops B ks.
Proof. by apply: ham_ext => b; rewrite two_first. Qed.
Lemma ham_second disp h val loops B ks f :
  hamiltonian disp h val [:: 0; 1] (two f (ext_flux loops B)) ks = hamiltonian disp h val loops B ks.
Proof. by apply: ham_ext => b; rewrite two_second. Qed.
Lemma ham_exists disp h val loops loops' B B' ks A : hamiltonian disp h val loops B ks = Ok A ->
  exists A', hamiltonian disp h val loops' B' ks = Ok A'.
Proof.
move=> E; rewrite -(ham_second _ _ _ loops' B' ks (ext_flux loops B)); apply: (@hamiltonian_shape _ _ _ [:: 1; 0]).
by rewrite ham_first; exact: E.
Qed.

Lemma conj_expi (x : R) : (expi x)^* = expi (GRing.opp x).
Proof. by rewrite expi_opp. Qed.

Section Ham.
Variables (disp : nat -> C -> op) (h : hin) (theta : nat -> R) (val : nat -> R) (loops loops' : seq R) (B B' : arr) (ks : keys).
Hypothesis ddim : forall m a, dim (disp m a) = m.
Hypothesis units : unit_rows h ks.
Hypothesis ga : gauge h theta ks loops loops' B B'.

Lemma jj_turn j d e : List.In j (k_jj ks) -> legal (hm h) d (hn h) -> legal (hm h) e (hn h) ->
  let a := posn (hm h) d (hn h) in let b := posn (hm h) e (hn h) in
  jjent disp h (ext_flux loops' B' j.1.2) j.2 a b =
  expi (state_phase h theta d - state_phase h theta e) * jjent disp h (ext_flux loops B j.1.2) j.2 a b.
Proof.
move=> hj L M a b; have [z ->] := ga.2 _ hj.
have W := gw_exp theta ddim (fun k hk ch => units hj hk ch).
have W1 := W d e L M; have W2 := W e d M L; rewrite -/a -/b in W1 W2.
rewrite /jjent expi_period expiD; set X := ent _ a b in W1 *; set Y := ent _ b a in W2 *.
set f := expi (ext_flux _ _ _); set r := expi (row_phase _ _ _) in W1 W2 *.
have -> : f * r * X = expi (state_phase h theta d - state_phase h theta e) * (f * X) by rewrite -mulrA -W1 mulrCA.
have -> : f * r * Y = expi (state_phase h theta e - state_phase h theta d) * (f * Y) by rewrite -mulrA -W2 mulrCA.
rewrite cjM conj_expi RminusE opprB -RminusE -mulrDr mulrCA //.
Qed.

Lemma ham_turned A A' : hamiltonian disp h val loops B ks = Ok A -> hamiltonian disp h val loops' B' ks = Ok A' ->
  turned h theta A A'.
Proof.
move=> EA EA'; have [d1 _] := hamiltonian_ok ddim EA; have [d2 _] := hamiltonian_ok ddim EA'.
split; first by rewrite d1 d2.
move=> d e L M; rewrite (hamiltonian_entry _ _ EA) (hamiltonian_entry _ _ EA'); set a := posn _ _ _; set b := posn _ _ _.
set g := expi _; rewrite mulrBr mulrDr !mulr_sumr; congr (_ + _ - _).
- have := ogw_LC h theta; case: LC_hamil => [X|] /=; last by rewrite mulr0.
  by move=> /(_ d e L M); rewrite -/a -/b -/g expi0 mul1r.
- apply: sum_in => k hk; rewrite ga.1 // mulrCA; congr (_ * _); rewrite /cpl.
  case E: coupling_op => [X|]; last by rewrite mulr0.
  by have := coupling_gw theta E L M; rewrite -/a -/b -/g expi0 mul1r.
by apply: sum_in => k hk; rewrite [RHS]mulrCA; congr (_ * _); exact: (jj_turn hk L M).
Qed.
End Ham.

(** Phases of the positions. *)
Fixpoint tphase (dims : nat -> nat) (g : nat -> nat -> R) (n I : nat) : R :=
  if n is m.+1 then tphase dims g m (I %/ dims m)%N + g m (I %% dims m)%N else 0.
Lemma tphaseE dims g d n : legal dims d n -> tphase dims g n (posn dims d n) = \sum_(k < n) g k (d k).
Proof.
elim: n => [|n IH] L /=; first by rewrite big_ord0.
have lt := L n (leqnn _); have h0 : (0 < dims n)%N by apply: leq_ltn_trans lt.
rewrite divnMDl // divn_small // addn0 modnMDl modn_small // big_ord_recr /= IH // => k hk; apply: L; exact: ltnW.
Qed.

Lemma turned_energies h theta A A' E : dim A = total h -> turned h theta A A' -> energies A E -> energies A' E.
Proof.
move=> dA [dd H] [v [asc eig orth]].
pose u I := expi (tphase (hm h) (fun k a => if hcharge h k then theta k * charge_at (hm h k) a else 0) (hn h) I).
have uu I : (u I)^* * u I = 1 by rewrite mulrC; exact: expi_norm.
have HA a b : (a < dim A)%N -> (b < dim A)%N -> ent A' a b = u a * (u b)^* * ent A a b.
  rewrite dA => /posn_surj [d [L <-]] /posn_surj [e [M <-]]; rewrite H //; congr (_ * _).
  by rewrite /u !tphaseE // conj_expi -expiD !phaseE RminusE.
exists (fun i a => u a * v i a); split; rewrite ?dd //.
  move=> i a hi ha; rewrite mulrCA -eig // mulr_sumr; apply: eq_bigr => b _; rewrite HA //.
  by rewrite -[RHS]mul1r -(uu b); ring.
move=> i j hi hj; rewrite -orth //; apply: eq_bigr => a _; rewrite cjM.
by rewrite -[RHS]mul1r -(uu a); ring.
Qed.
