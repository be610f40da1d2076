(** SecondOrder.v -- change of an expectation value along an eigenbranch. *)
From Coq Require Import Reals ZArith Lra.
From Verif.Spec Require Import ThermalSpec.
From Verif.Proofs Require Import ThermalProofs.
Lemma twice a b : Rplus a (Rplus b a) = Rplus (Rmult 2 a) b.
Proof. lra. Qed.
From Verif.Model Require Import Base Units Edge Elements LCWB HamConst PartialConst.
From mathcomp Require Import all_ssreflect all_algebra.
From mathcomp Require Import complex.
From Verif.Numerics Require Import RStruct Bridge.
From Verif.Model Require Import Transform Op Ham Diag CircuitSM Partial.
From Verif.Spec Require Import GradSpec PerturbSpec RateGradSpec.
From Verif.Proofs Require Import OpProofs CDeriv PerturbProofs.

Set Implicit Arguments.
Unset Strict Implicit.
Unset Printing Implicit Defensive.
Import GRing.Theory.
Local Open Scope ring_scope.
Local Open Scope complex_scope.

Lemma near_and t0 (P Q : R -> Prop) : near t0 P -> near t0 Q -> near t0 (fun t => P t /\ Q t).
Proof.
move=> [a [a0 Ha]] [b [b0 Hb]]; exists (Rmin a b); split; first exact: Rmin_glb_lt.
move=> t Ht; split; [apply: Ha | apply: Hb]; apply: Rlt_le_trans Ht _; [exact: Rmin_l | exact: Rmin_r].
Qed.
Lemma near_mono t0 (P Q : R -> Prop) : (forall t, P t -> Q t) -> near t0 P -> near t0 Q.
Proof. by move=> H [a [a0 Ha]]; exists a; split=> // t /Ha /H. Qed.
Lemma near_at t0 (P : R -> Prop) : near t0 P -> P t0.
Proof. by move=> [a [a0 Ha]]; apply: Ha; rewrite /Rminus Rplus_opp_r Rabs_R0. Qed.

Lemma sandwichE N u A w : sandwich N u A w = dot N u (apply_to N A w).
Proof.
rewrite /sandwich /dot /apply_to; apply: eq_bigr => i _; rewrite mulr_sumr; apply: eq_bigr => j _.
by rewrite mulrA.
Qed.

Lemma dotZl N v w (z : C) : dot N (fun i => z * v i) w = z^* * dot N v w.
Proof. by rewrite dotC dotZr rmorphM /= -dotC. Qed.
Lemma dotDl N v v' w : dot N (fun i => v i + v' i) w = dot N v w + dot N v' w.
Proof. by rewrite dotC dotDr rmorphD /= -!dotC. Qed.
Lemma dot_extl N v v' w : (forall i, (i < N)%N -> v i = v' i) -> dot N v w = dot N v' w.
Proof. by move=> H; rewrite dotC (dot_ext _ H) -dotC. Qed.
Lemma dot_ext2 N v v' w w' : (forall i, (i < N)%N -> v i = v' i) -> (forall i, (i < N)%N -> w i = w' i) ->
  dot N v w = dot N v' w'.
Proof. by move=> H H'; rewrite (dot_ext _ H') (dot_extl _ H). Qed.
Lemma apply_ext N A w w' i : (forall i, (i < N)%N -> w i = w' i) -> apply_to N A w i = apply_to N A w' i.
Proof. by move=> H; apply: eq_bigr => j _; rewrite H. Qed.
Lemma apply_extM N A A' w i : (forall i j, (i < N)%N -> (j < N)%N -> A i j = A' i j) -> (i < N)%N ->
  apply_to N A w i = apply_to N A' w i.
Proof. by move=> H hi; apply: eq_bigr => j _; rewrite H. Qed.
Lemma applyZ N A w (z : C) i : apply_to N A (fun i => z * w i) i = z * apply_to N A w i.
Proof. by rewrite /apply_to mulr_sumr; apply: eq_bigr => j _; rewrite mulrCA. Qed.
Lemma applyD N A w w' i : apply_to N A (fun i => w i + w' i) i = apply_to N A w i + apply_to N A w' i.
Proof. by rewrite /apply_to -big_split; apply: eq_bigr => j _; rewrite mulrDr. Qed.

(** A phase does not change an expectation value. *)
Lemma expect_phase N A v u (z : C) : z^* * z = 1 -> (forall i, (i < N)%N -> u i = z * v i) ->
  dot N u (apply_to N A u) = dot N v (apply_to N A v).
Proof.
move=> z1 E.
rewrite (@dot_ext2 _ _ (fun i => z * v i) _ (fun i => z * apply_to N A v i)) //; last first.
  by move=> i hi; rewrite (apply_ext _ _ E) applyZ.
by rewrite dotZl dotZr mulrA z1 mul1r.
Qed.

Lemma cd_dot N (v u : R -> nat -> C) t dv du :
  (forall i, (i < N)%N -> cderiv (fun t => v t i) t (dv i)) ->
  (forall i, (i < N)%N -> cderiv (fun t => u t i) t (du i)) ->
  cderiv (fun t => dot N (v t) (u t)) t (dot N dv (u t) + dot N (v t) du).
Proof.
move=> Hv Hu; rewrite /dot -big_split; apply: cd_sum_ord => i.
by apply: cd_mul; [apply: cd_conj; apply: Hv | apply: Hu].
Qed.
Lemma cd_apply N (G : R -> nat -> nat -> C) (v : R -> nat -> C) t G2 dv i : (i < N)%N ->
  (forall i j, (i < N)%N -> (j < N)%N -> cderiv (fun t => G t i j) t (G2 i j)) ->
  (forall i, (i < N)%N -> cderiv (fun t => v t i) t (dv i)) ->
  cderiv (fun t => apply_to N (G t) (v t) i) t (apply_to N G2 (v t) i + apply_to N (G t) dv i).
Proof.
move=> hi HG Hv; rewrite /apply_to -big_split; apply: cd_sum_ord => j.
by apply: cd_mul; [apply: HG | apply: Hv].
Qed.

Lemma ReZ0 (z r : C) : complex.Re z = 0 -> complex.Im r = 0 -> complex.Re (z^* * r) = 0.
Proof.
by case: z r => [a b] [c e] /= -> ->; rewrite mul0r mulr0 subr0.
Qed.
Lemma conj_real (z : C) : z = z^* -> complex.Im z = 0.
Proof.
case: z => a b [] /= E; have : b *+ 2 = 0 by rewrite mulr2n {1}E addNr.
by move=> /eqP; rewrite Num.Theory.mulrn_eq0 => /eqP.
Qed.
Lemma imaginary (z : C) : z^* + z = 0 -> complex.Re z = 0.
Proof.
move=> /(congr1 (@complex.Re _)); rewrite ReD ReJ /= => /eqP.
by rewrite -mulr2n Num.Theory.mulrn_eq0 => /eqP.
Qed.

(** Expectation value of [G t] in a normalised state [v t]. *)
Section Expect.
Variables (N : nat) (G : R -> nat -> nat -> C) (G2 : nat -> nat -> C) (t0 : R).
Variables (v : R -> nat -> C) (dv : nat -> C).
Hypothesis HG : forall i j, (i < N)%N -> (j < N)%N -> cderiv (fun t => G t i j) t0 (G2 i j).
Hypothesis Hv : forall i, (i < N)%N -> cderiv (fun t => v t i) t0 (dv i).
Hypothesis herm : hermitian N (G t0).
Hypothesis norm : near t0 (fun t => dot N (v t) (v t) = 1).

Lemma norm_slope : complex.Re (dot N (v t0) dv) = 0.
Proof.
have D := cd_dot Hv Hv; apply: imaginary; rewrite -dotC.
apply: cd_unique D _; have [r [r0 H]] := norm.
by apply: (cd_near r0 (f := fun=> 1)); [move=> t /H -> | apply: cd_const].
Qed.

Lemma expect_real : complex.Im (dot N (v t0) (apply_to N (G t0) (v t0))) = 0.
Proof. by apply: conj_real; apply: dot_herm. Qed.

(** [du] is the derivative of the state up to a change of phase. *)
Lemma expect_slope du : (forall i, (i < N)%N -> du i = dv i - dot N (v t0) dv * v t0 i) ->
  has_derivative (fun t => complex.Re (dot N (v t) (apply_to N (G t) (v t)))) t0
    (Rmult 2 (complex.Re (dot N du (apply_to N (G t0) (v t0)))) +
     complex.Re (dot N (v t0) (apply_to N G2 (v t0)))).
Proof.
move=> Hu.
have [D _] := cd_dot Hv (fun i hi => cd_apply hi HG Hv).
apply: hd_eq D _; rewrite dotDr !ReD.
rewrite (dot_herm (v t0) dv herm) ReJ.
have -> : complex.Re (dot N du (apply_to N (G t0) (v t0))) = complex.Re (dot N dv (apply_to N (G t0) (v t0))).
  rewrite (@dot_extl _ du (fun i => dv i + (- dot N (v t0) dv) * v t0 i)); last by move=> i hi; rewrite Hu // mulNr.
  rewrite dotDl dotZl ReD rmorphN mulNr ReN.
  by rewrite ReZ0 ?oppr0 ?addr0 //; [exact: norm_slope | exact: expect_real].
exact: twice.
Qed.
End Expect.
