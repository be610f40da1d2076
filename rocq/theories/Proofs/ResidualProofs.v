(** ResidualProofs.v -- residuals in terms of the eigenstates; sums of expectation values in a
    few orthonormal states. *)
From Coq Require Import Reals ZArith Lra.
From Verif.Model Require Import Base Units Edge Accuracy HamConst.
Lemma square_far (e x y : R) : (0 <= e -> e < Rabs x -> e * e < x * x + y * y)%R.
Proof.
  intros e0 h. assert (e * e < Rabs x * Rabs x)%R by (apply Rmult_le_0_lt_compat; lra).
  rewrite <- Rabs_mult, Rabs_right in H by (apply Rle_ge; apply Rle_0_sqr). assert (0 <= y * y)%R by apply Rle_0_sqr. lra.
Qed.
Lemma sq_opp (x a b : R) : ((x - a) * (x - a) + - b * - b = (x - a) * (x - a) + b * b)%R. Proof. ring. Qed.
Lemma square_drop (x y : R) : (x * x <= x * x + y * y)%R.
Proof. assert (0 <= y * y)%R by apply Rle_0_sqr. lra. Qed.
From mathcomp Require Import all_ssreflect all_algebra.
From mathcomp Require Import complex.
From Verif.Numerics Require Import RStruct Bridge.
From Verif.Model Require Import Op Transform Ham Diag.
From Verif.Spec Require Import OpSpec PerturbSpec LevelsSpec FanSpec ResidualSpec.
From Verif.Proofs Require Import OpProofs MinMaxProofs FanProofs OrderProofs.

Set Implicit Arguments.
Unset Strict Implicit.
Unset Printing Implicit Defensive.
Import GRing.Theory.
Local Open Scope ring_scope.
Local Open Scope complex_scope.

Lemma nrmM z w : nrm (z * w) = nrm z * nrm w.
Proof. by apply: complexI; rewrite (cRM (nrm z)) -!nrmE cjM mulrACA. Qed.

Section Levels.
Variables (A : op) (E : nat -> R) (v : nat -> nat -> C) (z : C) (u : nat -> C).
Hypothesis L : levels_of A E v.
Let N := dim A.
Let c i := PerturbSpec.dot N (v i) u.

Lemma weight_levels : weight N u = \sum_(i < N) nrm (c i).
Proof.
have [_ EV ON] := L; have [W _] := combination (c := c) EV ON (fun a ha => complete u ON ha).
by rewrite /weight W ReR.
Qed.
Lemma residual_levels : weight N (residual A z u) = \sum_(i < N) nrm ((E i)%:C - z) * nrm (c i).
Proof.
have [_ EV ON] := L; have X a (ha : (a < N)%N) : residual A z u a = \sum_(i < N) (((E i)%:C - z) * c i) * v i a.
  rewrite /residual (complete u ON ha).
  have -> : \sum_(b < dim A) ent A a b * u b = \sum_(i < N) c i * ((E i)%:C * v i a).
    transitivity (\sum_(b < N) \sum_(i < N) c i * (ent A a b * v i b)).
      by apply: eq_bigr => b _; rewrite (complete u ON (ltn_ord b)) mulr_sumr; apply: eq_bigr => i _; rewrite mulrCA.
    by rewrite exchange_big; apply: eq_bigr => i _; rewrite -mulr_sumr EV.
  rewrite mulr_sumr -sumrB; apply: eq_bigr => i _.
  by rewrite !mulrBl; congr (_ - _); rewrite ?mulrA // [c i * _]mulrC.
have [W _] := combination (c := fun i => ((E i)%:C - z) * c i) EV ON X.
by rewrite /weight W ReR; apply: eq_bigr => i _; exact: nrmM.
Qed.
Lemma shift_nrm x : nrm (x%:C - z) = Rplus (Rmult (Rminus x (complex.Re z)) (Rminus x (complex.Re z))) (Rmult (complex.Im z) (complex.Im z)).
Proof.
have e1 : complex.Re (x%:C - z) = x - complex.Re z by case: z.
have e2 : complex.Im (x%:C - z) = - complex.Im z by case: z => a b; rewrite -[RHS]sub0r.
rewrite /nrm e1 e2; exact: sq_opp.
Qed.

(** One energy is within the residual. *)
Lemma near_level eps : Rle 0 eps -> near_pair eps A z u -> exists2 k, (k < N)%N & Rle (Rabs (Rminus (E k) (complex.Re z))) eps.
Proof.
move=> e0 [w0 r].
case: (pickP (fun k : 'I_N => (Rabs (Rminus (E k) (complex.Re z)) <= eps)%R)) => [k /RleP h|far]; first by exists k.
exfalso; rewrite -/N residual_levels weight_levels in r; rewrite -/N weight_levels in w0.
have S : \sum_(i < N) (Rmult eps eps) * nrm (c i) < \sum_(i < N) nrm ((E i)%:C - z) * nrm (c i).
  have far' (i : 'I_N) : (Rmult eps eps) < nrm ((E i)%:C - z).
    rewrite shift_nrm; apply/RltP; apply: square_far => //; apply: Rnot_le_lt => h.
    by have := far i; move/RleP: h => ->.
  have [i0 ci0] : exists i0 : 'I_N, 0 < nrm (c i0).
    case: (pickP (fun i : 'I_N => 0 < nrm (c i))) => [i hi|z0]; first by exists i.
    move: w0; rewrite big1 => [/RltP|i _]; first by rewrite Order.POrderTheory.ltxx.
    apply/eqP; have := z0 i; rewrite Order.POrderTheory.lt_def nrm_ge0 andbT => /negbFE; exact.
  rewrite (bigD1 i0) //= [X in _ < X](bigD1 i0) //=; apply: Num.Theory.ltr_le_add.
    by rewrite Num.Theory.ltr_pmul2r.
  by apply: Num.Theory.ler_sum => i _; apply: Num.Theory.ler_wpmul2r; [exact: nrm_ge0|exact: Order.POrderTheory.ltW].
move: r; rewrite RmultE mulr_sumr => /RleP r.
by have := Order.POrderTheory.lt_le_trans S r; rewrite Order.POrderTheory.ltxx.
Qed.
End Levels.

(** Dropping the imaginary part of the value does not raise the residual. *)
Lemma near_real A E z u eps : energies A E -> near_pair eps A z u -> near_pair eps A (complex.Re z)%:C u.
Proof.
move=> [v L] [w0 r]; split=> //; apply: Rle_trans r; rewrite !(residual_levels _ _ L).
apply/RleP; apply: Num.Theory.ler_sum => i _; apply: Num.Theory.ler_wpmul2r; first exact: nrm_ge0.
rewrite !shift_nrm; apply/RleP; rewrite ReR (_ : complex.Im _%:C = 0) // Rmult_0_l Rplus_0_r; exact: square_drop.
Qed.

(** The expectation value is within the residual of the value. *)
Lemma expect_levels A E v u : levels_of A E v -> expect A u = \sum_(i < dim A) nrm (PerturbSpec.dot (dim A) (v i) u) * E i.
Proof.
move=> [_ EV ON]; have [_ X] := combination (c := fun i => PerturbSpec.dot (dim A) (v i) u) EV ON (fun a ha => complete u ON ha).
by rewrite /expect X ReR.
Qed.

(** Bessel's inequality. *)
Lemma bessel N k u w : orthonormal N k u -> \sum_(j < k) nrm (PerturbSpec.dot N (u j) w) <= \sum_(a < N) nrm (w a).
Proof.
move=> U; pose c j := PerturbSpec.dot N (u j) w; pose s a := \sum_(j < k) c j * u j a.
have Z : forall (j a : nat), (j < k)%N -> (a < N)%N -> \sum_(b < N) (fun _ _ : nat => 0 : C) a b * u j b = ((fun=> 0) j : R)%:C * u j a.
  by move=> j a _ _; rewrite mul0r big1 // => b _; rewrite mul0r.
have [ss _] := combination (h := fun _ _ => 0) (E := fun=> 0) (c := c) (x := s) Z U (fun a _ => erefl).
have sw : \sum_(a < N) (s a)^* * w a = (\sum_(j < k) nrm (c j))%:C.
  transitivity (\sum_(a < N) \sum_(j < k) (c j)^* * ((u j a)^* * w a)).
    by apply: eq_bigr => a _; rewrite cj_sum mulr_suml; apply: eq_bigr => j _; rewrite cjM mulrA.
  rewrite exchange_big -Rsum_C; apply: eq_bigr => j _ /=; rewrite -mulr_sumr -nrmE; congr (_ * _).
have ws : \sum_(a < N) (w a)^* * s a = (\sum_(j < k) nrm (c j))%:C.
  transitivity ((\sum_(a < N) (s a)^* * w a)^*).
    by rewrite cj_sum; apply: eq_bigr => a _; rewrite cjM -[((s a)^*)^*]/(conjc (conjc (s a))) conjcK mulrC.
  by rewrite sw -[(_)^*]/(conjc _) conjc_real.
rewrite -Num.Theory.subr_ge0.
have -> : \sum_(a < N) nrm (w a) - \sum_(j < k) nrm (c j) = \sum_(a < N) nrm (w a - s a).
  apply: complexI; rewrite cRB -!Rsum_C.
  have -> : \sum_(a < N) (nrm (w a - s a))%:C = \sum_(a < N) (w a)^* * w a - \sum_(a < N) (w a)^* * s a - (\sum_(a < N) (s a)^* * w a - \sum_(a < N) (s a)^* * s a).
    by rewrite -!sumrB; apply: eq_bigr => a _; rewrite -nrmE cjB mulrBl !mulrBr.
  rewrite ws sw ss subrr subr0 -?Rsum_C; congr (_ - _); by apply: eq_bigr => a _; rewrite nrmE.
by apply: Num.Theory.sumr_ge0 => a _; exact: nrm_ge0.
Qed.

(** Ky Fan's inequality for a few orthonormal states. *)
Lemma fan_few A E u k : energies A E -> orthonormal (dim A) k u -> (k <= dim A)%N ->
  lowest_sum k E <= \sum_(j < k) expect A (u j).
Proof.
move=> [v L] U kN; have [As EV ON] := L; set N := dim A in As EV ON U kN *.
pose p i j := nrm (PerturbSpec.dot N (v i) (u j)).
rewrite (eq_bigr (fun j : 'I_k => \sum_(i < N) p i j * E i)); last by move=> j _; exact: expect_levels.
pose q i := \sum_(j < k) p i j.
have -> : \sum_(j < k) \sum_(i < N) p i j * E i = \sum_(i < N) E i * q i.
  by rewrite exchange_big; apply: eq_bigr => i _; rewrite mulr_sumr; apply: eq_bigr => j _; rewrite mulrC.
apply: lowest_share => //.
- by move=> i j hij; apply/RleP; exact: As.
- move=> i hi; rewrite Num.Theory.sumr_ge0 /=; last by move=> j _; exact: nrm_ge0.
  have := bessel (v i) U; rewrite (_ : \sum_(a < N) nrm (v i a) = 1); last first.
    apply: complexI; rewrite -Rsum_C [RHS](_ : _ = 1) // -[RHS](_ : \sum_(a < N) (v i a)^* * v i a = 1).
      by apply: eq_bigr => a _; rewrite nrmE.
    by rewrite ON // eqxx.
  apply: Order.POrderTheory.le_trans; apply: Num.Theory.ler_sum => j _.
  by rewrite /p dot_conj nrm_conj.
- rewrite /q exchange_big /= (eq_bigr (fun=> 1)) ?sumr_const ?card_ord // => j _.
  rewrite -(weight_levels (u j) L) -/N /weight U ?eqxx //.
Qed.
