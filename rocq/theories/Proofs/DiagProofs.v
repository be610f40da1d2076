(** DiagProofs.v -- sorting of eigenpairs; eigenvalues of Hermitian operators. *)
From Coq Require Import Reals ZArith.
From Verif.Model Require Import Base Units.
From mathcomp Require Import all_ssreflect all_algebra.
From mathcomp Require Import complex.
From Verif.Numerics Require Import RStruct.
From Verif.Model Require Import Op Diag.
From Verif.Spec Require Import OpSpec EigSpec.
From Verif.Proofs Require Import OpProofs.

Set Implicit Arguments.
Unset Strict Implicit.
Unset Printing Implicit Defensive.
Import GRing.Theory Num.Theory Order.POrderTheory Order.TotalTheory.
Local Open Scope ring_scope.
Local Open Scope complex_scope.

Lemma cle_re a b : cle a b -> complex.Re a <= complex.Re b.
Proof. by case=> [/RltP/ltW //|[-> _]]. Qed.

Lemma re_sorted argsort lam : sorts argsort ->
  sort Order.le [seq complex.Re z | z <- lam]
  = [seq complex.Re (nth 0 lam k) | k <- argsort lam].
Proof.
move=> Ha; have [Hp Hs] := Ha lam.
have sz : size (argsort lam) = size lam by rewrite (perm_size Hp) size_iota.
apply: (sorted_eq le_trans le_anti).
- exact: (sort_sorted le_total).
- apply/(sortedP 0) => i; rewrite size_map sz => hi.
  rewrite !(nth_map 0%N) ?sz ?(ltn_trans (ltnSn i)) //.
  by apply/cle_re/Hs; rewrite leqnSn hi.
- rewrite perm_sort perm_sym.
  have E : [seq complex.Re z | z <- lam] = [seq complex.Re (nth 0 lam k) | k <- iota 0 (size lam)].
    by rewrite -{1}(take_size lam) -(map_nth_iota0 0 (leqnn (size lam))) -map_comp.
  rewrite E; exact: perm_map.
Qed.

Lemma sort_eigsE argsort lam V : sorts argsort ->
  sort_eigs argsort lam V
  = mkE [seq complex.Re (nth 0 lam k) | k <- argsort lam] [seq (fun i => V i k) | k <- argsort lam].
Proof. by move=> Ha; rewrite /sort_eigs (re_sorted _ Ha). Qed.

Lemma ascending_sort (l : seq R) : ascending (sort Order.le l).
Proof.
move=> i j /andP [ij js]; apply/RleP.
by apply: (sorted_leq_nth le_trans le_refl) => //; [exact: (sort_sorted le_total)|rewrite inE (leq_ltn_trans ij)].
Qed.

(** ** Eigenvalues of Hermitian operators *)
Lemma cjmul (x : C) : x^* * x = (complex.Re x * complex.Re x + complex.Im x * complex.Im x)%:C.
Proof.
case: x => a b; apply/eqP; rewrite eq_complex /=; apply/andP; split; apply/eqP.
  by rewrite mulNr opprK.
by rewrite mulNr [b * a]mulrC subrr.
Qed.
Lemma sqnorm_ge0 (x : C) : 0 <= complex.Re x * complex.Re x + complex.Im x * complex.Im x.
Proof. by rewrite -!expr2 addr_ge0 // sqr_ge0. Qed.
Lemma sqnorm_eq0 (x : C) : (complex.Re x * complex.Re x + complex.Im x * complex.Im x == 0) = (x == 0).
Proof.
rewrite -!expr2 paddr_eq0 ?sqr_ge0 // !sqrf_eq0 eq_complex.
by case: x.
Qed.

Lemma herm_real H z v : herm H -> eigenpair H z v -> complex.Im z = 0.
Proof.
move=> Hh [Hv [i0 hi0 /eqP nz]].
set n := dim H in Hv hi0.
pose q := \sum_(i < n) \sum_(j < n) (v i)^* * ent H i j * v j.
pose N := \sum_(i < n) (v i)^* * v i.
have qN : q = z * N.
  rewrite /q /N mulr_sumr; apply: eq_bigr => i _.
  rewrite mulrCA -Hv // mulr_sumr; apply: eq_bigr => j _; by rewrite mulrA.
have qc : q^* = q.
  rewrite /q cj_sum; under eq_bigr do rewrite cj_sum.
  rewrite exchange_big /=; apply: eq_bigr => j _; apply: eq_bigr => i _.
  rewrite 2!cjM cjK (Hh.2 j i) // [ent (oadj H) _ _]/((ent H i j)^*) -mulrA mulrC; congr (_ * _); exact: mulrC.
have Nc : N^* = N by rewrite /N cj_sum; apply: eq_bigr => i _; rewrite cjM cjK mulrC.
have Nn0 : N != 0.
  have -> : N = (\sum_(i < n) (complex.Re (v i) * complex.Re (v i) + complex.Im (v i) * complex.Im (v i)))%:C.
    by rewrite rmorph_sum; apply: eq_bigr => i _; rewrite cjmul.
  rewrite eq_complex; cbn [complex.Re complex.Im]; rewrite eqxx andbT.
  rewrite psumr_eq0; last by move=> i _; exact: sqnorm_ge0.
  apply/allPn; exists (Ordinal hi0); first by rewrite mem_index_enum.
  by rewrite /= sqnorm_eq0.
have : z^* = z.
  apply: (mulIf Nn0); by rewrite -{1}Nc -cjM -qN qc qN.
case: z {qN Hv} => a b /eqP; rewrite eq_complex /= => /andP [_ /eqP hb].
apply/eqP; move/eqP: hb; by rewrite eqNr.
Qed.
