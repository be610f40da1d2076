(** MinMaxProofs.v -- comparison of the energies of two operators, level by level. *)
From Coq Require Import Reals ZArith.
From Verif.Model Require Import Base Units Edge Accuracy HamConst.
From mathcomp Require Import all_ssreflect all_algebra.
From mathcomp Require Import complex ring.
From Verif.Numerics Require Import RStruct Bridge Spectral.
From Verif.Model Require Import Op Transform Ham.
From Verif.Spec Require Import OpSpec PerturbSpec LevelsSpec.
From Verif.Proofs Require Import OpProofs PerturbProofs.

Set Implicit Arguments.
Unset Strict Implicit.
Unset Printing Implicit Defensive.
Import GRing.Theory Order.TTheory.
Local Open Scope ring_scope.
Local Open Scope complex_scope.

Definition nrm (z : C) : R := complex.Re z * complex.Re z + complex.Im z * complex.Im z.
Lemma nrmE (z : C) : z^* * z = (nrm z)%:C.
Proof. by case: z => a b; rewrite /nrm /=; simpc; rewrite [b * a]mulrC addrN. Qed.
Lemma nrm2 z : nrm z = complex.Re z ^+ 2 + complex.Im z ^+ 2. Proof. by rewrite /nrm !expr2. Qed.
Lemma nrm_ge0 z : 0 <= nrm z.
Proof. by rewrite nrm2 Num.Theory.addr_ge0 // Num.Theory.sqr_ge0. Qed.
Lemma nrm_eq0 z : nrm z = 0 -> z = 0.
Proof.
move=> /eqP; rewrite nrm2 Num.Theory.paddr_eq0 ?Num.Theory.sqr_ge0 // !sqrf_eq0 => /andP [/eqP a /eqP b].
by case: z a b => x y /= -> ->.
Qed.
Lemma nrm0 : nrm 0 = 0.
Proof. by rewrite nrm2 (_ : complex.Re 0 = 0) // (_ : complex.Im 0 = 0) // expr0n addr0. Qed.
Lemma ReR (x : R) : complex.Re (x%:C) = x. Proof. by []. Qed.
Lemma Rsum_C (I : Type) (r : seq I) (F : I -> R) : \sum_(i <- r) (F i)%:C = (\sum_(i <- r) F i)%:C.
Proof. by rewrite rmorph_sum. Qed.

(** A combination of orthonormal eigenvectors. *)
Lemma combination n (h : nat -> nat -> C) (E : nat -> R) (v : nat -> nat -> C) m (c x : nat -> C) :
  (forall i a, (i < m)%N -> (a < n)%N -> \sum_(b < n) h a b * v i b = (E i)%:C * v i a) ->
  (forall i j, (i < m)%N -> (j < m)%N -> \sum_(a < n) (v i a)^* * v j a = if i == j then 1 else 0) ->
  (forall a, (a < n)%N -> x a = \sum_(i < m) c i * v i a) ->
  \sum_(a < n) (x a)^* * x a = (\sum_(i < m) nrm (c i))%:C /\
  \sum_(a < n) (x a)^* * (\sum_(b < n) h a b * x b) = (\sum_(i < m) nrm (c i) * E i)%:C.
Proof.
move=> EV ON X.
have gen (g : nat -> R) (y : nat -> C) : (forall a, (a < n)%N -> y a = \sum_(i < m) c i * (g i)%:C * v i a) ->
  \sum_(a < n) (x a)^* * y a = (\sum_(i < m) nrm (c i) * g i)%:C.
  move=> Y; transitivity (\sum_(i < m) \sum_(j < m) ((c i)^* * (c j * (g j)%:C)) * \sum_(a < n) (v i a)^* * v j a).
    rewrite (eq_bigr (fun a : 'I_n => \sum_(i < m) \sum_(j < m) ((c i)^* * (c j * (g j)%:C)) * ((v i a)^* * v j a))).
      rewrite exchange_big; apply: eq_bigr => i _; rewrite exchange_big; apply: eq_bigr => j _.
      by rewrite mulr_sumr.
    move=> a _; rewrite X // Y // cj_sum mulr_suml; apply: eq_bigr => i _; rewrite cjM mulr_sumr; apply: eq_bigr => j _.
    by move: ((c i)^*) (c j) ((g j)%:C) ((v i a)^*) (v j a) => z1 z2 z3 z4 z5; ring.
  rewrite -Rsum_C; apply: eq_bigr => i _; rewrite (bigD1 i) //= [X in _ + X]big1 ?addr0.
    by rewrite ON // eqxx mulr1 mulrA nrmE cRM.
  by move=> j ne; rewrite ON // eq_sym val_eqE (negbTE ne) mulr0.
split.
  have -> : \sum_(i < m) nrm (c i) = \sum_(i < m) nrm (c i) * 1 by apply: eq_bigr => i _; rewrite mulr1.
  apply: (gen (fun=> 1)) => a ha.
  by rewrite X //; apply: eq_bigr => i _; rewrite cR1 mulr1.
apply: (gen E (fun a => \sum_(b < n) h a b * x b)) => a ha; transitivity (\sum_(i < m) c i * \sum_(b < n) h a b * v i b).
  rewrite (eq_bigr (fun b : 'I_n => \sum_(i < m) c i * (h a b * v i b))).
    by rewrite exchange_big; apply: eq_bigr => i _; rewrite mulr_sumr.
  by move=> b _; rewrite X // mulr_sumr; apply: eq_bigr => i _; rewrite mulrCA.
by apply: eq_bigr => i _; rewrite EV // mulrA.
Qed.

(** k equations for k+1 unknowns. *)
Lemma underdetermined k (M : nat -> nat -> C) : exists c : nat -> C,
  (exists2 i, (i < k.+1)%N & c i <> 0) /\ forall j, (j < k)%N -> \sum_(i < k.+1) c i * M i j = 0.
Proof.
pose Mx : 'M[C]_(k.+1, k) := \matrix_(i, j) M i j.
have : kermx Mx != 0.
  rewrite -mxrank_eq0 mxrank_ker subn_eq0 -ltnNge; apply: leq_ltn_trans (rank_leq_col _) _; exact: ltnSn.
rewrite -nz_row_eq0; set r := nz_row _ => nz.
have rM : r *m Mx = 0 by apply/sub_kermxP; apply: nz_row_sub.
exists (fun i => r 0 (inord i)); split.
  case/rV0Pn: nz => i ri; exists i => //; apply/eqP; by rewrite inord_val.
move=> j hj; have := congr1 (fun A : 'rV[C]_k => A 0 (Ordinal hj)) rM; rewrite !mxE => e; rewrite -[RHS]e.
by apply: eq_bigr => i _; rewrite !mxE inord_val.
Qed.

Lemma complete n (v : nat -> nat -> C) f a :
  (forall i j, (i < n)%N -> (j < n)%N -> \sum_(a < n) (v i a)^* * v j a = if i == j then 1 else 0) ->
  (a < n)%N -> f a = \sum_(j < n) dot n (v j) f * v j a.
Proof.
move=> ON ha; pose vs := [seq v i | i <- iota 0 n].
have sv : size vs = n by rewrite size_map size_iota.
have nv i : (i < n)%N -> nth (fun=> 0) vs i = v i by move=> hi; rewrite (nth_map 0%N) ?size_iota // nth_iota.
have O : orthonormal n vs by move=> i j; rewrite sv => hi hj; rewrite !nv // /dot ON.
by rewrite (resolution f O sv ha) sv; apply: eq_bigr => j _; rewrite nv.
Qed.

(** If no state loses more than [delta] by the embedding [J], no level falls by more. *)
Lemma minmax (A A' : op) E E' (J : nat -> nat -> C) (delta : R) k : energies A E -> energies A' E' ->
  (forall u, weight (dim A') (apply_to (dim A) J u) = weight (dim A) u) ->
  (forall u, Rle (expect A' (apply_to (dim A) J u)) (expect A u + delta * weight (dim A) u)) ->
  (k < dim A)%N -> (k < dim A')%N -> Rle (E' k) (E k + delta).
Proof.
move=> [v [As EV ON]] [v' [As' EV' ON']] iso bound hk hk'.
have [c [[i0 hi0 ci0] cM]] := underdetermined k (fun i j => dot (dim A') (v' j) (apply_to (dim A) J (v i))).
pose u a := \sum_(i < k.+1) c i * v i a.
have lt i : (i < k.+1)%N -> (i < dim A)%N by move=> hi; apply: leq_ltn_trans hk.
have [W1 X1] := combination (fun i a hi ha => EV i a (lt i hi) ha) (fun i j hi hj => ON i j (lt i hi) (lt j hj))
  (fun a _ => erefl (u a)).
pose x := apply_to (dim A) J u; pose d j := dot (dim A') (v' j) x.
have XE a : (a < dim A')%N -> x a = \sum_(j < dim A') d j * v' j a by move=> ha; exact: (complete x ON' ha).
have [W2 X2] := combination EV' ON' XE.
have d0 j : (j < k)%N -> d j = 0.
  move=> hj; rewrite -(cM j hj) /d /dot.
  rewrite (eq_bigr (fun b : 'I_(dim A') => \sum_(i < k.+1) c i * ((v' j b)^* * apply_to (dim A) J (v i) b))).
    by rewrite exchange_big; apply: eq_bigr => i _; rewrite mulr_sumr.
  move=> b _; rewrite /x /apply_to /u.
  rewrite (eq_bigr (fun a : 'I_(dim A) => \sum_(i < k.+1) c i * (J b a * v i a))).
    rewrite exchange_big mulr_sumr; apply: eq_bigr => i _; by rewrite -mulr_sumr mulrCA.
  by move=> a _; rewrite mulr_sumr; apply: eq_bigr => i _; rewrite mulrCA.
move: (iso u) (bound u); rewrite /weight /expect -/x W1 W2 X1 X2 !ReR; set S := \sum_(i < k.+1) nrm (c i) => SE.
have Sp : 0 < S.
  rewrite /S (bigD1 (Ordinal hi0)) //= Num.Theory.ltr_paddr //.
    by apply: Num.Theory.sumr_ge0 => i _; exact: nrm_ge0.
  by rewrite lt_neqAle nrm_ge0 andbT eq_sym; apply/eqP => /nrm_eq0.
have up : \sum_(i < k.+1) nrm (c i) * E i <= S * E k.
  rewrite /S mulr_suml; apply: Num.Theory.ler_sum => i _; apply: Num.Theory.ler_wpmul2l; first exact: nrm_ge0.
  by apply/RleP; apply: As; rewrite -ltnS ltn_ord.
have lo : S * E' k <= \sum_(j < dim A') nrm (d j) * E' j.
  rewrite -SE mulr_suml; apply: Num.Theory.ler_sum => j _.
  case: (ltnP j k) => jk; first by rewrite d0 // nrm0 !mul0r.
  apply: Num.Theory.ler_wpmul2l; first exact: nrm_ge0.
  by apply/RleP; apply: As'; rewrite jk ltn_ord.
move=> /RleP bd; apply/RleP; rewrite -(Num.Theory.ler_pmul2l Sp) mulrDr [S * delta]mulrC.
by apply: le_trans lo _; apply: le_trans bd _; rewrite Num.Theory.ler_add2r.
Qed.

(** Energies exist and are determined by the operator. *)
Lemma energies_exist A : herm A -> exists E, energies A E.
Proof.
move=> [_ H]; have [E [v P]] := spectral H; exists E, v; exact: P.
Qed.
