(** GroundProofs.v -- the ground state when every coupling lowers the energy in suitable phases. *)
From Coq Require Import Reals ZArith Lia Lra Psatz.
From Verif.Model Require Import Base Units Edge HamConst.
Lemma re_bound (a b s : R) : (0 <= s -> a * a + b * b = s * s -> - s <= a)%R.
Proof. intros p e. assert (b2 := Rle_0_sqr b). unfold Rsqr in b2. nra. Qed.
Lemma weak_zero (q d : R) : (0 <= q -> 0 < d -> q * d <= 0 -> q = 0)%R.
Proof. intros. nra. Qed.
From mathcomp Require Import all_ssreflect all_algebra.
From mathcomp Require Import complex ring zify.
From Verif.Numerics Require Import RStruct Bridge.
From Verif.Model Require Import Op.
From Verif.Spec Require Import OpSpec LevelsSpec PerturbSpec.
From Verif.Proofs Require Import OpProofs MinMaxProofs OrderProofs SimpleProofs.

Set Implicit Arguments.
Unset Strict Implicit.
Unset Printing Implicit Defensive.
Import GRing.Theory.
Local Open Scope ring_scope.
Local Open Scope complex_scope.

Lemma nrmM x y : nrm (x * y) = nrm x * nrm y.
Proof.
have e : (nrm (x * y))%:C = (nrm x * nrm y)%:C.
  by rewrite -nrmE cjM mulrACA !nrmE -cRM.
by case: e.
Qed.
Lemma nrmJ z : nrm (z^*) = nrm z.
Proof.
have e : (nrm (z^*))%:C = (nrm z)%:C by rewrite -!nrmE -[(z^*)^*]/(conjc (conjc z)) conjcK mulrC.
by case: e.
Qed.
Lemma nrmR (r : R) : nrm (r%:C) = r * r.
Proof.
have e : (nrm (r%:C))%:C = (r * r)%:C by rewrite -nrmE cjR -cRM.
by case: e.
Qed.
Definition mag (z : C) : R := sqrt (nrm z).
Lemma mag_ge0 z : Rle 0 (mag z). Proof. exact: sqrt_pos. Qed.
Lemma mag2 z : mag z * mag z = nrm z.
Proof. by rewrite -RmultE sqrt_sqrt //; apply/RleP; exact: nrm_ge0. Qed.
Lemma mag0 z : mag z = 0 -> z = 0.
Proof. by move=> e; apply: nrm_eq0; rewrite -mag2 e mulr0. Qed.

Section Ground.
Variables (A : op) (E : nat -> R) (v : nat -> nat -> C) (t : nat -> C) (s : nat -> nat -> R).
Let n := dim A.
Hypothesis L : levels_of A E v.
Hypothesis simple : forall j, (0 < j < n)%N -> Rlt (E 0%N) (E j).
Hypothesis unit : forall a, (a < n)%N -> (t a)^* * t a = 1.
Hypothesis spos : forall a b, Rle 0 (s a b).
Hypothesis off : forall a b, (a < n)%N -> (b < n)%N -> a != b -> ent A a b = - ((s a b)%:C * (t a * (t b)^*)).
Hypothesis n0 : (0 < n)%N.
Let g := v 0%N.
Let u a : C := t a * (mag (g a))%:C.

Lemma nrm_t a : (a < n)%N -> nrm (t a) = 1.
Proof. by move=> ha; have := unit ha; rewrite nrmE => -[]. Qed.
Lemma unitC a : (a < n)%N -> t a * (t a)^* = 1.
Proof. by move=> ha; rewrite mulrC unit. Qed.

Lemma u_off a b : (a < n)%N -> (b < n)%N -> a != b -> (u a)^* * (ent A a b * u b) = (- (s a b * (mag (g a) * mag (g b))))%:C.
Proof.
move=> ha hb ne; rewrite off // /u cjM cjR.
have -> : (- (s a b * (mag (g a) * mag (g b))))%:C = - ((s a b)%:C * ((mag (g a))%:C * (mag (g b))%:C)).
  by rewrite -!cRM -[RHS]/(- _) rmorphN.
have ua := unit ha; have ub := unit hb.
transitivity (- ((s a b)%:C * ((mag (g a))%:C * (mag (g b))%:C)) * ((t a)^* * t a) * ((t b)^* * t b)).
  by move: ((t a)^*) (t a) ((t b)^*) (t b) ((s a b)%:C) ((mag (g a))%:C) ((mag (g b))%:C) => ? ? ? ? ? ? ?; ring.
by rewrite ua ub !mulr1.
Qed.
Lemma term_le a b : (a < n)%N -> (b < n)%N ->
  Rle (complex.Re ((u a)^* * (ent A a b * u b))) (complex.Re ((g a)^* * (ent A a b * g b))).
Proof.
move=> ha hb; case: (eqVneq a b) => [<-|ne].
  rewrite (_ : (u a)^* * (ent A a a * u a) = (g a)^* * (ent A a a * g a)); first exact: Rle_refl.
  have K (x : C) : x^* * (ent A a a * x) = ent A a a * (nrm x)%:C by rewrite mulrCA nrmE.
  by rewrite !K /u nrmM nrm_t // nrmR mag2 mul1r.
rewrite u_off //; set z := (g a)^* * _.
have e : nrm z = (s a b * (mag (g a) * mag (g b))) * (s a b * (mag (g a) * mag (g b))).
  rewrite /z !nrmM nrmJ off // -(mag2 (g a)) -(mag2 (g b)).
  have -> : nrm (- ((s a b)%:C * (t a * (t b)^*))) = s a b * s a b.
    by rewrite -mulN1r !nrmM nrmJ nrmR !nrm_t // !mulr1 -cR1 -cRN nrmR mulrNN !mul1r.
  by move: (s a b) (mag (g a)) (mag (g b)) => ? ? ?; ring.
apply: (re_bound _ (complex.Im z)); last exact: e.
by apply: Rmult_le_pos; [exact: spos|apply: Rmult_le_pos; exact: mag_ge0].
Qed.

Lemma u_coefs : exists2 d : C, nrm d = 1 & forall a, (a < n)%N -> u a = d * g a.
Proof.
have [asc EV ON] := L.
pose d j := PerturbSpec.dot n (v j) u.
have X a : (a < n)%N -> u a = \sum_(j < n) d j * v j a by move=> ha; exact: (complete u ON ha).
have [W Q] := combination EV ON X.
have W1 : \sum_(i < n) nrm (d i) = 1.
  have := ON 0%N 0%N n0 n0; rewrite eqxx => w.
  have : (\sum_(i < n) nrm (d i))%:C = 1 :> C.
    rewrite -W -w; apply: eq_bigr => a _; rewrite !nrmE; congr (_%:C).
    by rewrite /u nrmM nrm_t // nrmR mag2 mul1r.
  by case.
have low : Rle (\sum_(i < n) nrm (d i) * E i) (E 0%N).
  have e0 : \sum_(a < n) (g a)^* * (\sum_(b < n) ent A a b * g b) = (E 0%N)%:C.
    transitivity ((E 0%N)%:C * \sum_(a < n) (g a)^* * g a); last by rewrite /g ON // mulr1.
    by rewrite mulr_sumr; apply: eq_bigr => a _; rewrite EV // mulrCA.
  have -> : E 0%N = complex.Re (\sum_(a < n) \sum_(b < n) (g a)^* * (ent A a b * g b)).
    by rewrite (eq_bigr (fun a : 'I_n => (g a)^* * (\sum_(b < n) ent A a b * g b))) ?e0 // => a _; rewrite mulr_sumr.
  have -> : \sum_(i < n) nrm (d i) * E i = complex.Re (\sum_(a < n) \sum_(b < n) (u a)^* * (ent A a b * u b)).
    by rewrite (eq_bigr (fun a : 'I_n => (u a)^* * (\sum_(b < n) ent A a b * u b))) ?Q // => a _; rewrite mulr_sumr.
  apply/RleP; rewrite !Re_sum; apply: Num.Theory.ler_sum => a _; rewrite !Re_sum; apply: Num.Theory.ler_sum => b _.
  by apply/RleP; exact: term_le.
have z j : (0 < j < n)%N -> nrm (d j) = 0.
  move=> /andP [j0 hj]; apply: (weak_zero _ (Rminus (E j) (E 0%N))).
  - by apply/RleP; exact: nrm_ge0.
  - by apply: Rlt_Rminus; apply: simple; rewrite j0 hj.
  have : \sum_(i < n) nrm (d i) * (E i - E 0%N) <= 0.
    rewrite (eq_bigr (fun i : 'I_n => nrm (d i) * E i - nrm (d i) * E 0%N)); last by move=> i _; rewrite mulrBr.
    by rewrite sumrB -mulr_suml W1 mul1r Num.Theory.subr_le0; apply/RleP.
  rewrite (bigD1 (Ordinal hj)) //= => le; apply/RleP; apply: Order.POrderTheory.le_trans le.
  rewrite -RmultE -RminusE Num.Theory.ler_addl; apply: Num.Theory.sumr_ge0 => i _; apply: Num.Theory.mulr_ge0; first exact: nrm_ge0.
  by rewrite Num.Theory.subr_ge0; apply/RleP; apply: asc; rewrite leq0n ltn_ord.
exists (d 0%N).
  rewrite -W1 (bigD1 (Ordinal n0)) //= big1 ?addr0 // => i ne; apply: z; rewrite ltn_ord andbT lt0n.
  by apply: contra ne => /eqP e; apply/eqP/val_inj.
move=> a ha; rewrite X // (bigD1 (Ordinal n0)) //= big1 ?addr0 // => i ne.
rewrite (nrm_eq0 (z i _)) ?mul0r // ltn_ord andbT lt0n.
by apply: contra ne => /eqP e; apply/eqP/val_inj.
Qed.

(** No state is empty if the states are joined one after the other. *)
Lemma occupied : (forall a, (a.+1 < n)%N -> s a.+1 a <> 0) -> g 0%N <> 0 -> forall a, (a < n)%N -> g a <> 0.
Proof.
have [asc EV ON] := L; have [d d1 ud] := u_coefs => sn g0; elim=> [//|a IH] ha z.
have row : \sum_(b < n) ent A a.+1 b * u b = 0.
  transitivity (d * \sum_(b < n) ent A a.+1 b * g b); first by rewrite mulr_sumr; apply: eq_bigr => b _; rewrite ud // mulrCA.
  by rewrite /g EV // -/g z !mulr0.
have : \sum_(b < n | (b : nat) != a.+1) s a.+1 b * mag (g b) = 0.
  have : (\sum_(b < n | (b : nat) != a.+1) s a.+1 b * mag (g b))%:C = 0 :> C.
    transitivity (- ((t a.+1)^* * \sum_(b < n) ent A a.+1 b * u b)); last by rewrite row mulr0 oppr0.
    rewrite [X in - (_ * X)](bigD1 (Ordinal ha)) //= /u z (_ : mag 0 = 0); last by rewrite /mag nrm0 sqrt_0.
    rewrite cR0 !mulr0 add0r mulr_sumr -sumrN rmorph_sum; apply: eq_big => // b ne.
    rewrite off // 1?eq_sym //; have ub := unit (ltn_ord b); have ua := unit ha.
    rewrite [LHS]rmorphM; transitivity (((s a.+1 b)%:C * (mag (g b))%:C) * ((t a.+1)^* * t a.+1) * ((t b)^* * t b)); first by rewrite ua ub !mulr1.
    by move: ((t a.+1)^*) (t a.+1) ((t b)^*) (t b) ((s a.+1 b)%:C) ((mag (g b))%:C) => ? ? ? ? ? ?; ring.
  by case.
move/eqP; rewrite Num.Theory.psumr_eq0; last by move=> b _; apply/RleP; apply: Rmult_le_pos; [exact: spos|exact: mag_ge0].
move=> /allP /(_ (Ordinal (ltnW ha))); rewrite mem_index_enum => /(_ isT) /=.
rewrite ltn_eqF // mulf_eq0 => /orP [/eqP /(sn _ ha)//|/eqP /mag0]; exact: IH (ltnW ha).
Qed.

(** The phases of neighbours are those of the couplings. *)
Lemma aligned a b : (a < n)%N -> (b < n)%N -> a != b ->
  (g a)^* * (ent A a b * g b) = (- (s a b * (mag (g a) * mag (g b))))%:C.
Proof.
have [d d1 ud] := u_coefs; move=> ha hb ne; rewrite -u_off // !ud // cjM.
have -> : d^* * (g a)^* * (ent A a b * (d * g b)) = (d^* * d) * ((g a)^* * (ent A a b * g b)).
  by move: (d^*) ((g a)^*) (ent A a b) (g b) => ? ? ? ?; ring.
by rewrite nrmE d1 mul1r.
Qed.
End Ground.
