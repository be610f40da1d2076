(** SweetProofs.v -- levels at bias points unchanged by reversal. *)
From Coq Require Import Reals ZArith String Lia.
From Verif.Model Require Import Base Units Noise Edge Elements LCWB HamConst PartialConst Thermal RateConst.
From mathcomp Require Import all_ssreflect all_algebra.
From mathcomp Require Import complex ring.
From Verif.Numerics Require Import RStruct Bridge.
From Verif.Model Require Import Transform Op Ham Diag CircuitSM Partial DecRate.
From Verif.Spec Require Import OpSpec GradSpec EigSpec DecSpec SymmetrySpec SweetSpec.
From Verif.Proofs Require Import OpProofs HamProofs HamProofs2 HamProofs5 HamProofs6 SMProofs MemProofs GradProofs PerturbProofs
  RateGradProofs2 NgProofs DecProofs DecProofs2 RelaxProofs HalfProofs SymmetryProofs SymmetryProofs2 SymmetryProofs3.

Set Implicit Arguments.
Unset Strict Implicit.
Unset Printing Implicit Defensive.
Import GRing.Theory.
Local Open Scope ring_scope.
Local Open Scope complex_scope.

Lemma expi_still (x : R) : sin x = 0 -> expi (GRing.opp x) = expi x.
Proof. by move=> s0; rewrite expi_opp /expi s0 /conjc oppr0. Qed.

Lemma still_ham disp h val loops B ks : still loops B ks ->
  hamiltonian disp h val (minus_flux loops) B ks = hamiltonian disp h val loops B ks.
Proof.
move=> [S1 S2]; rewrite /hamiltonian; suff -> : ind_hamil disp h val (minus_flux loops) B ks = ind_hamil disp h val loops B ks by [].
rewrite /ind_hamil.
have -> : foldl (ind_term h val (minus_flux loops) B) (Ok None) (k_ind ks) = foldl (ind_term h val loops B) (Ok None) (k_ind ks).
  elim: (k_ind ks) (Ok None) S1 => [//|[[e el] b] l IH] a H; cbn [foldl]; rewrite IH; last by move=> k hk; apply: H; right.
  congr foldl; case: a => [a|//]; cbn [ind_term].
  by have := H _ (or_introl erefl); rewrite /= => e0; rewrite ext_opp e0 oppr0.
case: foldl => [a|//]; congr Ok.
elim: (k_jj ks) a S2 => [//|[[[e el] b] w] l IH] a H; cbn [foldl]; rewrite IH; last by move=> k hk; apply: H; right.
congr foldl; cbn [jj_term]; have := H _ (or_introl erefl); rewrite /= => e0.
by rewrite /jj_exp ext_opp expi_still.
Qed.
Lemma unbiased_still loops B ks : unbiased loops -> still loops B ks.
Proof.
move=> H; have E b : ext_flux loops B b = 0.
  by rewrite /ext_flux big1 // => i _; rewrite (H _ (mem_nth 0 (ltn_ord i))) mul0r.
by split=> k _; rewrite E // sin_0.
Qed.
Lemma uncharged_same h : uncharged h -> minus_charge h = h.
Proof.
case: h => st m ng c U; rewrite /minus_charge /=; congr mkH.
by apply: FunctionalExtensionality.functional_extensionality => i; have := U i; rewrite /= => ->; rewrite oppr0.
Qed.

(** Mean values in one level. *)
Lemma scale_inner (c : C) v A w : (forall i, (i < dim A)%N -> w i = c * v i) -> inner w A w = c^* * c * inner v A v.
Proof.
move=> E; rewrite /inner mulr_sumr; apply: eq_bigr => i _; rewrite E // cjM.
rewrite (eq_bigr (fun j : 'I_(dim A) => c * (ent A i j * v j))) => [|j _]; last by rewrite E //; move: (ent A i j) (v j) => a b; ring.
by rewrite -mulr_sumr; move: (\sum_(_ < _) _) ((v i)^*) (c^*) => a b d; ring.
Qed.
Definition norm2 (n : nat) (v : nat -> C) : C := \sum_(i < n) (v i)^* * v i.
Lemma norm2_gt0 n v i : (i < n)%N -> v i <> 0 -> norm2 n v <> 0.
Proof.
move=> hi nz /eqP; rewrite /norm2 Num.Theory.psumr_eq0 => [/allP /(_ (Ordinal hi))|k _]; last first.
  by rewrite mulrC -sqr_normc Num.Theory.exprn_ge0 // Num.Theory.normr_ge0.
by rewrite mem_index_enum => /(_ isT) /=; rewrite mulf_eq0 conjc_eq0 orbb => /eqP.
Qed.
Lemma scale_norm n (c : C) v w : (forall i, (i < n)%N -> w i = c * v i) -> norm2 n w = c^* * c * norm2 n v.
Proof.
move=> E; rewrite /norm2 mulr_sumr; apply: eq_bigr => i _; rewrite E // cjM.
by move: ((v i)^*) (v i) (c^*) => a b d; ring.
Qed.

Section Level.
Variables (h : hin) (A : op) (z : R) (v : nat -> C).
Hypothesis dA : dim A = total h.
Hypothesis L : lone A z v.
Let N := total h.

Lemma lone_nz : norm2 N v <> 0.
Proof. by have [[_ [i hi nz]] _] := L; rewrite /N -dA; apply: norm2_gt0 hi nz. Qed.
Lemma norm_rev : norm2 N (rev_state h v) = norm2 N v.
Proof.
apply: eq_bigr => I _; rewrite /rev_state !(cjM, cjK) par_real //.
have s2 := par_sq (ltn_ord I); move: (par h I) (v I) ((v I)^*) s2 => a b c s2.
by have -> : a * b * (a * c) = (a * a) * (c * b) by [ring]; rewrite s2 mul1r.
Qed.

Lemma lone_rev : reversed h 1 A A ->
  exists2 c : C, c^* * c = 1 & forall I, (I < N)%N -> rev_state h v I = c * v I.
Proof.
move=> R; have [Hv H] := L; have [c E] := H _ (rev_eigen dA R Hv); rewrite dA in E; exists c => //.
have := norm_rev; rewrite (scale_norm E) -{2}[norm2 N v]mul1r; apply: mulIf; exact/eqP/lone_nz.
Qed.
Lemma mean_rev P : reversed h 1 A A -> rev2 h (-1) P P -> complex.Re (inner v P v) = 0.
Proof.
move=> R r; have [c c1 E] := lone_rev R.
have := inner_rev v v r; rewrite (scale_inner (c := c) (v := v)); last by move=> i; rewrite r.2; exact: E.
rewrite c1 mul1r mulN1r; case: (inner v P v) => a b /= [e _].
have : a + a = 0 by rewrite {1}e addNr.
by rewrite -mulr2n -mulr_natl => /eqP; rewrite mulf_eq0 Num.Theory.pnatr_eq0 => /eqP.
Qed.

Lemma mir_twice w I : (I < N)%N -> mir_state h (mir_state h w) I = w I.
Proof. by move=> hI; rewrite /mir_state par_mir // mirK // mulrA par_sq // mul1r. Qed.
Lemma lone_mir : mirrored h 1 A A -> exists p, of_parity h p v.
Proof.
move=> R; have [Hv H] := L; have [c E] := H _ (mir_eigen dA R Hv); rewrite dA in E.
have c2 : c * c = 1.
  have [[_ [i hi nz]] _] := L; rewrite dA in hi; have := mir_twice v hi.
  rewrite {1}/mir_state E; last exact: mir_lt.
  rewrite mulrCA -[par h i * v _]/(mir_state h v i) E // mulrA -{2}[v i]mul1r; apply: mulIf; exact/eqP.
have : (c - 1) * (c + 1) = 0 by rewrite -subr_sqr expr1n expr2 c2 subrr.
move/eqP; rewrite mulf_eq0 subr_eq0 addr_eq0 => /orP [] /eqP e; [exists true|exists false]; move=> I hI; by rewrite E // e.
Qed.
End Level.

Definition mir2 (h : hin) (sg : C) (A A' : op) : Prop := mirrored h sg A A' /\ dim A = total h.
Lemma inner_mir h sg A A' v w : mir2 h sg A A' -> inner (mir_state h v) A' (mir_state h w) = sg * inner v A w.
Proof.
move=> [[d E] dA]; rewrite /inner d dA.
have inj : injective (fun I : 'I_(total h) => Ordinal (mir_lt (ltn_ord I))).
  move=> I J /(congr1 (@nat_of_ord _)) /= e; apply: ord_inj.
  by rewrite -(mirK (ltn_ord I)) -(mirK (ltn_ord J)) e.
rewrite (reindex_inj inj) /= mulr_sumr; apply: eq_bigr => I _.
rewrite (reindex_inj inj) /= !mulr_sumr; apply: eq_bigr => J _.
rewrite E ?dA // /mir_state !par_mir // !mirK // cjM par_real //.
have -> : par h I * (v I)^* * (sg * (par h I * par h J * ent A I J) * (par h J * w J)) =
  (par h I * par h I) * (par h J * par h J) * (sg * ((v I)^* * (ent A I J * w J))).
  by move: (par h I) (par h J) ((v I)^*) (ent A I J) (w J) => a b c e f; ring.
by rewrite !par_sq // !mul1r.
Qed.
Lemma inner_ext A v v' w w' : (forall i, (i < dim A)%N -> v i = v' i) -> (forall i, (i < dim A)%N -> w i = w' i) ->
  inner v A w = inner v' A w'.
Proof.
move=> e1 e2; apply: eq_bigr => i _; rewrite e1 //; congr (_ * _); apply: eq_bigr => j _; by rewrite e2.
Qed.
Definition psign (p : bool) : C := if p then 1 else -1.
Lemma inner_parity h sg A p q v w : mir2 h sg A A -> of_parity h p v -> of_parity h q w ->
  sg * (psign p * psign q) = -1 -> inner v A w = 0.
Proof.
move=> r pv pw e; have := inner_mir v w r.
rewrite (@inner_ext A _ (fun i => psign p * v i) _ (fun i => psign q * w i)); first last.
- by move=> i; rewrite r.2; exact: pw.
- by move=> i; rewrite r.2; exact: pv.
have -> : inner (fun i => psign p * v i) A (fun i => psign q * w i) = psign p * psign q * inner v A w.
  rewrite /inner mulr_sumr; apply: eq_bigr => i _.
  rewrite (eq_bigr (fun j : 'I_(dim A) => psign q * (ent A i j * w j))) => [|j _]; last first.
    by rewrite mulrCA.
  rewrite -mulr_sumr cjM (_ : (psign p)^* = psign p); last by rewrite /psign; case: p {pv e} => //; rewrite ?cjN cj1.
  by move: (\sum_(_ < _) _) ((v i)^*) (psign p) (psign q) => a b x y; ring.
move=> E; have pq2 : (psign p * psign q) * (psign p * psign q) = 1.
  by rewrite /psign; case: (p); case: (q); rewrite ?(mulr1, mul1r, mulN1r, opprK).
have : inner v A w = - inner v A w.
  rewrite -{1}[inner v A w]mul1r -pq2 -mulrA E mulrA [_ * sg]mulrC e mulN1r //.
move/eqP; rewrite -addr_eq0 -mulr2n -mulr_natl mulf_eq0 Num.Theory.pnatr_eq0 => /eqP //.
Qed.
