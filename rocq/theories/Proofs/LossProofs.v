(** LossProofs.v -- the amplitudes of a transition across the capacitors and the
    inductors of a circuit, summed. *)
From Coq Require Import Reals ZArith Lia Lra String.
From Verif.Model Require Import Base Units Edge Elements LCWB HamConst.
From Verif.Spec Require Import GraphSpec CircuitSpec.
From Verif.Proofs Require Import LCWBProofs LossKeys.
From mathcomp Require Import all_ssreflect all_algebra.
From mathcomp Require Import complex ring.
From Verif.Numerics Require Import RStruct Bridge.
From Verif.Model Require Import FluxDist Op Transform Ham Diag.
From Verif.Spec Require Import OpSpec TransSpec DecSpec LossSpec.
From Verif.Proofs Require Import OpProofs HamProofs HamProofs2 HamProofs5 TransProofs TransProofs4.

Set Implicit Arguments.
Unset Strict Implicit.
Unset Printing Implicit Defensive.
Import GRing.Theory.
Local Open Scope ring_scope.
Local Open Scope complex_scope.

Lemma sumlE A (l : seq A) (f : A -> R) : suml l f = \sum_(a <- l) f a.
Proof. by elim: l => [|a l IH]; rewrite ?big_nil ?big_cons //= IH. Qed.

(** ** One edge *)
Section Edge.
Variables (h : hin) (ct : ctype) (K : arr) (n : nat).
Hypothesis EK : coupling_mat h ct = Ok K.
Hypothesis En : t_n0 (h_st h) = n.

Lemma coef_drop e k : GraphSpec.proper n e -> coupling_coef h ct e = Ok k ->
  exists g : R, g * g = 1 /\ forall i, k i = g * GraphSpec.drop e (fun r => K r i).
Proof.
case: e => a b [/= ha [hb ab]] Ek.
have row z : isnode z n -> (Z.to_nat z - 1)%coq_nat = rowof z by rewrite /rowof => -[? ?]; lia.
have node z : Z.le 0 z -> Z.le z (Z.of_nat n) -> z <> Z0 -> isnode z n by move=> ? ? ?; split; lia.
rewrite /GraphSpec.drop /pot /=.
case: (Z.eqb_spec a 0) => [a0|na].
  rewrite a0 in Ek ab *; have nb : isnode b n by apply: node; lia.
  have [_] := coef_ground EK (a := b) ltac:(by rewrite En); rewrite Ek => -[->].
  exists (-1); split; first by rewrite mulrN1 opprK.
  move=> i; have -> : Z.eqb b 0 = false by apply/Z.eqb_neq; lia.
  by rewrite row // RminusE mulN1r sub0r opprK.
case: (Z.eqb_spec b 0) => [b0|nb].
  rewrite b0 in Ek ab *; have na' : isnode a n by apply: node; lia.
  have [+ _] := coef_ground EK (a := a) ltac:(by rewrite En); rewrite Ek => -[->].
  exists 1; split; first by rewrite mulr1.
  by move=> i; rewrite row // RminusE subr0 mul1r.
have na' : isnode a n by apply: node; lia.
have nb' : isnode b n by apply: node; lia.
have [k' []] := coef_edge EK (a := a) (b := b) ltac:(by rewrite En) ltac:(by rewrite En); rewrite Ek => -[<-] Hk.
exists (csign ct); split; first by case: (ct); rewrite /csign ?mulr1 // mulrN1 opprK.
by move=> i; rewrite Hk !row // RminusE.
Qed.

Lemma drop_lin e (M : nat -> nat -> R) (x : nat -> R) N :
  GraphSpec.drop e (fun r => \sum_(i < N) M r i * x i) = \sum_(i < N) GraphSpec.drop e (fun r => M r i) * x i.
Proof.
rewrite /GraphSpec.drop /pot; case: Z.eqb; case: Z.eqb; rewrite ?RminusE.
- by rewrite subrr big1 => [|i _] //; rewrite ?RminusE ?subrr mul0r.
- by rewrite -[IZR Z0]/(0 : R) sub0r -sumrN; apply: eq_bigr => i _; rewrite ?RminusE sub0r mulNr.
- by rewrite -[IZR Z0]/(0 : R) subr0; apply: eq_bigr => i _; rewrite ?RminusE subr0.
- by rewrite -sumrB; apply: eq_bigr => i _; rewrite ?RminusE mulrBl.
Qed.

Definition across (f : C -> R) (z : nat -> C) (r : nat) : R := \sum_(i < hn h) K r i * f (z i).

Lemma edge_square e A v w : GraphSpec.proper n e -> coupling_op h (Some ct) e = Ok A ->
  let z i := braket v (mode_op h ct i) w in
  modulus2 (braket v A w) =
  GraphSpec.drop e (across (@complex.Re R) z) * GraphSpec.drop e (across (@complex.Re R) z) +
  GraphSpec.drop e (across (@complex.Im R) z) * GraphSpec.drop e (across (@complex.Im R) z).
Proof.
move=> pe EA z; have [k [Ek _ dA _ HA]] := couplingP EA; have [g [gg Hk]] := coef_drop pe Ek.
have -> : braket v A w = \sum_(i < hn h) (k i)%:C * z i.
  rewrite /z /braket dA.
  under [RHS]eq_bigr => i _ do rewrite (proj1 (mode_op_ok h ct i)) mulr_sumr.
  rewrite [RHS]exchange_big /=; apply: eq_bigr => a _.
  under [RHS]eq_bigr => i _ do rewrite mulr_sumr.
  rewrite [RHS]exchange_big /=; apply: eq_bigr => b _.
  rewrite HA mulr_sumr mulr_suml; apply: eq_bigr => i _; ring.
have D (f : C -> R) : (forall x, f (\sum_(i < hn h) x i) = \sum_(i < hn h) f (x i)) ->
    (forall (r : R) (c : C), f (r%:C * c) = r * f c) ->
    f (\sum_(i < hn h) (k i)%:C * z i) = g * GraphSpec.drop e (across f z).
  move=> fs fm; have -> : GraphSpec.drop e (across f z) = _ := drop_lin e K (fun i => f (z i)) (hn h).
  rewrite fs mulr_sumr; apply: eq_bigr => i _.
  by rewrite fm Hk mulrA.
have RE : complex.Re (\sum_(i < hn h) (k i)%:C * z i) = g * GraphSpec.drop e (across (@complex.Re R) z).
  by apply: D => [x|r [a b] /=]; [rewrite raddf_sum|rewrite mul0r subr0].
have IE : complex.Im (\sum_(i < hn h) (k i)%:C * z i) = g * GraphSpec.drop e (across (@complex.Im R) z).
  by apply: D => [x|r [a b] /=]; [rewrite raddf_sum|rewrite mul0r addr0].
rewrite /modulus2 {}RE {}IE; move: (GraphSpec.drop e _) (GraphSpec.drop e _) => a b.
by rewrite !expr2 mulrACA gg mul1r [X in _ + X = _]mulrACA gg mul1r.
Qed.
End Edge.

(** ** All edges *)
Lemma form_bilin n N (K M A : nat -> nat -> R) (z : nat -> C) :
  (forall i j, (i < N)%N -> (j < N)%N -> \sum_(r < n) \sum_(r' < n) K r i * M r r' * K r' j = A i j) ->
  forall f : C -> R,
  bilin n M (fun r => \sum_(i < N) K r i * f (z i)) (fun r => \sum_(i < N) K r i * f (z i)) =
  \sum_(i < N) \sum_(j < N) A i j * (f (z i) * f (z j)).
Proof.
move=> HA f; rewrite /bilin sumnE.
transitivity (\sum_(r < n) \sum_(r' < n) \sum_(i < N) \sum_(j < N) K r i * M r r' * K r' j * (f (z i) * f (z j))).
  apply: eq_bigr => r _; rewrite sumnE; apply: eq_bigr => r' _; rewrite !RmultE -mulrA big_distrl; apply: eq_bigr => i _ /=.
  rewrite mulr_sumr mulr_sumr; apply: eq_bigr => j _; ring.
under eq_bigr => r _ do rewrite exchange_big /=.
rewrite exchange_big /=; apply: eq_bigr => i _.
under eq_bigr => r _ do rewrite exchange_big /=.
rewrite exchange_big /=; apply: eq_bigr => j _.
rewrite -(HA i j) // mulr_suml; apply: eq_bigr => r _; by rewrite mulr_suml.
Qed.

Lemma congruence n (K M : nat -> nat -> R) (A : 'M[R]_n) : (toM n n K)^T *m toM n n M *m toM n n K = A ->
  forall i j (hi : (i < n)%N) (hj : (j < n)%N),
  \sum_(r < n) \sum_(r' < n) K r i * M r r' * K r' j = A (Ordinal hi) (Ordinal hj).
Proof.
move=> <- i j hi hj; rewrite exchange_big mxE; apply: eq_bigr => r' _; rewrite !mxE mulr_suml.
by apply: eq_bigr => r _; rewrite !mxE.
Qed.

Section All.
Variables (optim : bool) (s : store) (fd : string) (n : nat) (lobj : nat -> lrec) (d : seq (edge * seq nat)) (c : cst).
Variables (h : hin) (A : edge -> op) (v w : cvec).
Hypothesis built : get_LCWB optim s fd (Z.of_nat n) lobj d = Ok c.
Hypothesis wired : proper_dict n d.
Hypothesis EC : h_C h = c_C c.
Hypothesis fr : frame n (c_C c) (h_st h).
Hypothesis uC : toM n n (c_C c) \in unitmx.

Lemma weighted ct K M B g : coupling_mat h ct = Ok K ->
  (forall x y, bilin n M x y = suml d (fun ee => g ee.2 * (GraphSpec.drop ee.1 x * GraphSpec.drop ee.1 y))) ->
  (toM n n K)^T *m toM n n M *m toM n n K = toM n n B ->
  (forall e els, List.In (e, els) d -> coupling_op h (Some ct) e = Ok (A e)) ->
  suml d (fun ee => g ee.2 * modulus2 (braket v (A ee.1) w)) = form n B (fun i => braket v (mode_op h ct i) w).
Proof.
move=> EK HM HB HA; have [[En En0] _ _] := fr; have hnE : hn h = n by rewrite /Ham.hn En.
pose z i := braket v (mode_op h ct i) w.
transitivity (bilin n M (across h K (@complex.Re R) z) (across h K (@complex.Re R) z) +
              bilin n M (across h K (@complex.Im R) z) (across h K (@complex.Im R) z)).
  rewrite !HM -RplusE -suml_plus; apply: suml_ext => -[e els] He /=.
  by rewrite (edge_square EK En0 _ _ (wired He) (HA _ _ He)) ?RmultE ?RplusE mulrDr.
have F i j : (i < n)%N -> (j < n)%N -> \sum_(r < n) \sum_(r' < n) K r i * M r r' * K r' j = B i j.
  by move=> hi hj; rewrite (congruence HB hi hj) mxE.
rewrite /across hnE !(form_bilin _ F) /form -big_split; apply: eq_bigr => i _; rewrite -big_split; apply: eq_bigr => j _ /=.
by rewrite -mulrDr.
Qed.

Lemma cap_total : (forall e els, List.In (e, els) d -> coupling_op h (Some Capacitive) e = Ok (A e)) ->
  suml d (fun ee => edge_cap s ee.2 * modulus2 (braket v (A ee.1) w)) = form n (t_cI (h_st h)) (fun i => braket v (opQ h i) w).
Proof.
move=> HA; have [[En En0] SR cI] := fr; have [fC [_ sym]] := LCWB_forms _ _ _ _ _ _ _ built wired.
have [ci Ei] : exists ci, inv n (c_C c) = Ok ci by rewrite /inv uC; eexists.
have [_ Eci] := invP Ei.
have EK : coupling_mat h Capacitive = Ok (mmul n ci (t_R (h_st h))) by rewrite /= En0 EC Ei.
apply: (weighted EK fC) => //; rewrite cI toM_mmul Eci trmx_mul trmx_inv.
have -> : (toM n n (c_C c))^T = toM n n (c_C c).
  by apply/matrixP => i j; rewrite !mxE; apply: (proj1 (sym _ _ _ _)); apply/ssrnat.ltP.
by rewrite !mulmxA mulmxKV.
Qed.

Lemma ind_total : lT_exact n (c_L c) (h_st h) ->
  (forall e els, List.In (e, els) d -> coupling_op h (Some Inductive_) e = Ok (A e)) ->
  suml d (fun ee => edge_invind s ee.2 * modulus2 (braket v (A ee.1) w)) = form n (t_lT (h_st h)) (fun i => braket v (opPhi h i) w).
Proof.
move=> ex HA; have [_ [fL _]] := LCWB_forms _ _ _ _ _ _ _ built wired.
have EK : coupling_mat h Inductive_ = Ok (t_S (h_st h)) by [].
by apply: (weighted EK fL) => //; rewrite ex.
Qed.
End All.
