(** GaugeProofs.v -- operators against turned charge states. *)
From Coq Require Import Reals ZArith Lia Lra.
From Verif.Model Require Import Base Units Edge Accuracy HamConst.
Lemma charge_step m a : Rminus (charge_at m (S a)) (charge_at m a) = R1.
Proof. unfold charge_at. rewrite S_INR. lra. Qed.
From mathcomp Require Import all_ssreflect all_algebra.
From mathcomp Require Import complex ring zify.
From Verif.Numerics Require Import RStruct Bridge.
From Verif.Model Require Import Op Transform Ham.
From Verif.Spec Require Import OpSpec LevelsSpec GaugeSpec.
From Verif.Proofs Require Import OpProofs HamProofs HamProofs2 HamProofs5 HamProofs6 ChargeShiftProofs PhaseMulti SymmetryProofs2.

Set Implicit Arguments.
Unset Strict Implicit.
Unset Printing Implicit Defensive.
Import GRing.Theory.
Local Open Scope ring_scope.
Local Open Scope complex_scope.

Lemma expi0 : expi 0 = 1.
Proof. by rewrite /expi cos_0 sin_0. Qed.
Lemma expiD (x y : R) : expi (GRing.add x y) = expi x * expi y.
Proof. exact: expi_add. Qed.
Lemma expi_sum n (F : nat -> R) : expi (\sum_(k < n) F k) = \prod_(k < n) expi (F k).
Proof. elim: n => [|n IH]; first by rewrite !big_ord0 expi0. by rewrite !big_ord_recr /= expiD IH. Qed.

Section Turn.
Variables (h : hin) (disp : nat -> C -> op) (theta : nat -> R).
Hypothesis ddim : forall m a, dim (disp m a) = m.
Let g k a : R := if hcharge h k then theta k * charge_at (hm h k) a else 0.

Lemma phaseE d : state_phase h theta d = \sum_(k < hn h) g k (d k).
Proof. by rewrite /state_phase big_mkcond. Qed.

(** [X] multiplies by [expi c]. *)
Definition lw (k : nat) (c : R) (X : op) : Prop :=
  dim X = hm h k /\ forall a b, (a < hm h k)%N -> (b < hm h k)%N -> expi (GRing.add (g k a) (GRing.opp (g k b))) * ent X a b = expi c * ent X a b.
Definition gw (c : R) (A : op) : Prop := forall d e, legal (hm h) d (hn h) -> legal (hm h) e (hn h) ->
  expi (state_phase h theta d - state_phase h theta e) * ent A (posn (hm h) d (hn h)) (posn (hm h) e (hn h)) =
  expi c * ent A (posn (hm h) d (hn h)) (posn (hm h) e (hn h)).

Lemma gw_T F c : (forall k, (k < hn h)%N -> lw k (c k) (F k)) -> gw (\sum_(k < hn h) c k) (T F (hn h)).
Proof.
move=> H d e L M; rewrite (T_ent (dims := hm h)) //; last by move=> k hk; case: (H k hk).
rewrite !phaseE RminusE -sumrB (expi_sum _ (fun k => g k (d k) - g k (e k))) (expi_sum _ c).
rewrite -[LHS]big_split -[RHS]big_split; apply: eq_bigr => k _; have hk := ltn_ord k; have [_ E] := H k hk.
by apply: E; [exact: L|exact: M].
Qed.
Lemma gw_T0 F : (forall k, (k < hn h)%N -> lw k 0 (F k)) -> gw 0 (T F (hn h)).
Proof. by move=> H; have := @gw_T F (fun=> 0) H; rewrite big1. Qed.

Lemma lw_diag k X : dim X = hm h k -> (hcharge h k -> forall a b, (a < hm h k)%N -> (b < hm h k)%N -> a != b -> ent X a b = 0) -> lw k 0 X.
Proof.
move=> dX H; split=> // a b ha hb; rewrite /g; case: ifP => ch; last by rewrite subrr.
by case: (eqVneq a b) => [->|ne]; rewrite ?subrr // H // !mulr0.
Qed.
Lemma lw_eye k : lw k 0 (oeye (hm h k)).
Proof. by apply: lw_diag => // _ a b _ _ /negbTE /= ->. Qed.
Lemma lw_Q k : lw k 0 (charge_op_isolated h k).
Proof. by apply: lw_diag; rewrite ?dimQ // => ch a b _ _ ne; rewrite Qdiag // (negbTE ne). Qed.
Lemma lw_QQ k : lw k 0 (omul (charge_op_isolated h k) (charge_op_isolated h k)).
Proof.
apply: lw_diag => [|ch a b _ _ ne]; first exact: dimQ.
rewrite /= big1 // => i _; rewrite !Qdiag //; case: eqP => [ai|_]; last by rewrite mul0r.
by rewrite -ai (negbTE ne) mulr0.
Qed.
Lemma lw_F k : lw k 0 (flux_op_isolated h k).
Proof. by apply: lw_diag; rewrite ?dimF // => ch a b _ _ /negbTE ne; rewrite /flux_op_isolated ch /= ne. Qed.
Lemma lw_N k : lw k 0 (num_op_isolated h k).
Proof. by apply: lw_diag; rewrite ?dimN // => ch a b _ _ /negbTE ne; rewrite /num_op_isolated ch /= ne. Qed.

Lemma gw_one X i : (i < hn h)%N -> lw i 0 (X i) -> gw 0 (T (one_fam h X i) (hn h)).
Proof. by move=> hi r; apply: gw_T0 => k hk; rewrite /one_fam; case: eqP => [->//|_]; exact: lw_eye. Qed.
Lemma gw_opQQ i j : (i + j < hn h)%N -> gw 0 (opQQ h i j).
Proof.
move=> hij; rewrite !opQQE //; apply: gw_T0 => k hk; rewrite /two_fam.
case: eqP => [ei|ni]; case: eqP => [ej|nj]; [exact: lw_QQ|exact: lw_Q|exact: lw_Q|exact: lw_eye].
Qed.

Definition ogw (a : option op) : Prop := if a is Some A then gw 0 A else True.
Lemma gw_scale c x A : gw c A -> gw c (oscale x A).
Proof. by move=> H d e L M; rewrite /= !(mulrCA _ x) H. Qed.
Lemma gw_add c A B : gw c A -> gw c B -> gw c (oadd A B).
Proof. by move=> H1 H2 d e L M; rewrite /= !mulrDr H1 // H2. Qed.
Lemma ogw_add a X : ogw a -> gw 0 X -> ogw (acc_add a X).
Proof. by case: a => [A|] //= r H; apply: gw_add. Qed.
Lemma ogw_foldl (X : eqType) (f : option op -> X -> option op) l a :
  (forall x b, x \in l -> ogw b -> ogw (f b x)) -> ogw a -> ogw (foldl f a l).
Proof.
elim: l a => //= x l IH a H r; apply: IH; first by move=> y b hy; apply: H; rewrite inE hy orbT.
by apply: H => //; rewrite inE eqxx.
Qed.
Lemma ogw_LC : ogw (LC_hamil h).
Proof.
rewrite /LC_hamil; apply: ogw_foldl => // i a; rewrite mem_iota add0n => /andP [_ hi] r.
apply: ogw_foldl r => j b; rewrite mem_iota add0n => /andP [_ hj] r.
have hij : (i + j < hn h)%N by rewrite -ltn_subRL.
rewrite /LC_term; case: eqP => [j0|nj].
  case: ifP => ch; apply: ogw_add => //; apply: gw_scale; first exact: gw_opQQ.
  by rewrite !opNE; apply: gw_one => //; apply: lw_N.
by case: ifP => // _; apply: ogw_add => //; apply: gw_scale; exact: gw_opQQ.
Qed.
Lemma coupling_gw e A : coupling_op h (Some Inductive_) e = Ok A -> gw 0 A.
Proof.
rewrite /coupling_op; case: coupling_coef => [k|//].
have : ogw (foldl (fun acc i => acc_add acc (oscale (k i)%:C (mode_op h Inductive_ i))) None (iota 0 (hn h))).
  apply: ogw_foldl => // i a; rewrite mem_iota add0n => /andP [_ hi] r; apply: ogw_add => //; apply: gw_scale.
  by rewrite /mode_op !opPhiE; apply: gw_one => //; exact: lw_F.
by case: foldl => [X|] // H [<-].
Qed.

Lemma lw_exp i k : (k < hn h)%N ->
  (hcharge h k -> t_wT (h_st h) i k = 0 \/ t_wT (h_st h) i k = 1 \/ t_wT (h_st h) i k = - 1) ->
  lw k (if hcharge h k then theta k * t_wT (h_st h) i k else 0) (exp_iso disp h i k).
Proof.
move=> hk U; split; first exact: iso_dim.
move=> a b ha hb; rewrite /g; case: ifP => ch; last by rewrite subrr.
rewrite /exp_iso ch d_entry; move: (U ch) => [->|[->|->]].
- case: Rlt_dec => [lt|ge0] /=; first by case: (Rlt_irrefl _ lt).
  by rewrite mulr0; case: (eqVneq a b) => [->|_]; rewrite ?subrr ?mulr0.
- case: Rlt_dec => [lt|ge0] /=; first by case: (Rlt_not_le _ _ lt); exact: Rle_0_1.
  case: Rlt_dec => [lt0|ge] /=; last by case: ge; exact: Rlt_0_1.
  case: eqP => [Ea|_]; last by rewrite !mulr0.
  by rewrite Ea -mulrBr -RminusE charge_step.
have m1 : Rlt (- 1) 0 by apply: Ropp_lt_gt_0_contravar; exact: Rlt_0_1.
case: Rlt_dec => [lt0|ge] /=; last by case: ge; exact: m1.
case: eqP => [Eb|_]; last by rewrite !mulr0.
by rewrite Eb -opprB -mulrBr -RminusE charge_step mulrN.
Qed.
Lemma gw_exp i : (forall k, (k < hn h)%N -> hcharge h k ->
    t_wT (h_st h) i k = 0 \/ t_wT (h_st h) i k = 1 \/ t_wT (h_st h) i k = - 1) ->
  gw (row_phase h theta i) (opExp disp h i).
Proof.
move=> U; have -> : opExp disp h i = T (exp_iso disp h i) (hn h) by [].
by rewrite /row_phase big_mkcond; apply: (gw_T (c := fun k => if hcharge h k then theta k * t_wT (h_st h) i k else 0)) => k hk;
  apply: lw_exp => //; exact: U.
Qed.
End Turn.
