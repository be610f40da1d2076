(** HalfProofs.v -- the half-angle identity for products over the modes. *)
From Coq Require Import Reals ZArith.
From Verif.Model Require Import Base Units Elements Edge LCWB HamConst.
From mathcomp Require Import all_ssreflect all_algebra.
From mathcomp Require Import complex.
From mathcomp Require Import ring.
From Verif.Numerics Require Import RStruct Bridge.
From Verif.Model Require Import Transform Op Ham.
From Verif.Spec Require Import OpSpec HalfSpec.
From Verif.Proofs Require Import HamConstProofs OpProofs HamProofs HamProofs2 PhaseMulti.

Set Implicit Arguments.
Unset Strict Implicit.
Unset Printing Implicit Defensive.
Import GRing.Theory.
Local Open Scope ring_scope.
Local Open Scope complex_scope.

Lemma i2 : ('i : C) * 'i = -1.
Proof. by rewrite -expr2 sqr_i. Qed.
Lemma two_i_sq : ((2%:R * 'i : C)^-1) * (2%:R * 'i)^-1 = - (2%:R * 2%:R)^-1.
Proof. by rewrite -invfM mulrACA i2 mulrN1 invrN. Qed.

(** 2 (R - R+)^2 / (2i)^2 = 1 - (R^2 + R+^2)/2 for unitary R. *)
Lemma half_sq (A E : op) : unitary A -> square_root A E -> half_angle (jj_cos E) (jj_sin A).
Proof.
move=> [[_ U1] [_ U2]] [dE S]; split; first by rewrite /= -dE.
move=> i j hi hj; rewrite /= in hi hj; cbn [ent oscale omul jj_sin jj_cos osub oadd oadj oeye odiag dim].
have ha : Op.ent (omul A A) i j = ent E i j by apply: S.
have hb : Op.ent (omul A A) j i = ent E j i by apply: S.
have h1 := U1 i j hi hj; have h2 := U2 i j hi hj.
rewrite -ha -hb; cbn [ent omul oadj oeye odiag dim]; rewrite /= in h1 h2.
have -> : \sum_(k < dim A) (2%:R * 'i)^-1 * (ent A i k - (ent A k i)^*) * ((2%:R * 'i)^-1 * (ent A k j - (ent A j k)^*))
  = - (2%:R * 2%:R)^-1 * (\sum_(k < dim A) ent A i k * ent A k j + (\sum_(k < dim A) ent A j k * ent A k i)^*
      - \sum_(k < dim A) ent A i k * (ent A j k)^* - \sum_(k < dim A) (ent A k i)^* * ent A k j).
  rewrite -two_i_sq cj_sum -!sumrN -!big_split /= mulr_sumr; apply: eq_bigr => k _; rewrite cjM.
  by move: ((2%:R * 'i)^-1) => z; ring.
rewrite h1 h2; set X := (\sum_(k < _) _); set Y := (_)^*.
have h4 : (2%:R : C) * (2%:R * 2%:R)^-1 = 2%:R^-1.
  by rewrite invfM mulrA mulfV ?mul1r // Num.Theory.pnatr_eq0.
rewrite mulrA mulrN h4; set d := (if i == j then 1 else 0 : C).
have -> : X + Y - d - d = X + Y - 2%:R * d by ring.
by rewrite mulrBr !mulNr mulrA mulVf ?Num.Theory.pnatr_eq0 // mul1r opprK addrC.
Qed.

Lemma unitary_eye d : unitary (oeye d).
Proof.
split.
  apply: eqop_trans (omul1 (A := oadj (oeye d)) (d := d) erefl) _.
  exact: eqop_sym (herm_eye d).
apply: eqop_trans (omulA1 (A := oadj (oeye d)) (d := d) erefl) _.
exact: eqop_sym (herm_eye d).
Qed.

Lemma T_eyes F n : eqop (T (fun k => oeye (dim (F k))) n) (oeye (dim (T F n))).
Proof.
elim: n => [//|[|n] IH]; first by rewrite !T1.
rewrite !TS; apply: eqop_trans (kron_eq IH (eqop_refl _)) _; split=> // i j hi hj /=.
rewrite /= in hi hj; have [hi1 hi2] := divb hi; have [hj1 hj2] := divb hj.
case: (eqVneq i j) => [->|n0]; first by rewrite !eqxx mulr1.
case: eqP => e1; last by rewrite mul0r.
case: eqP => e2; last by rewrite mulr0.
by case/eqP: n0; rewrite (divn_eq i (dim (F n.+1))) (divn_eq j (dim (F n.+1))) e1 e2.
Qed.
Lemma unitary_T F n : (forall k, (k < n)%N -> unitary (F k)) -> unitary (T F n).
Proof.
move=> H; have E := T_eyes F n; have dA k : dim (oadj (F k)) = dim (F k) by [].
split.
  apply: eqop_trans (omul_eq (eqop_refl (T F n)) (T_adj F n) erefl) _.
  apply: eqop_trans (T_mul _) _ => //; apply: eqop_trans E.
  by apply: T_eq => k hk; have [] := H k hk.
apply: eqop_trans (omul_eq (T_adj F n) (eqop_refl (T F n)) erefl) _.
apply: eqop_trans (T_mul _) _ => //; apply: eqop_trans E.
by apply: T_eq => k hk; have [] := H k hk.
Qed.
Lemma square_T F G n : (forall k, (k < n)%N -> square_root (F k) (G k)) -> square_root (T F n) (T G n).
Proof. by move=> H; apply: eqop_trans (T_mul _) _ => //; apply: T_eq. Qed.

Lemma unitary_scale z A : z^* * z = 1 -> unitary A -> unitary (oscale z A).
Proof.
move=> Hz [[_ U1] [_ U2]]; split; split=> // i j hi hj; rewrite /= in hi hj.
  rewrite -[RHS](U1 i j hi hj) /=; apply: eq_bigr => k _; rewrite cjM mulrACA [z * _]mulrC Hz mul1r //.
by rewrite -[RHS](U2 i j hi hj) /=; apply: eq_bigr => k _; rewrite cjM mulrACA Hz mul1r.
Qed.
Lemma square_scale z A E : square_root A E -> square_root (oscale z A) (oscale (z * z) E).
Proof.
move=> [d S]; split=> // i j hi hj; rewrite /= in hi hj.
by rewrite /= -(S i j hi hj) /= mulr_sumr; apply: eq_bigr => k _; rewrite mulrACA.
Qed.

Lemma opExpE disp h w : opExp disp h w = T (exp_iso disp h w) (hn h). Proof. by []. Qed.
Lemma opRootE disp h w : opRoot disp h w = T (root_iso disp h w) (hn h). Proof. by []. Qed.

Section Junction.
Variables (disp : nat -> C -> op) (h : hin) (phi : R) (w : nat).
Hypothesis dims : forall m a, dim (disp m a) = m.

Lemma root_dim : dim (opRoot disp h w) = total h.
Proof.
rewrite opRootE T_dim; apply: eq_bigr => k _; rewrite /root_iso; case: ifP => // _.
by case: eqP => [->|_].
Qed.

(** No charge mode involved. *)
Lemma half_harmonic : (forall m a, unitary (disp m a)) -> (forall m a, square_root (disp m (a / 2%:R)) (disp m a)) ->
  (forall j, (j < hn h)%N -> hcharge h j -> t_wT (h_st h) w j = 0) ->
  half_angle (jj_cos (jj_exp disp h phi w)) (jj_sin (jj_root disp h phi w)).
Proof.
move=> U S W; apply: half_sq.
  apply: unitary_scale; first by rewrite mulrC; exact: expi_norm.
  rewrite opRootE; apply: unitary_T => k hk; rewrite /root_iso; case: ifP => _; first exact: unitary_eye.
  by case: ifP => _; [exact: unitary_eye|exact: U].
rewrite /jj_exp; have -> : expi phi = expi (halfR phi) * expi (halfR phi).
  by rewrite -expi_add; congr expi; rewrite [RHS](halfR_add phi).
apply: square_scale; rewrite opRootE opExpE; apply: square_T => k hk; rewrite /root_iso /exp_iso.
case: ifP => hc; first by rewrite /d_op_isolated W // eqxx; exact: (omul1 (A := oeye (hm h k)) erefl).
by case: ifP => _; [exact: (omul1 (A := oeye 1) erefl)|exact: S].
Qed.

(** Charge modes only. *)
Lemma root_charge : (forall j, (j < hn h)%N -> hcharge h j) -> eqop (opRoot disp h w) (oeye (total h)).
Proof.
move=> H; rewrite opRootE; apply: eqop_trans (T_eq (G := fun k => oeye (dim (oeye (hm h k)))) _) _.
  by move=> k hk; rewrite /root_iso H.
apply: eqop_trans (T_eyes (fun k => oeye (hm h k)) (hn h)) _; split=> //=.
by rewrite T_dim; apply: eq_bigr.
Qed.
Lemma half_charge : (forall j, (j < hn h)%N -> hcharge h j) ->
  dim (jj_sin (jj_root disp h phi w)) = total h /\ multiple (sin (halfR phi))%:C (jj_sin (jj_root disp h phi w)).
Proof.
move=> H; have [d E] := root_charge H; split=> //; move=> i j hi hj.
rewrite /= in hi hj; cbn [ent jj_sin jj_root oscale osub oadj dim].
rewrite !E //= [j == i]eq_sym; case: eqP => _; last by rewrite !mulr0 cj0 subr0 mulr0.
rewrite mulr1; have -> : expi (halfR phi) - (expi (halfR phi))^* = 2%:R * 'i * (sin (halfR phi))%:C.
  rewrite mulr2n; apply/eqP; rewrite eq_complex /=; apply/andP; split; apply/eqP; ring.
by rewrite mulKf // mulf_neq0 ?Num.Theory.pnatr_eq0 // eq_complex /= negb_and oner_neq0 orbT.
Qed.
End Junction.
