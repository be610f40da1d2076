(** HamProofs4.v -- the LC Hamiltonian as an energy; displacement operators. *)
From Coq Require Import Reals ZArith.
From Verif.Model Require Import Base Units Edge Accuracy HamConst.
From Verif.Proofs Require Import HamConstProofs.
From mathcomp Require Import all_ssreflect all_algebra.
From mathcomp Require Import complex ring.
From Verif.Numerics Require Import RStruct Bridge.
From Verif.Model Require Import Op Transform Ham.
From Verif.Spec Require Import OpSpec.
From Verif.Proofs Require Import OpProofs HamProofs HamProofs2 HamProofs3.

Set Implicit Arguments.
Unset Strict Implicit.
Unset Printing Implicit Defensive.
Import GRing.Theory.
Local Open Scope ring_scope.
Local Open Scope complex_scope.

(** An operator of mode i on the whole space. *)
Definition emb (h : hin) (i : nat) (X : op) : op :=
  T (fun k => if k == i then X else oeye (hm h k)) (hn h).

Lemma one_emb h X i : T (one_fam h X i) (hn h) = emb h i (X i).
Proof. by apply: T_ext => k _; rewrite /one_fam; case: eqP => [->|]. Qed.

Lemma emb_acts h i X : (i < hn h)%N -> dim X = hm h i -> acts_on (hn h) (hm h) i (ent X) (emb h i X).
Proof.
move=> hi dX; pose XX k := if k == i then X else oeye (hm h k).
have -> : emb h i X = T (one_fam h XX i) (hn h).
  by apply: T_ext => k _; rewrite /one_fam /XX; case: eqP.
have -> : ent X = ent (XX i) by rewrite /XX eqxx.
by apply: one_acts => // k; rewrite /XX; case: eqP => [->|].
Qed.

Lemma emb_sq h X i : dim X = hm h i -> eqop (omul (emb h i X) (emb h i X)) (emb h i (omul X X)).
Proof.
move=> dX; apply: eqop_trans (T_mul _) _ => //.
apply: T_eq => k _; case: ifP => // _; exact: omul1.
Qed.

Lemma emb_eq h i X Y : eqop X Y -> eqop (emb h i X) (emb h i Y).
Proof. by move=> H; apply: T_eq => k _; case: ifP. Qed.

(** Linear relations carry over to the whole space. *)
Lemma emb_lin h i (c1 c2 c3 c4 : C) X Y Z W : (i < hn h)%N ->
  dim X = hm h i -> dim Y = hm h i -> dim Z = hm h i -> dim W = hm h i ->
  (forall k l, (k < hm h i)%N -> (l < hm h i)%N ->
     c1 * ent X k l = c2 * ent Y k l + c3 * ent Z k l - c4 * ent W k l) ->
  forall a b, (a < total h)%N -> (b < total h)%N ->
  c1 * ent (emb h i X) a b = c2 * ent (emb h i Y) a b + c3 * ent (emb h i Z) a b - c4 * ent (emb h i W) a b.
Proof.
move=> hi dX dY dZ dW H a b /posn_surj [d [Hd <-]] /posn_surj [d' [Hd' <-]].
have [_ ->] := emb_acts hi dX => //; have [_ ->] := emb_acts hi dY => //.
have [_ ->] := emb_acts hi dZ => //; have [_ ->] := emb_acts hi dW => //.
case: ifP => _; last by rewrite !mulr0 addr0 subr0.
by apply: H; [apply: Hd|apply: Hd'].
Qed.

Definition phi_sq (h : hin) (i a b : nat) : C := ent (omul (opPhi h i) (opPhi h i)) a b.

Lemma harmonic_mode h i a b : (i < hn h)%N -> ~~ hcharge h i ->
  Rlt 0 (t_cI (h_st h) i i) -> Rlt 0 (t_lT (h_st h) i i) ->
  t_om (h_st h) i = sqrt (t_cI (h_st h) i i * t_lT (h_st h) i i) ->
  (a < total h)%N -> (b < total h)%N ->
  2%:R * ((t_om (h_st h) i)%:C * ent (opN h i) a b) =
  (t_cI (h_st h) i i)%:C * prodQ h a b i i + (t_lT (h_st h) i i)%:C * phi_sq h i a b
  - (t_om (h_st h) i)%:C * ent (emb h i (top_defect (hm h i))) a b.
Proof.
move=> hi hc c0 l0 Eom ha hb.
have EQ : prodQ h a b i i = ent (emb h i (omul (charge_op_isolated h i) (charge_op_isolated h i))) a b.
  rewrite /prodQ opQE one_emb; have [d H] := emb_sq (dimQ h i); apply: H;
  by rewrite /emb /= T_dim (eq_bigr (fun k : 'I_(hn h) => hm h k)) // => k _; case: eqP => [->|] //; rewrite dimQ.
have EF : phi_sq h i a b = ent (emb h i (omul (flux_op_isolated h i) (flux_op_isolated h i))) a b.
  rewrite /phi_sq opPhiE one_emb; have [d H] := emb_sq (dimF h i); apply: H;
  by rewrite /emb /= T_dim (eq_bigr (fun k : 'I_(hn h) => hm h k)) // => k _; case: eqP => [->|] //; rewrite dimF.
rewrite EQ EF opNE one_emb mulrA.
apply: emb_lin; rewrite ?dimN //; [exact: dimQ|exact: dimF|move=> k l hk hl].
by rewrite -[LHS]mulrA; exact: (harmonic_iso hc c0 l0 Eom hk hl).
Qed.

Lemma LC_entry h a b : (a < total h)%N -> (b < total h)%N ->
  oent (LC_hamil h) a b =
  half_sum (hn h) (t_cI (h_st h)) (prodQ h a b) +
  \sum_(i < hn h | ~~ hcharge h i) ((t_om (h_st h) i)%:C * ent (opN h i) a b
     - (halfR (t_cI (h_st h) i i))%:C * prodQ h a b i i).
Proof.
move=> ha hb; rewrite -half_sum_QQ // /LC_hamil.
pose g (i j : nat) : C := (if i == j then (halfR (t_cI (h_st h) i j))%:C else (t_cI (h_st h) i j)%:C)
   * ent (opQQ h i (j - i)%N) a b.
pose g' (i j : nat) : C := if i == j then
    (if hcharge h i then g i j else (t_om (h_st h) i)%:C * ent (opN h i) a b) else g i j.
rewrite (foldl_sum (g := fun i => \sum_(j < hn h | (i <= j)%N) g' i j)).
  rewrite /= add0r sum_iota [X in _ + X]big_mkcond /= -big_split /=; apply: eq_bigr => i _.
  rewrite (bigD1 i) //= [X in _ = X + _](bigD1 i) //= -addrA [X in _ = _ + X]addrC addrA.
  congr (_ + _); last first.
    apply: eq_bigr => j /andP[_]; rewrite -val_eqE /= eq_sym => /negbTE E.
    by rewrite /g' E /g E.
  rewrite /g' eqxx; case: ifP => [_|_] /=; first by rewrite addr0 /g eqxx.
  rewrite addrC -addrA subnn.
  have [d H] := opQQ_mul (leqnn i) (ltn_ord i); rewrite subnn in d H.
  have -> : ent (opQQ h i 0) a b = prodQ h a b i i by apply: H; rewrite d /= dim_opQ.
  by rewrite addNr addr0.
move=> acc i; rewrite mem_iota add0n => /andP[_ hi].
rewrite -(sum_shift (g' i) (ltnW hi)) (foldl_sum (g := fun j => g' i (i + j)%N)) //.
move=> acc' j _; rewrite /LC_term /g' /g.
have ne : (i == (i + j)%N) = (j == 0%N) by rewrite -[X in X == _]addn0 eqn_add2l eq_sym.
rewrite /quad_cI ne; case: (eqVneq j 0%N) => [->|nj].
  by rewrite addn0 subnn eqxx; case: ifP => _; rewrite oent_add.
rewrite addKn; case: eqP => [->|_]; last by rewrite oent_add.
by rewrite cR0 mul0r addr0.
Qed.

(** The LC part is the charge energy plus the flux energy of the harmonic modes,
    up to the zero-point energy and the defect of the truncated commutator. *)
Lemma LC_energy h a b : (a < total h)%N -> (b < total h)%N ->
  (forall i j, (i < hn h)%N -> (j < hn h)%N -> t_cI (h_st h) i j = t_cI (h_st h) j i) ->
  (forall i, (i < hn h)%N -> ~~ hcharge h i ->
     [/\ Rlt 0 (t_cI (h_st h) i i), Rlt 0 (t_lT (h_st h) i i) &
         t_om (h_st h) i = sqrt (t_cI (h_st h) i i * t_lT (h_st h) i i)]) ->
  2%:R * oent (LC_hamil h) a b =
  \sum_(i < hn h) \sum_(j < hn h) (t_cI (h_st h) i j)%:C * prodQ h a b i j +
  \sum_(i < hn h | ~~ hcharge h i) ((t_lT (h_st h) i i)%:C * phi_sq h i a b
     - (t_om (h_st h) i)%:C * ent (emb h i (top_defect (hm h i))) a b).
Proof.
move=> ha hb S Hh; rewrite LC_entry // mulrDr half_sumE //; last by move=> *; apply: prodQ_sym.
congr (_ + _); rewrite mulr_sumr; apply: eq_bigr => i hc.
have [c0 l0 Eom] := Hh _ (ltn_ord i) hc.
rewrite mulrBr harmonic_mode // mulrA two_half.
move: (_ * prodQ h a b i i) (_ * phi_sq h i a b) (_ * ent _ a b) => x y z; ring.
Qed.
