(** SymmetryProofs4.v -- the truncated displacement, and inductors across charge modes. *)
From Coq Require Import Reals ZArith Lia List.
From Verif.Model Require Import Base Units Edge Elements LCWB Accuracy HamConst.
From Verif.Spec Require Import GraphSpec CircuitSpec.
From Verif.Proofs Require Import LCWBProofs.
Lemma node_at z : z <> 0%Z -> (0 <= z)%Z -> (Z.to_nat z - 1)%nat = Z.to_nat (z - 1).
Proof. lia. Qed.
Lemma drop_left b (x : nat -> R) : b <> 0%Z -> (0 <= b)%Z -> drop (0%Z, b) x = 0%R -> x (Z.to_nat (b - 1)) = 0%R.
Proof.
  unfold drop, pot; simpl. intros H H0. rewrite (proj2 (Z.eqb_neq _ _) H), (node_at _ H H0). intro E.
  apply Ropp_eq_0_compat in E. rewrite <- E. ring.
Qed.
Lemma drop_right b (x : nat -> R) : b <> 0%Z -> (0 <= b)%Z -> drop (b, 0%Z) x = 0%R -> x (Z.to_nat (b - 1)) = 0%R.
Proof.
  unfold drop, pot; simpl. intros H H0. rewrite (proj2 (Z.eqb_neq _ _) H), (node_at _ H H0). intro E.
  rewrite <- E. ring.
Qed.
Lemma drop_both a b (x : nat -> R) : a <> 0%Z -> b <> 0%Z -> (0 <= a)%Z -> (0 <= b)%Z -> drop (a, b) x = 0%R ->
  (x (Z.to_nat (a - 1)) - x (Z.to_nat (b - 1)) = 0)%R.
Proof.
  unfold drop, pot; simpl. intros H1 H2 H3 H4.
  now rewrite (proj2 (Z.eqb_neq _ _) H1), (proj2 (Z.eqb_neq _ _) H2), !node_at.
Qed.
From mathcomp Require Import all_ssreflect all_algebra.
From mathcomp Require Import complex ring.
From Verif.Numerics Require Import RStruct Bridge.
From Verif.Model Require Import Op Transform Ham Diag.
From Verif.Spec Require Import OpSpec SymmetrySpec.
From Verif.Proofs Require Import OpProofs HamProofs HamProofs2 HamProofs5 HamProofs6 SymmetryProofs SymmetryProofs2.

Set Implicit Arguments.
Unset Strict Implicit.
Unset Printing Implicit Defensive.
Import GRing.Theory.
Local Open Scope ring_scope.
Local Open Scope complex_scope.

Lemma climit_unique u z z' : climit u z -> climit u z' -> z = z'.
Proof.
case: z z' => a b [a' b'] [h1 h2] [h3 h4]; congr (_ +i* _).
  exact: (UL_sequence _ _ _ h1 h3).
exact: (UL_sequence _ _ _ h2 h4).
Qed.
Lemma climit_ext u v z : u =1 v -> climit u z -> climit v z.
Proof.
move=> E [h1 h2]; split=> eps he; [have [N H] := h1 eps he|have [N H] := h2 eps he]; exists N => n hn.
  by rewrite -E; apply: H.
by rewrite -E; apply: H.
Qed.
Lemma climit_conj u z : climit u z -> climit (fun n => (u n)^*) z^*.
Proof.
case: z => a b [h1 h2]; split.
  by move=> eps he; have [N H] := h1 eps he; exists N => n /H; case: (u n).
move=> eps he; have [N H] := CV_opp _ _ h2 eps he; exists N => n /H; rewrite /opp_seq.
by case: (u n).
Qed.
Lemma climit_opp u z : climit u z -> climit (fun n => - u n) (- z).
Proof.
case: z => a b [h1 h2]; split.
  move=> eps he; have [N H] := CV_opp _ _ h1 eps he; exists N => n /H; rewrite /opp_seq; by case: (u n).
move=> eps he; have [N H] := CV_opp _ _ h2 eps he; exists N => n /H; rewrite /opp_seq; by case: (u n).
Qed.

Section Gen.
Variables (m : nat) (r : R).
Let G := gen m ('i * r%:C).
Let G' := gen m ('i * (- r)%:C).
Lemma iconj : ('i : C)^* = - 'i. Proof. by apply/eqP; rewrite eq_complex /= oppr0 !eqxx. Qed.
Lemma genE (q : R) a b : ent (gen m ('i * q%:C)) a b = 'i * q%:C * (ent (destroy m) b a + ent (destroy m) a b).
Proof.
rewrite /gen e_sub !e_scale /create e_adj (ladder_real m b a).1 cjM iconj cjR.
by rewrite !mulNr opprK -mulrDr.
Qed.
Lemma gen_neg a b : ent G' a b = - ent G a b.
Proof. by rewrite !genE rmorphN mulrN mulNr. Qed.
Lemma gen_conj a b : (ent G a b)^* = ent G' a b.
Proof.
rewrite !genE !(cjM, cjD) iconj cjR !(ladder_real _ _ _).1 rmorphN.
by rewrite !(mulrN, mulNr).
Qed.
Lemma gen_par a b : (-1) ^+ a * (-1) ^+ b * ent G a b = ent G' a b.
Proof.
have l1 : (-1) ^+ a * (-1) ^+ b * ent (destroy m) a b = - ent (destroy m) a b by have [] := ladder m a b.
have l2 : (-1) ^+ a * (-1) ^+ b * ent (destroy m) b a = - ent (destroy m) b a by rewrite [(-1) ^+ a * _]mulrC; have [] := ladder m b a.
rewrite gen_neg !genE -[LHS]mulrA; move: l1 l2.
move: (ent (destroy m) a b) (ent (destroy m) b a) ((-1) ^+ a) ((-1) ^+ b) => x y u v l1 l2.
have -> : u * (v * ('i * r%:C * (y + x))) = 'i * r%:C * (u * v * y + u * v * x) by ring.
by rewrite l1 l2 -opprD mulrN.
Qed.
Lemma gen_sym a b : ent G a b = ent G b a.
Proof. by rewrite !genE addrC. Qed.

Lemma pow_dim (A : op) k : dim (opow A k) = dim A. Proof. by case: k. Qed.
Lemma e_mul (A B : op) a b : ent (omul A B) a b = \sum_(k < dim A) ent A a k * ent B k b. Proof. by []. Qed.
Lemma sign1 (a : nat) : (-1) ^+ a * (-1) ^+ a = 1 :> C.
Proof. by rewrite -expr2 -exprM mulnC exprM sqrrN expr1n expr1n. Qed.

Lemma pow_conj k a b : (ent (opow G k) a b)^* = ent (opow G' k) a b.
Proof.
elim: k a b => [|k IH] a b; first by rewrite !e_diag; case: ifP => _; rewrite ?cj0 ?cj1.
by rewrite !e_mul cj_sum; apply: eq_bigr => i _; rewrite cjM gen_conj IH.
Qed.
Lemma pow_par k a b : (-1) ^+ a * (-1) ^+ b * ent (opow G k) a b = ent (opow G' k) a b.
Proof.
elim: k a b => [|k IH] a b.
  by rewrite !e_diag; case: eqP => [->|_]; rewrite ?mulr0 // sign1 mul1r.
rewrite !e_mul mulr_sumr; apply: eq_bigr => i _; rewrite -gen_par -IH.
have s1 := sign1 i; move: ((-1) ^+ a) ((-1) ^+ b) ((-1) ^+ (i : nat)) s1 (ent G a i) (ent _ i b) => x y z s1 u v.
have -> : x * z * u * (z * y * v) = (z * z) * (x * y * (u * v)) by ring.
by rewrite s1 mul1r.
Qed.
Lemma powC k a b : (a < m)%N -> (b < m)%N -> \sum_(i < m) ent G a i * ent (opow G k) i b = \sum_(i < m) ent (opow G k) a i * ent G i b.
Proof.
elim: k a b => [|k IH] a b ha hb.
  rewrite (bigD1 (Ordinal hb)) //= eqxx mulr1 big1 ?addr0 => [|i]; last by rewrite -val_eqE /= => /negbTE ->; rewrite mulr0.
  rewrite (bigD1 (Ordinal ha)) //= eqxx mul1r big1 ?addr0 // => i.
  by rewrite -val_eqE /= eq_sym => /negbTE ->; rewrite mul0r.
transitivity (\sum_(i < m) ent G a i * \sum_(j < m) ent (opow G k) i j * ent G j b).
  by apply: eq_bigr => i _; congr (_ * _); rewrite -IH.
transitivity (\sum_(i < m) \sum_(j < m) ent G a i * ent (opow G k) i j * ent G j b).
  by apply: eq_bigr => i _; rewrite mulr_sumr; apply: eq_bigr => j _; rewrite mulrA.
by rewrite exchange_big; apply: eq_bigr => j _; rewrite -mulr_suml.
Qed.
Lemma pow_sym k a b : (a < m)%N -> (b < m)%N -> ent (opow G k) a b = ent (opow G k) b a.
Proof.
elim: k a b => [|k IH] a b ha hb; first by rewrite !e_diag eq_sym.
rewrite !e_mul [in RHS](_ : \sum_(_ < _) _ = \sum_(i < m) ent (opow G k) b i * ent G i a); last exact: powC.
by apply: eq_bigr => i _; rewrite mulrC IH // gen_sym.
Qed.
End Gen.

Lemma exp_displaces disp : exponential disp -> displaces disp.
Proof.
move=> E; split=> [m a|m r]; first by have [] := E m a.
have Ec a b : (a < m)%N -> (b < m)%N -> ent (disp m ('i * (- r)%:C)) a b = (ent (disp m ('i * r%:C)) a b)^*.
  move=> ha hb; apply: (climit_unique (proj2 (E m _) a b ha hb)).
  apply: climit_ext (climit_conj (proj2 (E m ('i * r%:C)) a b ha hb)) => n.
  by rewrite /partial_exp cj_sum; apply: eq_bigr => k _; rewrite cjM cjR pow_conj.
have Es a b : (a < m)%N -> (b < m)%N -> ent (disp m ('i * r%:C)) a b = ent (disp m ('i * r%:C)) b a.
  move=> ha hb; apply: (climit_unique (proj2 (E m _) a b ha hb)).
  apply: climit_ext (proj2 (E m ('i * r%:C)) b a hb ha) => n.
  by apply: eq_bigr => k _; rewrite pow_sym.
split=> // a b ha hb; first by rewrite Ec // Es.
apply: (climit_unique (proj2 (E m _) a b ha hb)).
have L := proj2 (E m ('i * r%:C)) a b ha hb.
have Hs : (-1) ^+ a * (-1) ^+ b = 1 :> C \/ (-1) ^+ a * (-1) ^+ b = -1 :> C.
  by rewrite -exprD -signr_odd; case: (odd _); [right|left].
have Ep n : partial_exp (gen m ('i * (- r)%:C)) n a b = (-1) ^+ a * (-1) ^+ b * partial_exp (gen m ('i * r%:C)) n a b.
  rewrite /partial_exp mulr_sumr; apply: eq_bigr => k _; rewrite -pow_par.
  by move: ((-1) ^+ a) ((-1) ^+ b) (ent _ _ _) => x y z; ring.
case: Hs => h; rewrite h; [rewrite mul1r|rewrite mulN1r].
  by apply: climit_ext L => n; rewrite Ep h mul1r.
by apply: climit_ext (climit_opp L) => n; rewrite Ep h mulN1r.
Qed.

(** Inductors and modes without inductive energy. *)
Lemma free_of_null optim s fd lobj d c h ks : get_LCWB optim s fd (Z.of_nat (t_n0 (h_st h))) lobj d = Ok c ->
  proper_dict (t_n0 (h_st h)) d ->
  (forall e els el, List.In (e, els) d -> List.In el els -> ekind s el = KInd -> Rlt R0 (evalue s el)) ->
  (forall k, List.In k (k_ind ks) -> exists els, [/\ List.In (k.1.1, els) d, List.In k.1.2 els & ekind s k.1.2 = KInd]) ->
  (forall i, (i < hn h)%N -> hcharge h i ->
     bilin (t_n0 (h_st h)) (c_L c) (fun p => t_S (h_st h) p i) (fun p => t_S (h_st h) p i) = R0) ->
  inductor_free h ks.
Proof.
move=> E Hp Hv Hk Hz k hk; have [els [h1 h2 h3]] := Hk k hk.
have [p1 [p2 p3]] := Hp _ _ h1; set a := fst k.1.1 in p1 p3; set b := snd k.1.1 in p2 p3.
have Hd i : (i < hn h)%N -> hcharge h i -> GraphSpec.drop k.1.1 (fun p => t_S (h_st h) p i) = R0.
  by move=> hi ch; have /(L_null _ _ _ _ _ _ _ E Hp Hv) := Hz i hi ch; apply; [exact: h1|exact: h2|].
have node z : Z.le 0 z -> Z.le z (Z.of_nat (t_n0 (h_st h))) -> z <> Z0 -> isnode z (t_n0 (h_st h)) by split; Lia.lia.
have Ee : k.1.1 = (a, b) by rewrite /a /b; case: k.1.1.
case: (Z.eq_dec a 0) => a0; last case: (Z.eq_dec b 0) => b0.
- have b0 : b <> Z0 by Lia.lia.
  have [_ C] := @coef_ground h Inductive_ (t_S (h_st h)) b erefl (node b (proj1 p2) (proj2 p2) b0).
  rewrite Ee a0; eexists; first exact: C.
  move=> i hi ch; have := Hd i hi ch; rewrite Ee a0 => Hi.
  exact: (@drop_left b (fun p => t_S (h_st h) p i) b0 (proj1 p2) Hi).
- have [C _] := @coef_ground h Inductive_ (t_S (h_st h)) a erefl (node a (proj1 p1) (proj2 p1) a0).
  rewrite Ee b0; eexists; first exact: C.
  move=> i hi ch; have := Hd i hi ch; rewrite Ee b0 => Hi.
  exact: (@drop_right a (fun p => t_S (h_st h) p i) a0 (proj1 p1) Hi).
have [c' [Ec Hc]] := @coef_edge h Inductive_ (t_S (h_st h)) a b erefl (node a (proj1 p1) (proj2 p1) a0) (node b (proj1 p2) (proj2 p2) b0).
rewrite Ee; exists c' => // i hi ch; rewrite Hc mul1r; have := Hd i hi ch; rewrite Ee => Hi.
exact: (@drop_both a b (fun p => t_S (h_st h) p i) a0 b0 (proj1 p1) (proj1 p2) Hi).
Qed.
