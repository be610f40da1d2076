(** ExpProofs2.v -- exponentials of sums of operators of different modes. *)
From Coq Require Import Reals ZArith Lia Lra ClassicalEpsilon.
From Verif.Model Require Import Base Units Edge Accuracy HamConst.
From Verif.Proofs Require Import HamConstProofs.
From mathcomp Require Import all_ssreflect all_algebra.
From mathcomp Require Import complex ring zify.
From Verif.Numerics Require Import RStruct Bridge Spectral.
From Verif.Model Require Import Op Transform Ham.
From Verif.Spec Require Import OpSpec HalfSpec PerturbSpec LevelsSpec SymmetrySpec.
From Verif.Proofs Require Import OpProofs HamProofs HamProofs5 HalfProofs MinMaxProofs SymmetryProofs SymmetryProofs4
  PhaseMulti ExpProofs.

Set Implicit Arguments.
Unset Strict Implicit.
Unset Printing Implicit Defensive.
Import GRing.Theory Order.TTheory.
Local Open Scope ring_scope.
Local Open Scope complex_scope.

(** [D] is e^G, with an orthonormal basis of eigenvectors of [G]. *)
Definition epair (G D : op) : Prop := dim D = dim G /\ exists (E : nat -> R) (v : nat -> nat -> C),
  [/\ forall k a, (k < dim G)%N -> (a < dim G)%N -> \sum_(b < dim G) ent G a b * v k b = 'i * (E k)%:C * v k a,
      forall i j, (i < dim G)%N -> (j < dim G)%N -> \sum_(a < dim G) (v i a)^* * v j a = if i == j then 1 else 0 &
      forall a b, (a < dim G)%N -> (b < dim G)%N -> ent D a b = \sum_(k < dim G) expi (E k) * (v k a * (v k b)^*)].

Lemma epair_eqop G G' D D' : eqop G G' -> eqop D D' -> epair G D -> epair G' D'.
Proof.
move=> [dG HG] [dD HD] [d [E [v [h1 h2 h3]]]]; split; first by rewrite -dD -dG.
exists E, v; rewrite -dG; split=> // [k a hk ha|a b ha hb].
  by rewrite -h1 //; apply: eq_bigr => b _; rewrite HG.
by rewrite -HD ?d // h3.
Qed.
Lemma epair_exp G D a b : epair G D -> (a < dim G)%N -> (b < dim G)%N -> climit (fun n => partial_exp G n a b) (ent D a b).
Proof. by move=> [_ [E [v [h1 h2 h3]]]] ha hb; rewrite h3 //; exact: (exp_spec (erefl _) h1 h2 ha hb). Qed.
Lemma delta_sum n (f : nat -> C) a : (a < n)%N -> \sum_(b < n) f b * (if b == a :> nat then 1 else 0) = f a.
Proof.
move=> ha; rewrite (bigD1 (Ordinal ha)) //= eqxx mulr1 big1 ?addr0 // => i.
by rewrite -val_eqE /= => /negPf ->; rewrite mulr0.
Qed.
Lemma epair_zero n : epair (ozero n) (oeye n).
Proof.
split=> //; exists (fun=> R0), (fun k a => if k == a then 1 else 0); split=> /= [k a hk ha|i j hi hj|a b ha hb].
- rewrite big1 => [|b _]; last by rewrite mul0r.
  by rewrite mulr0 mul0r.
- rewrite -[RHS](delta_sum (fun a => if i == a then 1 else 0) hj); apply: eq_bigr => a _.
  by rewrite [(a : nat) == j]eq_sym; congr (_ * _); case: (_ == _); rewrite ?conjc1 ?conjc0.
- rewrite -[LHS](delta_sum (fun k => if k == b then 1 else 0) ha); apply: eq_bigr => k _.
  rewrite (_ : expi R0 = 1) ?mul1r; last by rewrite /expi cos_0 sin_0.
  by rewrite mulrC; case: (k == a :> nat); case: (k == b :> nat); rewrite ?conjc1 ?conjc0 ?mul0r ?mulr0.
Qed.

Lemma delta_sum' n (f : nat -> C) a : (a < n)%N -> \sum_(b < n) (if a == b :> nat then 1 else 0) * f b = f a.
Proof.
move=> ha; rewrite -[RHS](delta_sum f ha); apply: eq_bigr => b _.
by rewrite mulrC [a == _]eq_sym.
Qed.
Lemma prod_sum a b (f g : nat -> C) : \sum_(x < a) \sum_(y < b) f x * g y = (\sum_(x < a) f x) * (\sum_(y < b) g y).
Proof. by rewrite big_distrl /=; apply: eq_bigr => x _; rewrite mulr_sumr. Qed.
Lemma kmix1 (g d w w' : C) : g * d * (w * w') = g * w * (d * w'). Proof. by ring. Qed.
Lemma kmix2 (e e' w w' : C) : e * w * w' + w * (e' * w') = (e + e') * (w * w'). Proof. by ring. Qed.
Lemma kmix3 (a b c d : C) : a * b * (c * d) = a * c * (b * d). Proof. by ring. Qed.
Lemma kmix4 (e e' a b c d : C) : e * e' * (a * b * (c * d)) = e * (a * c) * (e' * (b * d)). Proof. by ring. Qed.
Definition ksum (G G' : op) : op := oadd (kron G (oeye (dim G'))) (kron (oeye (dim G)) G').
Lemma epair_kron G D G' D' : epair G D -> epair G' D' -> epair (ksum G G') (kron D D').
Proof.
move=> [d [E [v [h1 h2 h3]]]] [d' [E' [v' [h1' h2' h3']]]]; split; first by rewrite /= d d'.
set n := dim G in d h1 h2 h3 *; set n' := dim G' in d' h1' h2' h3' *.
exists (fun k => Rplus (E (k %/ n')%N) (E' (k %% n')%N)), (fun k a => v (k %/ n')%N (a %/ n')%N * v' (k %% n')%N (a %% n')%N).
have dd : dim (ksum G G') = (n * n')%N by [].
rewrite dd; split=> [k a hk ha|i j hi hj|a b ha hb].
- have [k1 k2] := divb hk; have [a1 a2] := divb ha.
  rewrite /ksum /= -/n -/n'.
  rewrite (sum_divmod n n' (fun x y => (ent G (a %/ n')%N x * (if (a %% n')%N == y then 1 else 0) +
     (if (a %/ n')%N == x then 1 else 0) * ent G' (a %% n')%N y) * (v (k %/ n')%N x * v' (k %% n')%N y))).
  pose f1 x := ent G (a %/ n')%N x * v (k %/ n')%N x; pose g1 y := (if (a %% n')%N == y then 1 else 0) * v' (k %% n')%N y.
  pose f2 x := (if (a %/ n')%N == x then 1 else 0) * v (k %/ n')%N x; pose g2 y := ent G' (a %% n')%N y * v' (k %% n')%N y.
  transitivity (\sum_(x < n) \sum_(y < n') f1 x * g1 y + \sum_(x < n) \sum_(y < n') f2 x * g2 y).
    rewrite -big_split /=; apply: eq_bigr => x _; rewrite -big_split /=; apply: eq_bigr => y _.
    by rewrite mulrDl; congr (_ + _); exact: kmix1.
  rewrite !prod_sum /f1 /g1 /f2 /g2.
  rewrite h1 // h1' // (delta_sum' (v' (k %% n')%N) a2) (delta_sum' (v (k %/ n')%N) a1).
  by rewrite kmix2 -mulrDr -cRD.
- have [i1 i2] := divb hi; have [j1 j2] := divb hj.
  rewrite (sum_divmod n n' (fun x y => conjc (v (i %/ n')%N x * v' (i %% n')%N y) * (v (j %/ n')%N x * v' (j %% n')%N y))).
  pose f x := (v (i %/ n')%N x)^* * v (j %/ n')%N x; pose g y := (v' (i %% n')%N y)^* * v' (j %% n')%N y.
  transitivity (\sum_(x < n) \sum_(y < n') f x * g y).
    by apply: eq_bigr => x _; apply: eq_bigr => y _; rewrite cjM; exact: kmix3.
  rewrite prod_sum /f /g.
  rewrite h2 // h2' // (_ : (i == j) = ((i %/ n')%N == (j %/ n')%N) && ((i %% n')%N == (j %% n')%N)).
    by case: (_ == _); case: (_ == _); rewrite ?mulr0 ?mulr1.
  apply/eqP/andP => [-> //|[/eqP e1 /eqP e2]].
  by rewrite (divn_eq i n') e1 e2 -divn_eq.
- have [a1 a2] := divb ha; have [b1 b2] := divb hb.
  rewrite /kron /= d' h3 // h3' //.
  rewrite (sum_divmod n n' (fun x y => expi (Rplus (E x) (E' y)) * (v x (a %/ n')%N * v' y (a %% n')%N * conjc (v x (b %/ n')%N * v' y (b %% n')%N)))).
  pose f x := expi (E x) * (v x (a %/ n')%N * (v x (b %/ n')%N)^*); pose g y := expi (E' y) * (v' y (a %% n')%N * (v' y (b %% n')%N)^*).
  transitivity (\sum_(x < n) \sum_(y < n') f x * g y); first by rewrite prod_sum.
  by apply: eq_bigr => x _; apply: eq_bigr => y _; rewrite expi_add cjM; apply/esym; exact: kmix4.
Qed.

(** A family of modes. *)
Definition single (G : nat -> op) (j k : nat) : op := if k == j then G k else oeye (dim (G k)).
Definition tsum (G : nat -> op) (n : nat) : op :=
  Op (\prod_(k < n) dim (G k))%N (fun a b => \sum_(j < n) ent (T (single G j) n) a b).
Lemma dim_single G j k : dim (single G j k) = dim (G k).
Proof. by rewrite /single; case: eqP. Qed.
Lemma T_eye_prod (m : nat -> nat) n : eqop (T (fun k => oeye (m k)) n) (oeye (\prod_(k < n) m k)%N).
Proof.
case: n => [|n]; first by rewrite big_ord0.
elim: n => [|n IH]; first by rewrite T1 big_ord_recr big_ord0 /= mul1n.
rewrite TS; apply: eqop_trans (kron_eq IH (eqop_refl _)) _.
split=> /= [|i j hi hj]; first by rewrite [in RHS]big_ord_recr.
rewrite (_ : (i == j) = ((i %/ m n.+1)%N == (j %/ m n.+1)%N) && ((i %% m n.+1)%N == (j %% m n.+1)%N)).
  by case: (_ == _); case: (_ == _); rewrite ?mulr0 ?mulr1.
apply/eqP/andP => [-> //|[/eqP e1 /eqP e2]].
by rewrite (divn_eq i (m n.+1)) e1 e2 -divn_eq.
Qed.
Lemma epair_T (G D : nat -> op) n : (forall k, (k < n)%N -> epair (G k) (D k)) -> epair (tsum G n) (T D n).
Proof.
case: n => [|n]; first by move=> _; apply: epair_eqop (epair_zero 1) => //; split=> [|i j _ _]; rewrite /= big_ord0.
elim: n => [|n IH] H.
  rewrite T1; apply: epair_eqop (H 0%N isT) => //; split=> [|i j _ _] /=; first by rewrite big_ord_recr big_ord0 /= mul1n.
  by rewrite big_ord_recr big_ord0 /= add0r.
rewrite TS; have P1 := IH (fun k hk => H k (ltnW hk)); have P2 := H n.+1 (leqnn _).
apply: epair_eqop (epair_kron P1 P2); last exact: eqop_refl.
have dk : dim (ksum (tsum G n.+1) (G n.+1)) = ((\prod_(k < n.+1) dim (G k)) * dim (G n.+1))%N by [].
split=> [|i j]; first by rewrite dk /= [in RHS]big_ord_recr.
rewrite dk => hi hj; have [i1 i2] := divb hi; have [j1 j2] := divb hj.
rewrite {2}/tsum [RHS]/= big_ord_recr /=; congr (_ + _).
  rewrite big_distrl /=; apply: eq_bigr => k _; rewrite TS /= dim_single.
  have -> : single G k n.+1 = oeye (dim (G n.+1)) by rewrite /single gtn_eqF.
  by [].
rewrite TS /= dim_single /single eqxx -/(single G _ _).
have := T_eye_prod (fun k => dim (G k)) n.+1; set X := T _ n.+1 => -[dX HX].
have -> : T (fun k => if k == n.+1 then G k else oeye (dim (G k))) n.+1 = X.
  by apply: T_ext => k hk; rewrite ltn_eqF.
by rewrite HX ?dX.
Qed.

(** The truncated displacement. *)
Section Disp.
Variable disp : nat -> C -> op.
Hypothesis ex : exponential disp.
Lemma exp_disp_dims m a : dim (disp m a) = m. Proof. by have [] := ex m a. Qed.
Lemma disp_line m (a : C) : exists (E : nat -> R) (v : nat -> nat -> C),
  (forall i j, (i < m)%N -> (j < m)%N -> \sum_(b < m) (v i b)^* * v j b = if i == j then 1 else 0) /\
  forall (s : R) i j, (i < m)%N -> (j < m)%N ->
  ent (disp m (s%:C * a)) i j = \sum_(k < m) expi (s * E k) * (v k i * (v k j)^*).
Proof.
have [E [v [o H]]] := gen_line m a; exists E, v; split=> // s i j hi hj.
have [_ h] := ex m (s%:C * a); exact: climit_unique (h i j hi hj) (H s i j hi hj).
Qed.
Lemma lmix (e w x f y z : C) : e * (w * x) * (f * (y * z)) = e * f * (w * z) * (x * y). Proof. by ring. Qed.
Lemma line_mul m (a : C) (s t : R) : eqop (omul (disp m (s%:C * a)) (disp m (t%:C * a))) (disp m ((s + t)%:C * a)).
Proof.
have [E [v [o H]]] := disp_line m a; split=> [|i j]; rewrite /= !exp_disp_dims // => hi hj; rewrite H //.
transitivity (\sum_(k < m) \sum_(l < m) expi (s * E k) * expi (t * E l) * (v k i * (v l j)^*) * (\sum_(b < m) (v k b)^* * v l b)).
  transitivity (\sum_(b < m) \sum_(k < m) \sum_(l < m) expi (s * E k) * expi (t * E l) * (v k i * (v l j)^*) * ((v k b)^* * v l b)).
    apply: eq_bigr => b _; rewrite !H // big_distrl /=; apply: eq_bigr => k _; rewrite mulr_sumr; apply: eq_bigr => l _.
    exact: lmix.
  rewrite exchange_big /=; apply: eq_bigr => k _; rewrite exchange_big /=; apply: eq_bigr => l _.
  by rewrite mulr_sumr.
apply: eq_bigr => k _; rewrite (bigD1 k) //= [X in _ + X]big1 ?addr0.
  by rewrite o // eqxx mulr1 -expi_add -Rmult_plus_distr_r.
move=> l; rewrite -val_eqE /= eq_sym => /negPf ne; by rewrite o // ne mulr0.
Qed.
Lemma disp_zero m : eqop (disp m 0) (oeye m).
Proof.
have [E [v [o H]]] := disp_line m 0; split=> [|i j]; rewrite /= !exp_disp_dims // => hi hj.
rewrite -[X in disp m X](mul0r 0) -[X in disp m (X * _)]/(0%:C) H // -(complete2 o hi hj).
by apply: eq_bigr => k _; rewrite Rmult_0_l /expi cos_0 sin_0 mul1r.
Qed.
Lemma disp_adj m a : eqop (oadj (disp m a)) (disp m (- a)).
Proof.
have [E [v [o H]]] := disp_line m a; split=> [|i j]; rewrite /= !exp_disp_dims // => hi hj.
rewrite -{1}[a]mul1r -mulN1r -[X in (ent (disp m (X * _)) _ _)^*]/(1%:C) (_ : -1 = (-1)%:C); last by rewrite cRN.
rewrite !H // cj_sum; apply: eq_bigr => k _; rewrite !cjM cjK [_ * v k i]mulrC.
congr (_ * _); rewrite Rmult_1_l (_ : Rmult (-1) (E k) = Ropp (E k)); last by rewrite RmultE mulN1r.
by rewrite /expi cos_neg sin_neg.
Qed.
Lemma disp_unitary m a : unitary (disp m a).
Proof.
have D := exp_disp_dims; rewrite /unitary D.
have L (s t : R) : s + t = 0 -> eqop (omul (disp m (s%:C * a)) (disp m (t%:C * a))) (oeye m).
  by move=> st; apply: eqop_trans (line_mul m a s t) _; rewrite st mul0r; exact: disp_zero.
have e1 : 1%:C * a = a by rewrite mul1r.
have eN : (-1)%:C * a = - a by rewrite cRN mulN1r.
have h1 := L 1 (-1) (subrr _); have h2 := L (-1) 1 (addNr _); rewrite e1 eN in h1 h2.
split.
  by apply: eqop_trans h1; apply: omul_eq (eqop_refl _) (disp_adj m a) _; rewrite /= !D.
by apply: eqop_trans h2; apply: omul_eq (disp_adj m a) (eqop_refl _) _; rewrite /= !D.
Qed.
Lemma disp_root m a : square_root (disp m (a / 2%:R)) (disp m a).
Proof.
have e : a / 2%:R = (2%:R^-1 : R)%:C * a by rewrite mulrC; congr (_ * _); rewrite fmorphV rmorph_nat.
rewrite /square_root e; apply: eqop_trans (line_mul m a _ _) _.
rewrite (_ : 2%:R^-1 + 2%:R^-1 = 1 :> R) ?mul1r; first exact: eqop_refl.
have n2 : (2%:R : R) != 0 by rewrite Num.Theory.pnatr_eq0.
by rewrite -[X in X + _]mul1r -[X in _ + X]mul1r -mulrDl mulfV.
Qed.
Lemma disp_epair m a : epair (gen m a) (disp m a).
Proof.
have H : forall i j, (i < m)%N -> (j < m)%N -> - 'i * ent (gen m a) i j = conjc (- 'i * ent (gen m a) j i).
  by move=> i j _ _; rewrite cjM cjN iconj opprK -gen_anti mulNr mulrN opprK.
have [E [v [_ eig orth]]] := spectral (h := fun i j => - 'i * ent (gen m a) i j) H.
have dg : dim (gen m a) = m by [].
have ei k b : (k < m)%N -> (b < m)%N -> \sum_(i < m) ent (gen m a) b i * v k i = 'i * (E k)%:C * v k b.
  move=> hk hb; rewrite -mulrA -(eig k b hk hb) mulr_sumr; apply: eq_bigr => i _.
  by rewrite !mulrA mulrN i_sq opprK mul1r.
split; first by rewrite exp_disp_dims dg.
exists E, v; rewrite dg; split=> // i j hi hj.
have [_ h] := ex m a; exact: climit_unique (h i j hi hj) (exp_spec dg ei orth hi hj).
Qed.
End Disp.

(** Existence. *)
Lemma exponential_exists : exists disp, exponential disp.
Proof.
have H m a : exists D : op, dim D = m /\ forall i j, (i < m)%N -> (j < m)%N -> climit (fun n => partial_exp (gen m a) n i j) (ent D i j).
  have [E [v [_ h]]] := gen_line m a.
  exists (Op m (fun i j => \sum_(k < m) expi (R1 * E k) * (v k i * (v k j)^*))); split=> // i j hi hj.
  by have := h R1 i j hi hj; rewrite mul1r.
exists (fun m a => proj1_sig (constructive_indefinite_description _ (H m a))) => m a.
by case: (constructive_indefinite_description _ _).
Qed.
