(** SymmetryProofs.v -- digit-wise transformations of tensor products. *)
From Coq Require Import Reals ZArith Lia.
From Verif.Model Require Import Base Units Edge Accuracy HamConst.
Lemma charge_at_flip (m a : nat) : (a < m)%nat -> charge_at m (m - 1 - a) = Ropp (charge_at m a).
Proof.
  intro H. unfold charge_at. rewrite minus_INR, minus_INR; try apply le_S_n; try Lia.lia.
  simpl. Lra.lra.
Qed.
From mathcomp Require Import all_ssreflect all_algebra.
From mathcomp Require Import complex ring zify.
From Verif.Numerics Require Import RStruct Bridge.
From Verif.Model Require Import Op Transform Ham.
From Verif.Spec Require Import OpSpec SymmetrySpec.
From Verif.Proofs Require Import OpProofs HamProofs HamProofs2 HamProofs5 HamProofs6.

Set Implicit Arguments.
Unset Strict Implicit.
Unset Printing Implicit Defensive.
Import GRing.Theory.
Local Open Scope ring_scope.
Local Open Scope complex_scope.

Definition cc (c : bool) (x : C) : C := if c then x^* else x.
Lemma ccM c x y : cc c (x * y) = cc c x * cc c y. Proof. by case: c => //; exact: cjM. Qed.
Lemma ccD c x y : cc c (x + y) = cc c x + cc c y. Proof. by case: c => //; exact: cjD. Qed.
Lemma ccB c x y : cc c (x - y) = cc c x - cc c y. Proof. by case: c => //; exact: cjB. Qed.
Lemma cc0 c : cc c 0 = 0. Proof. by case: c => //; exact: cj0. Qed.
Lemma cc1 c : cc c 1 = 1. Proof. by case: c => //; exact: cj1. Qed.
Lemma ccR c (x : R) : cc c x%:C = x%:C. Proof. by case: c => //; exact: cjR. Qed.
Lemma cc_sum c I (r : seq I) (P : pred I) (F : I -> C) :
  cc c (\sum_(i <- r | P i) F i) = \sum_(i <- r | P i) cc c (F i).
Proof. by case: c => //; exact: cj_sum. Qed.
Lemma cc_prod c n (F : 'I_n -> C) : cc c (\prod_(i < n) F i) = \prod_(i < n) cc c (F i).
Proof. by elim/big_rec2: _ => [|i x y _ <-]; rewrite ?cc1 ?ccM. Qed.

Section Rel.
Variables (c : bool) (n : nat) (dims : nat -> nat) (s : nat -> nat -> C) (p : nat -> nat -> nat).
Hypothesis s2 : forall k a, s k a * s k a = 1.
Hypothesis pb : forall k a, (a < dims k)%N -> (p k a < dims k)%N.
Hypothesis pp : forall k a, (a < dims k)%N -> p k (p k a) = a.

Definition S (d : nat -> nat) : C := \prod_(k < n) s k (d k).
Definition P (d : nat -> nat) : nat -> nat := fun k => p k (d k).
Definition at_ (d : nat -> nat) : nat := posn dims d n.

(** One mode. *)
Definition lrel (k : nat) (sg : C) (X X' : op) : Prop :=
  [/\ dim X = dims k, dim X' = dims k & forall a b, (a < dims k)%N -> (b < dims k)%N ->
    ent X' (p k a) (p k b) = sg * (s k a * s k b * cc c (ent X a b))].
(** All modes. *)
Definition grel (sg : C) (A A' : op) : Prop :=
  [/\ dim A = (\prod_(k < n) dims k)%N, dim A' = (\prod_(k < n) dims k)%N &
    forall d d', legal dims d n -> legal dims d' n ->
    ent A' (at_ (P d)) (at_ (P d')) = sg * (S d * S d' * cc c (ent A (at_ d) (at_ d')))].

Lemma legalP d : legal dims d n -> legal dims (P d) n.
Proof. by move=> L k hk; apply: pb; apply: L. Qed.

Lemma grel_T sg F G : (forall k, (k < n)%N -> lrel k (sg k) (F k) (G k)) ->
  grel (\prod_(k < n) sg k) (T F n) (T G n).
Proof.
move=> H; have dF k : (k < n)%N -> dim (F k) = dims k by move=> /H [].
have dG k : (k < n)%N -> dim (G k) = dims k by move=> /H [].
split; [by rewrite T_dim; apply: eq_bigr => k _; apply: dF|by rewrite T_dim; apply: eq_bigr => k _; apply: dG|].
move=> d d' L L'; rewrite /at_ !(T_ent (dims := dims)) //; try exact: legalP.
rewrite cc_prod /S -!big_split /=; apply: eq_bigr => k _.
by have [_ _ ->] := H k (ltn_ord k); [|exact: L|exact: L'].
Qed.

Lemma lrel_eye k : lrel k 1 (oeye (dims k)) (oeye (dims k)).
Proof.
split=> // a b ha hb /=; rewrite mul1r.
case: (eqVneq a b) => [->|ne]; first by rewrite eqxx cc1 s2 mulr1.
rewrite cc0 mulr0; case: eqP => // /(congr1 (p k)); rewrite !pp // => e; by rewrite e eqxx in ne.
Qed.

Lemma lrel_mul k sg sg' X X' Y Y' : lrel k sg X X' -> lrel k sg' Y Y' ->
  lrel k (sg * sg') (omul X Y) (omul X' Y').
Proof.
move=> [d1 d1' E1] [d2 d2' E2]; split=> // a b ha hb /=; rewrite d1 d1' cc_sum.
have hinj : injective (fun i : 'I_(dims k) => Ordinal (pb (ltn_ord i))).
  move=> i j /(congr1 val) /= /(congr1 (p k)); rewrite !pp // => e; exact: val_inj.
rewrite (reindex_inj hinj) /= !mulr_sumr; apply: eq_bigr => i _.
rewrite E1 // E2 // ccM; move: (s2 k i); set u := s k i => u2.
rewrite -[RHS]mulr1 -u2; move: (cc _ _) (cc _ _) (s k a) (s k b) => x y z w.
by rewrite -!mulrA; congr (_ * _); ring.
Qed.

Lemma grel_scale sg x A A' : cc c x = x -> grel sg A A' -> grel sg (oscale x A) (oscale x A').
Proof.
move=> hx [d1 d2 E]; split=> // d d' L L' /=; rewrite E // ccM hx.
by move: (cc _ _) (S _) (S _) => y z w; ring.
Qed.
Lemma grel_add sg A A' B B' : grel sg A A' -> grel sg B B' -> grel sg (oadd A B) (oadd A' B').
Proof.
move=> [d1 d2 E] [_ _ E']; split=> // d d' L L' /=; rewrite E // E' // ccD.
by move: (cc _ _) (cc _ _) (S _) (S _) => x y z w; ring.
Qed.

Definition orel (sg : C) (a a' : option op) : Prop :=
  match a, a' with Some A, Some A' => grel sg A A' | None, None => True | _, _ => False end.
Lemma orel_add sg a a' X X' : orel sg a a' -> grel sg X X' -> orel sg (acc_add a X) (acc_add a' X').
Proof. by case: a a' => [A|] [A'|] //= r g; apply: grel_add. Qed.
Lemma orel_ent sg a a' d d' : orel sg a a' -> legal dims d n -> legal dims d' n ->
  oent a' (at_ (P d)) (at_ (P d')) = sg * (S d * S d' * cc c (oent a (at_ d) (at_ d'))).
Proof.
case: a a' => [A|] [A'|] //= => [[_ _ E] L L'|_ _ _]; first exact: E.
by rewrite cc0 !mulr0.
Qed.
Lemma orel_foldl (X : eqType) sg (f f' : option op -> X -> option op) l a a' :
  (forall x b b', x \in l -> orel sg b b' -> orel sg (f b x) (f' b' x)) -> orel sg a a' ->
  orel sg (foldl f a l) (foldl f' a' l).
Proof.
elim: l a a' => //= x l IH a a' H r; apply: IH; first by move=> y b b' hy; apply: H; rewrite inE hy orbT.
by apply: H => //; rewrite inE eqxx.
Qed.

(** ** A circuit and its image *)
Section Circuit.
Variables (h h' : hin) (disp : nat -> C -> op) (sgQ : C).
Hypothesis hnE : hn h = n.
Hypothesis hmE : hm h =1 dims.
Hypothesis same_st : h_st h' = h_st h.
Hypothesis same_m : h_m h' = h_m h.
Hypothesis sgQ2 : sgQ * sgQ = 1.
Hypothesis Qrel : forall k, (k < n)%N -> lrel k sgQ (charge_op_isolated h k) (charge_op_isolated h' k).
Hypothesis Nrel : forall k, (k < n)%N -> ~~ hcharge h k -> lrel k 1 (num_op_isolated h k) (num_op_isolated h' k).
Hypothesis Frel : forall k, (k < n)%N -> ~~ hcharge h k -> lrel k (-1) (flux_op_isolated h k) (flux_op_isolated h' k).

Let hn' : hn h' = n. Proof. by rewrite /hn same_st -hnE. Qed.
Let hm' : hm h' =1 dims. Proof. by move=> k; rewrite /hm same_m -hmE. Qed.
Let hc' : hcharge h' =1 hcharge h. Proof. by move=> k; rewrite /hcharge same_st. Qed.

Lemma prod_one sg i : (i < n)%N -> \prod_(k < n) (if (k : nat) == i then sg else 1 : C) = sg.
Proof.
move=> hi; rewrite (bigD1 (Ordinal hi)) //= eqxx big1 ?mulr1 // => k; rewrite -val_eqE /= => /negbTE -> //.
Qed.

Lemma grel_one (X X' : nat -> op) sg i : (i < n)%N -> lrel i sg (X i) (X' i) ->
  grel sg (T (one_fam h X i) n) (T (one_fam h' X' i) n).
Proof.
move=> hi r; rewrite -[sg](prod_one _ hi).
apply: (grel_T (sg := fun k => if k == i then sg else 1)) => k hk; rewrite /one_fam.
by case: eqP => [->//|_]; rewrite hmE hm'; apply: lrel_eye.
Qed.

Lemma grel_QQ i j : (i + j < n)%N -> grel 1 (opQQ h i j) (opQQ h' i j).
Proof.
move=> hij; have hi : (i < n)%N by apply: leq_ltn_trans hij; apply: leq_addr.
rewrite !opQQE ?hnE ?hn' //.
pose sg k : C := (if k == i then sgQ else 1) * (if k == (i + j)%N then sgQ else 1).
have -> : 1 = \prod_(k < n) sg k by rewrite big_split /= !prod_one.
apply: grel_T => k hk; rewrite /two_fam /sg; case: eqP => [ei|ni]; case: eqP => [ej|nj].
- by apply: lrel_mul; apply: Qrel.
- by rewrite mulr1; apply: Qrel.
- by rewrite mul1r; apply: Qrel.
- by rewrite mulr1 hmE hm'; apply: lrel_eye.
Qed.

Lemma orel_LC : orel 1 (LC_hamil h) (LC_hamil h').
Proof.
rewrite /LC_hamil hnE hn'; apply: orel_foldl => // i a a'; rewrite mem_iota add0n => /andP [_ hi] r.
apply: orel_foldl r => j b b'; rewrite mem_iota add0n => /andP [_ hj] r.
have hij : (i + j < n)%N by rewrite -ltn_subRL.
have qc x y : quad_cI h' x y = quad_cI h x y by rewrite /quad_cI same_st.
rewrite /LC_term hc' same_st !qc; case: eqP => [j0|nj].
  case: ifP => ch; apply: orel_add => //; apply: grel_scale; rewrite ?ccR //; first exact: grel_QQ.
  by rewrite !opNE hnE hn'; apply: grel_one => //; apply: Nrel; rewrite ?ch.
case: ifP => // _; apply: orel_add => //; apply: grel_scale; rewrite ?ccR //; exact: grel_QQ.
Qed.

Lemma Q_rel i : (i < n)%N -> grel sgQ (opQ h i) (opQ h' i).
Proof. by move=> hi; rewrite !opQE hnE hn'; apply: grel_one => //; apply: Qrel. Qed.
Lemma Phi_rel i : (i < n)%N -> ~~ hcharge h i -> grel (-1) (opPhi h i) (opPhi h' i).
Proof. by move=> hi ch; rewrite !opPhiE hnE hn'; apply: grel_one => //; apply: Frel. Qed.

Lemma coef_same ct e : h_C h' = h_C h -> coupling_coef h' ct e = coupling_coef h ct e.
Proof. by move=> eC; rewrite /coupling_coef /coupling_mat same_st eC. Qed.

Lemma sum_rel sg (k : nat -> R) (A A' : nat -> op) d d' : legal dims d n -> legal dims d' n ->
  (forall i, (i < n)%N -> k i <> 0 -> grel sg (A i) (A' i)) ->
  \sum_(i < n) (k i)%:C * ent (A' i) (at_ (P d)) (at_ (P d')) =
  sg * (S d * S d' * cc c (\sum_(i < n) (k i)%:C * ent (A i) (at_ d) (at_ d'))).
Proof.
move=> L L' H; rewrite cc_sum !mulr_sumr; apply: eq_bigr => i _.
have [->|/eqP nz] := eqVneq (k i) 0; first by rewrite cR0 !mul0r cc0 !mulr0.
have [_ _ ->] := H i (ltn_ord i) nz; rewrite // ccM ccR.
by move: (cc _ _) (S _) (S _) ((k i)%:C) => x y z w; ring.
Qed.

(** Branch flux of an edge without a part in the charge modes. *)
Lemma flux_rel e k d d' : h_C h' = h_C h -> legal dims d n -> legal dims d' n ->
  coupling_coef h Inductive_ e = Ok k -> (forall i, (i < n)%N -> hcharge h i -> k i = 0) ->
  cpl h' e (at_ (P d)) (at_ (P d')) = - (S d * S d' * cc c (cpl h e (at_ d) (at_ d'))).
Proof.
move=> eC L L' Ek kz.
case: (posnP n) => [n0|npos].
  have z (g : hin) x y : hn g = 0%N -> coupling_coef g Inductive_ e = Ok k -> cpl g e x y = 0.
    by move=> g0 Eg; rewrite /cpl /coupling_op Eg g0.
  by rewrite !z ?hnE ?hn' // ?cc0 ?mulr0 ?oppr0 // coef_same.
have [A EA] : exists A, coupling_op h (Some Inductive_) e = Ok A by apply: coupling_total Ek _; rewrite hnE.
have [A' EA'] : exists A', coupling_op h' (Some Inductive_) e = Ok A'.
  by apply: (coupling_total (k := k)); rewrite ?hn' // coef_same.
rewrite /cpl EA EA'; have [k1 [E1 _ _ _ X1]] := couplingP EA; have [k2 [E2 _ _ _ X2]] := couplingP EA'.
move: E1 E2; rewrite coef_same // Ek => -[e1] [e2]; rewrite -{}e1 in X1; rewrite -{}e2 in X2.
rewrite X1 X2 hnE hn' /=; rewrite -[RHS]mulN1r.
apply: sum_rel => // i hi nz; apply: Phi_rel => //; apply/negP => /(kz _ hi) //.
Qed.
(** Branch charge. *)
Lemma charge_rel e d d' A A' : h_C h' = h_C h -> legal dims d n -> legal dims d' n ->
  coupling_op h (Some Capacitive) e = Ok A -> coupling_op h' (Some Capacitive) e = Ok A' ->
  ent A' (at_ (P d)) (at_ (P d')) = sgQ * (S d * S d' * cc c (ent A (at_ d) (at_ d'))).
Proof.
move=> eC L L' EA EA'; have [k1 [E1 _ _ _ X1]] := couplingP EA; have [k2 [E2 _ _ _ X2]] := couplingP EA'.
move: E2; rewrite coef_same // E1 => -[e2]; rewrite -{}e2 in X2.
by rewrite X1 X2 hnE hn' /=; apply: sum_rel => // i hi _; apply: Q_rel.
Qed.
End Circuit.
End Rel.

(** ** Digits of a position *)
Lemma posn_div dims (d : nat -> nat) n : (d n < dims n)%N ->
  (posn dims d n.+1 %/ dims n)%N = posn dims d n /\ (posn dims d n.+1 %% dims n)%N = d n.
Proof.
move=> lt; have h0 : (0 < dims n)%N by apply: leq_ltn_trans lt.
by rewrite /= divnMDl // modnMDl divn_small // modn_small // addn0.
Qed.
Definition par1 (charge : nat -> bool) (k a : nat) : C := if charge k then 1 else (-1) ^+ a.
Definition mir1 (charge : nat -> bool) (dims : nat -> nat) (k a : nat) : nat :=
  if charge k then ((dims k).-1 - a)%N else a.
Lemma parity_posn charge dims d n : legal dims d n ->
  parity charge dims n (posn dims d n) = S n (par1 charge) d.
Proof.
elim: n => [|n IH] L; first by rewrite /S big_ord0.
have [e1 e2] := posn_div (L n (leqnn _)).
by rewrite /S big_ord_recr /= -/(posn dims d n.+1) e1 e2 IH // => k hk; apply: L; apply: ltnW.
Qed.
Lemma mirror_posn charge dims d n : legal dims d n ->
  mirror charge dims n (posn dims d n) = posn dims (P (mir1 charge dims) d) n.
Proof.
elim: n => [|n IH] L //.
have [e1 e2] := posn_div (L n (leqnn _)).
by rewrite /= -/(posn dims d n.+1) e1 e2 IH // => k hk; apply: L; apply: ltnW.
Qed.
Lemma par1_sq charge k a : par1 charge k a * par1 charge k a = 1.
Proof. by rewrite /par1; case: ifP => _; rewrite ?mulr1 // -expr2 -exprM mulnC exprM sqrrN expr1n expr1n. Qed.
Lemma mir1_lt charge dims k a : (a < dims k)%N -> (mir1 charge dims k a < dims k)%N.
Proof.
move=> lt; rewrite /mir1; case: ifP => // _; apply: leq_ltn_trans (leq_subr _ _) _.
by case: (dims k) lt.
Qed.
Lemma mir1K charge dims k a : (a < dims k)%N -> mir1 charge dims k (mir1 charge dims k a) = a.
Proof.
move=> lt; rewrite /mir1; case: (charge k) => //; apply: subKn.
by case: (dims k) lt.
Qed.

(** ** The isolated operators *)
Lemma sgn_adj (a : nat) : (-1) ^+ a * (-1) ^+ a.+1 = -1 :> C.
Proof. by rewrite exprS mulrCA -expr2 -exprM mulnC exprM sqrrN expr1n expr1n mulr1. Qed.
Lemma sgn_adj' (a : nat) : (-1) ^+ a.+1 * (-1) ^+ a = -1 :> C.
Proof. by rewrite mulrC sgn_adj. Qed.

Lemma e_scale x A a b : ent (oscale x A) a b = x * ent A a b. Proof. by []. Qed.
Lemma e_sub A B a b : ent (osub A B) a b = ent A a b - ent B a b. Proof. by []. Qed.
Lemma e_add A B a b : ent (oadd A B) a b = ent A a b + ent B a b. Proof. by []. Qed.
Lemma e_zero d a b : ent (ozero d) a b = 0. Proof. by []. Qed.
Lemma e_adj A a b : ent (oadj A) a b = (ent A b a)^*. Proof. by []. Qed.
Lemma e_diag d f a b : ent (odiag d f) a b = if a == b then f a else 0. Proof. by []. Qed.
Definition ent_ := (e_scale, e_sub, e_add, e_zero).

Lemma charge_flip m a : (a < m)%N -> charge_at m (m.-1 - a)%N = - charge_at m a.
Proof.
move=> lt; have -> : (m.-1 - a)%N = (m - 1 - a)%coq_nat by rewrite -subn1.
by rewrite charge_at_flip //; apply/ltP.
Qed.
Lemma alg_add (f g x y : C) : g * x = - x -> g * y = - y -> f * (x + y) = -1 * (g * (f * (x + y))).
Proof.
move=> l1 l2; have -> : g * (f * (x + y)) = f * (g * x + g * y) by ring.
by rewrite l1 l2; ring.
Qed.
Lemma alg_sub (f g x y : C) : g * x = - x -> g * y = - y -> f * (x - y) = -1 * (g * (f * (x - y))).
Proof.
move=> l1 l2; have -> : g * (f * (x - y)) = f * (g * x - g * y) by ring.
by rewrite l1 l2; ring.
Qed.

Section Iso.
Variable h : hin.
Let cg := hcharge h.
Let idp (k a : nat) : nat := a.
Notation trel := (lrel true (hm h) (par1 cg) idp).
Notation mrel := (lrel false (hm h) (par1 cg) (mir1 cg (hm h))).

Lemma ladder m a b : let g := (-1) ^+ a * (-1) ^+ b : C in
  g * ent (destroy m) a b = - ent (destroy m) a b /\ g * ent (create m) a b = - ent (create m) a b.
Proof.
rewrite /=; split; first by case: eqP => [->|_]; rewrite ?mulr0 ?oppr0 // sgn_adj mulN1r.
case: eqP => [->|_]; last by rewrite conjc0 mulr0 oppr0.
by rewrite sgn_adj' mulN1r.
Qed.
Lemma ladder_real m a b : (ent (destroy m) a b)^* = ent (destroy m) a b /\ (ent (create m) a b)^* = ent (create m) a b.
Proof. by rewrite /=; do 2!case: eqP => _; rewrite ?conjc0 ?cjR. Qed.

Lemma tQ k : trel k 1 (charge_op_isolated h k) (charge_op_isolated h k).
Proof.
split; rewrite ?dimQ // => a b ha hb; rewrite mul1r /par1 /idp /charge_op_isolated -/(cg k).
case: ifP => _.
  by rewrite /cc !ent_ !e_diag !mul1r cjM cjR cjB cjM cjR; case: (a == b); rewrite ?cjR ?cj0 ?cj1.
case: (hm h k == 1%N); first by rewrite e_zero cc0 mulr0.
have [l1 l2] := ladder (hm h k) a b; have [r1 r2] := ladder_real (hm h k) a b.
rewrite /cc !ent_ cjM cjB r1 r2 cjM cjR cjN cji.
rewrite [RHS]mulrCA [in RHS]mulrBr l1 l2.
by move: ('i : C) (ent _ a b) (ent _ a b) => i x y; ring.
Qed.
Lemma tN k : ~~ hcharge h k -> trel k 1 (num_op_isolated h k) (num_op_isolated h k).
Proof.
move=> /negbTE ch; rewrite -/(cg k) in ch; split; rewrite ?dimN // => a b ha hb; rewrite mul1r /par1 /idp /num_op_isolated -/(cg k) ch /cc e_diag.
case: eqP => [->|_]; last by rewrite cj0 mulr0.
by rewrite cjR -expr2 -exprM mulnC exprM sqrrN expr1n expr1n mul1r.
Qed.
Lemma tF k : ~~ hcharge h k -> trel k (-1) (flux_op_isolated h k) (flux_op_isolated h k).
Proof.
move=> /negbTE ch; rewrite -/(cg k) in ch; split; rewrite ?dimF // => a b ha hb; rewrite /par1 /idp /flux_op_isolated -/(cg k) ch.
case: (hm h k == 1%N); first by rewrite e_zero cc0 !mulr0.
have [l1 l2] := ladder (hm h k) a b; have [r1 r2] := ladder_real (hm h k) a b.
by rewrite /cc !ent_ cjM cjR cjD r1 r2; apply: alg_add.
Qed.

Notation h' := (minus_charge h).
Lemma mQ k : mrel k (-1) (charge_op_isolated h k) (charge_op_isolated h' k).
Proof.
split; rewrite ?dimQ // => a b ha hb; rewrite /par1 /mir1 /charge_op_isolated -/(cg k).
rewrite -[hcharge h' k]/(cg k) -[hm h' k]/(hm h k) -[himp h' k]/(himp h k) -[h_ng h' k]/(- h_ng h k).
case: ifP => _; rewrite /cc.
  rewrite !ent_ !e_diag.
  have -> : ((hm h k).-1 - a == (hm h k).-1 - b)%N = (a == b).
    apply/eqP/eqP => [/(congr1 (subn (hm h k).-1))|-> //].
    by rewrite !subKn //; [case: (hm h k) hb|case: (hm h k) ha].
  case: eqP => [->|_]; last by rewrite !(mulr0, subr0, mul1r).
  rewrite charge_flip // !mul1r !mulr1 !cRN.
  by move: (charge_unit%:C) ((charge_at _ _)%:C) ((h_ng h k)%:C) => x y z; ring.
case: (hm h k == 1%N); first by rewrite e_zero !mulr0.
have [l1 l2] := ladder (hm h k) a b.
by rewrite !ent_; apply: alg_sub.
Qed.
Lemma mN k : ~~ hcharge h k -> mrel k 1 (num_op_isolated h k) (num_op_isolated h' k).
Proof.
move=> /negbTE ch; rewrite -/(cg k) in ch; split; rewrite ?dimN // => a b ha hb; rewrite mul1r /par1 /mir1 /num_op_isolated -/(cg k).
rewrite -[hcharge h' k]/(cg k) ch /cc e_diag.
case: eqP => [->|_]; last by rewrite mulr0.
by rewrite -expr2 -exprM mulnC exprM sqrrN expr1n expr1n mul1r.
Qed.
Lemma mF k : ~~ hcharge h k -> mrel k (-1) (flux_op_isolated h k) (flux_op_isolated h' k).
Proof.
move=> /negbTE ch; rewrite -/(cg k) in ch; split; rewrite ?dimF // => a b ha hb; rewrite /par1 /mir1 /flux_op_isolated -/(cg k).
rewrite -[hcharge h' k]/(cg k) -[hm h' k]/(hm h k) -[himp h' k]/(himp h k) ch.
case: (hm h k == 1%N); first by rewrite e_zero !mulr0.
have [l1 l2] := ladder (hm h k) a b.
by rewrite /cc !ent_; apply: alg_add.
Qed.

(** Junction exponentials. *)
Variable disp : nat -> C -> op.
Hypothesis D : displaces disp.
Lemma exp_dimk i k : dim (exp_iso disp h i k) = hm h k.
Proof.
rewrite /exp_iso; case: ifP => _; first exact: d_dim.
by case: eqP => [-> //|_]; exact: D.1.
Qed.
Lemma tE i k : trel k 1 (exp_iso disp h i k) (exp_iso disp h i k).
Proof.
split; rewrite ?exp_dimk // => a b ha hb; rewrite mul1r /par1 /idp /exp_iso -/(cg k).
case: ifP => _.
  by rewrite !mul1r /cc d_entry; do ?case: ifP => _; rewrite ?cj0 ?cj1.
case: eqP => [m1|_]; first by move: ha hb; rewrite m1; case: a b => [|//] [|//] _ _; rewrite /cc ?e_adj e_diag eqxx ?cj1 !mulr1.
rewrite /alpha; have [_ E2 E3] := D.2 (hm h k) (hphi_zp h k * t_wT (h_st h) i k).
rewrite /cc -E2 // E3 // mulrA -[_ * _ * (_ * _)]mulrACA.
by rewrite -!expr2 -!exprM mulnC exprM sqrrN expr1n expr1n mulnC exprM sqrrN expr1n expr1n !mul1r.
Qed.
Lemma mE i k : mrel k 1 (oadj (exp_iso disp h i k)) (exp_iso disp h' i k).
Proof.
split; [exact: (exp_dimk i k)|exact: (exp_dimk i k)|move=> a b ha hb; rewrite mul1r /par1 /mir1 /exp_iso -/(cg k)].
rewrite -[hcharge h' k]/(cg k) -[hm h' k]/(hm h k) -[alpha h' i k]/(alpha h i k) -[t_wT (h_st h') i k]/(t_wT (h_st h) i k).
case: ifP => _.
  rewrite !mul1r /cc e_adj !d_entry.
  have E x y : (x < hm h k)%N -> (y < hm h k)%N ->
      ((hm h k).-1 - y == ((hm h k).-1 - x).+1)%N = (x == y.+1).
    by move=> hx hy; apply/eqP/eqP; lia.
  have E0 : ((hm h k).-1 - a == (hm h k).-1 - b)%N = (a == b).
    apply/eqP/eqP => [/(congr1 (subn (hm h k).-1))|-> //].
    by rewrite !subKn //; [case: (hm h k) hb|case: (hm h k) ha].
  rewrite !E // E0 [b == a]eq_sym.
  by do ?case: ifP => _; rewrite ?cj0 ?cj1.
case: eqP => [m1|_]; first by move: ha hb; rewrite m1; case: a b => [|//] [|//] _ _; rewrite /cc ?e_adj e_diag eqxx ?cj1 !mulr1.
rewrite /alpha; have [E1 _ E3] := D.2 (hm h k) (hphi_zp h k * t_wT (h_st h) i k).
rewrite /cc e_adj -E1 // E3 // mulrA -[_ * _ * (_ * _)]mulrACA.
by rewrite -!expr2 -!exprM mulnC exprM sqrrN expr1n expr1n mulnC exprM sqrrN expr1n expr1n !mul1r.
Qed.
End Iso.
