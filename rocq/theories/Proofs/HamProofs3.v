(** HamProofs3.v -- quadratic energies. *)
From Coq Require Import Reals ZArith.
From Verif.Model Require Import Base Units Edge Accuracy HamConst.
From Verif.Proofs Require Import HamConstProofs.
From mathcomp Require Import all_ssreflect all_algebra.
From mathcomp Require Import complex ring.
From Verif.Numerics Require Import RStruct Bridge.
From Verif.Model Require Import Op Transform Ham.
From Verif.Spec Require Import OpSpec.
From Verif.Proofs Require Import OpProofs HamProofs HamProofs2.

Set Implicit Arguments.
Unset Strict Implicit.
Unset Printing Implicit Defensive.
Import GRing.Theory.
Local Open Scope ring_scope.
Local Open Scope complex_scope.

(** ** Half-triangle sums *)
Lemma sum_shift n i (F : nat -> C) : (i <= n)%N ->
  \sum_(j <- iota 0 (n - i)) F (i + j)%N = \sum_(j < n | (i <= j)%N) F j.
Proof.
move=> h; rewrite sum_iota; move: (n - i)%N (subnKC h) => k <- {h n}; rewrite big_split_ord /=.
rewrite [X in _ = X + _]big1 ?add0r => [|j]; last first.
  by rewrite leqNgt ltn_ord.
by apply: eq_big => // j; rewrite leq_addr.
Qed.

Lemma half_triangle n (X : nat -> nat -> C) : (forall i j, (i < n)%N -> (j < n)%N -> X i j = X j i) ->
  \sum_(i < n) \sum_(j < n) X i j =
  \sum_(i < n) X i i + 2%:R * \sum_(i < n) \sum_(j < n | (i < j)%N) X i j.
Proof.
move=> S; pose Z (b : bool) x : C := if b then x else 0.
have E (i j : 'I_n) : X i j = Z (j == i) (X i j) + Z (i < j)%N (X i j) + Z (j < i)%N (X i j).
  by rewrite /Z -val_eqE /=; case: ltngtP; rewrite ?add0r ?addr0.
rewrite (eq_bigr _ (fun i _ => eq_bigr _ (fun j _ => E i j))).
rewrite (eq_bigr (fun i : 'I_n => X i i + \sum_(j < n) Z (i < j)%N (X i j) + \sum_(j < n) Z (j < i)%N (X i j))).
  rewrite !big_split /= -addrA; congr (_ + _).
  rewrite mulr2n mulrDl !mul1r; congr (_ + _).
    by apply: eq_bigr => i _; rewrite -big_mkcond.
  rewrite exchange_big /=; apply: eq_bigr => i _; rewrite -big_mkcond /=.
  by apply: eq_bigr => j _; rewrite S.
move=> i _; rewrite !big_split /=; congr (_ + _ + _).
by rewrite -big_mkcond /= (big_pred1 i).
Qed.

Lemma two_half (x : R) : 2%:R * (halfR x)%:C = x%:C.
Proof. by rewrite mulr2n mulrDl !mul1r -cRD; congr (_%:C); apply: halfR_add. Qed.

(** ** Entries of the quadratic forms *)
Definition half_sum (n : nat) (A : nat -> nat -> R) (X : nat -> nat -> C) : C :=
  \sum_(i < n) \sum_(j < n | (i <= j)%N) (if (i : nat) == j then (halfR (A i j))%:C else (A i j)%:C) * X i j.

Lemma half_sumE n A X : (forall i j, (i < n)%N -> (j < n)%N -> A i j = A j i) ->
  (forall i j, (i < n)%N -> (j < n)%N -> X i j = X j i) ->
  2%:R * half_sum n A X = \sum_(i < n) \sum_(j < n) (A i j)%:C * X i j.
Proof.
move=> SA SX; rewrite (half_triangle (X := fun i j => (A i j)%:C * X i j)); last first.
  by move=> i j hi hj; rewrite SA // SX.
rewrite /half_sum mulr_sumr [X in _ + X]mulr_sumr -big_split /=; apply: eq_bigr => i _.
rewrite mulr_sumr (bigD1 i) //= eqxx mulrA two_half; congr (_ + _).
rewrite mulr_sumr; apply: eq_big => [j|j]; first by rewrite ltn_neqAle andbC -val_eqE eq_sym.
by move=> /andP[_]; rewrite -val_eqE eq_sym => /negbTE->.
Qed.

Lemma quadratic_QE h A a b :
  oent (quadratic_Q h A) a b = half_sum (hn h) A (fun i j => ent (opQQ h i (j - i)%N) a b).
Proof.
rewrite /quadratic_Q (foldl_sum (g := fun i => \sum_(j < hn h | (i <= j)%N)
   (if i == j then (halfR (A i j))%:C else (A i j)%:C) * ent (opQQ h i (j - i)%N) a b)).
  by rewrite /= add0r sum_iota.
move=> acc i; rewrite mem_iota add0n => /andP[_ hi].
rewrite (foldl_sum (g := fun j => (if i == (i + j)%N then (halfR (A i (i + j)%N))%:C else (A i (i + j)%N)%:C)
                               * ent (opQQ h i (i + j - i)%N) a b)); last first.
  move=> acc' j _; rewrite oent_add /=; congr (_ + _); rewrite addKn; congr (_ * _).
  have -> : (i == (i + j)%N) = (j == 0%N) by rewrite -[X in X == _]addn0 eqn_add2l eq_sym.
  by case: ifP.
by rewrite (sum_shift (fun j => (if i == j then (halfR (A i j))%:C else (A i j)%:C) * ent (opQQ h i (j - i)%N) a b) (ltnW hi)).
Qed.

(** The stored product is the product of the stored operators. *)
Lemma opQQ_mul h i j : (i <= j)%N -> (j < hn h)%N -> eqop (opQQ h i (j - i)) (omul (opQ h i) (opQ h j)).
Proof.
move=> hij hj; rewrite opQQE ?subnKC // !opQE; apply: eqop_sym; apply: one_two => k; exact: dimQ.
Qed.

Lemma opQ_commute h i j : i != j -> commute (opQ h i) (opQ h j).
Proof. by move=> ne; rewrite !opQE; apply: fam_commute => // k; apply: dimQ. Qed.

Lemma dim_opQ h i : dim (opQ h i) = total h.
Proof. by rewrite opQE; apply: dim_one => k; apply: dimQ. Qed.
Lemma dim_opPhi h i : dim (opPhi h i) = total h.
Proof. by rewrite opPhiE; apply: dim_one => k; apply: dimF. Qed.
Lemma opPhi_commute h i j : i != j -> commute (opPhi h i) (opPhi h j).
Proof. by move=> ne; rewrite !opPhiE; apply: fam_commute => // k; apply: dimF. Qed.

Definition prodQ (h : hin) (a b i j : nat) : C := ent (omul (opQ h i) (opQ h j)) a b.
Lemma prodQ_sym h a b i j : (a < total h)%N -> (b < total h)%N -> prodQ h a b i j = prodQ h a b j i.
Proof.
move=> ha hb; have [->//|ne] := eqVneq i j; have [_ H] := opQ_commute h ne.
by apply: H; rewrite /= dim_opQ.
Qed.

Lemma half_sum_QQ h A a b : (a < total h)%N -> (b < total h)%N ->
  half_sum (hn h) A (fun i j => ent (opQQ h i (j - i)%N) a b) = half_sum (hn h) A (prodQ h a b).
Proof.
move=> ha hb; apply: eq_bigr => i _; apply: eq_bigr => j hij; congr (_ * _).
by have [d H] := opQQ_mul hij (ltn_ord j); apply: H; rewrite d /= dim_opQ.
Qed.

Lemma quadratic_phiE h A a b :
  oent (quadratic_phi h A) a b = half_sum (hn h) A (fun i j => ent (omul (opPhi h i) (opPhi h j)) a b).
Proof.
rewrite /quadratic_phi (foldl_sum (g := fun i => \sum_(j < hn h | (i <= j)%N)
   (if i == j then (halfR (A i j))%:C else (A i j)%:C) * ent (omul (opPhi h i) (opPhi h j)) a b)).
  by rewrite [LHS]add0r sum_iota.
move=> acc i; rewrite mem_iota add0n => /andP[_ hi].
rewrite (foldl_sum (g := fun j => if (i <= j)%N then
   (if i == j then (halfR (A i j))%:C else (A i j)%:C) * ent (omul (opPhi h i) (opPhi h j)) a b else 0)).
  by rewrite sum_iota -big_mkcond.
move=> acc' j _; case: ltngtP => [lt|lt|->]; rewrite ?oent_add ?addr0 //.
Qed.

(** ** The harmonic mode *)
(** omega (a a+ + a+ a) / 2 *)
Definition top_defect (m : nat) : op :=
  odiag m (fun k => if k == m.-1 then 1 - (INR m)%:C else 1).

Lemma sqrt2 (k : nat) : (sqrt (INR k))%:C * (sqrt (INR k))%:C = (INR k)%:C.
Proof. by rewrite -cRM; congr (_%:C); apply: sqrt_sqrt; apply: pos_INR. Qed.

Lemma INRS k : (INR k.+1)%:C = (INR k)%:C + 1.
Proof. by have E : INR k.+1 = INR k + 1 := S_INR k; rewrite E cRD cR1. Qed.

Lemma sum_hit m (p : nat) (F : nat -> C) :
  \sum_(k < m) (if (k : nat) == p then F k else 0) = if (p < m)%N then F p else 0.
Proof.
rewrite -big_mkcond /=; case: ltnP => h; first by rewrite (big_pred1 (Ordinal h)).
by rewrite big1 // => k /eqP E; have := ltn_ord k; rewrite E ltnNge h.
Qed.

Lemma aad m k l : (k < m)%N -> (l < m)%N ->
  ent (omul (destroy m) (create m)) k l = if k == l then (if k == m.-1 then 0 else (INR k.+1)%:C) else 0.
Proof.
move=> hk hl.
transitivity (\sum_(p < m) (if (p : nat) == k.+1 then (if k == l then (INR k.+1)%:C else 0) else 0)); last first.
  rewrite (sum_hit _ _ (fun=> if k == l then (INR k.+1)%:C else 0)).
  have -> : (k.+1 < m)%N = (k != m.-1) by case: m hk {hl} => // m; rewrite !ltnS => hk; rewrite ltn_neqAle hk andbT.
  by case: (k == m.-1) => //=; case: ifP.
apply: eq_bigr => p _.
change ((if (p : nat) == k.+1 then (sqrt (INR p))%:C else 0) * (if (p : nat) == l.+1 then (sqrt (INR p))%:C else 0 : C)^* =
  if (p : nat) == k.+1 then (if k == l then (INR k.+1)%:C else 0) else 0).
case: eqP => [->|_]; last by rewrite mul0r.
rewrite eqSS; case: eqP => _; last by rewrite cj0 mulr0.
by rewrite cjR sqrt2.
Qed.

Lemma ada m k l : (k < m)%N -> (l < m)%N ->
  ent (omul (create m) (destroy m)) k l = if k == l then (INR k)%:C else 0.
Proof.
move=> hk hl; case: k hk => [|k] hk.
  transitivity (\sum_(p < m) (0 : C)); last by rewrite big1 //; case: eqP.
  apply: eq_bigr => p _; rewrite -[RHS](mul0r (ent (destroy m) p l)); congr (_ * _).
  by change ((if 0%N == p.+1 then (sqrt (INR 0))%:C else 0 : C)^* = 0); rewrite cj0.
transitivity (\sum_(p < m) (if (p : nat) == k then (if k.+1 == l then (INR k.+1)%:C else 0) else 0)); last first.
  by rewrite (sum_hit _ _ (fun=> if k.+1 == l then (INR k.+1)%:C else 0)) ltnW.
apply: eq_bigr => p _.
change ((if k.+1 == p.+1 then (sqrt (INR k.+1))%:C else 0 : C)^* * (if l == p.+1 then (sqrt (INR l))%:C else 0) =
  if (p : nat) == k then (if k.+1 == l then (INR k.+1)%:C else 0) else 0).
rewrite eqSS [k == p]eq_sym; case: eqP => [->|_]; last by rewrite cj0 mul0r.
rewrite [l == _]eq_sym; case: eqP => [<-|_]; last by rewrite mulr0.
by rewrite cjR sqrt2.
Qed.

(** The quadratures of an isolated mode: squares of a - a+ and a + a+. *)
Lemma quadratures m k l : let a := destroy m in let ad := create m in
  ent (omul (oadd a ad) (oadd a ad)) k l - ent (omul (osub a ad) (osub a ad)) k l =
  2%:R * (ent (omul a ad) k l + ent (omul ad a) k l).
Proof.
move=> a ad.
change (\sum_(p < m) (ent a k p + ent ad k p) * (ent a p l + ent ad p l)
        - \sum_(p < m) (ent a k p - ent ad k p) * (ent a p l - ent ad p l) =
        2%:R * (\sum_(p < m) ent a k p * ent ad p l + \sum_(p < m) ent ad k p * ent a p l)).
rewrite -big_split -sumrB mulr_sumr; apply: eq_bigr => p _ /=.
by move: (ent a k p) (ent ad k p) (ent a p l) (ent ad p l) => x y z t; ring.
Qed.

Lemma harmonic_iso h i k l : ~~ hcharge h i ->
  Rlt 0 (t_cI (h_st h) i i) -> Rlt 0 (t_lT (h_st h) i i) ->
  t_om (h_st h) i = sqrt (t_cI (h_st h) i i * t_lT (h_st h) i i) ->
  (k < hm h i)%N -> (l < hm h i)%N ->
  let om := (t_om (h_st h) i)%:C in
  let Q := charge_op_isolated h i in let F := flux_op_isolated h i in
  2%:R * (om * ent (num_op_isolated h i) k l) =
  (t_cI (h_st h) i i)%:C * ent (omul Q Q) k l + (t_lT (h_st h) i i)%:C * ent (omul F F) k l
  - om * ent (top_defect (hm h i)) k l.
Proof.
move=> hc c0 l0 Eom hk hl om Q F.
set m := hm h i in hk hl *; set c := t_cI _ _ _ in c0 Eom *; set lt := t_lT _ _ _ in l0 Eom *.
have EN : ent (num_op_isolated h i) k l = if k == l then (INR k)%:C else 0.
  by rewrite /num_op_isolated (negbTE hc).
rewrite EN /Q /F /charge_op_isolated /flux_op_isolated (negbTE hc) -/m.
have [E1|ne1] := eqVneq m 1%N.
  move: hk hl; rewrite E1; case: k EN => // EN _; case: l EN => // EN _ /=.
  rewrite !big_ord_recr !big_ord0 /= !mul0r !mulr0 !add0r.
  by have -> : 1%R%:C = 1 :> C := cR1; rewrite !mulr0 subrr mulr0 addr0 subr0.
have Z : ent (omul (oscale (- 'i * (q_zp (himp h i))%:C) (osub (destroy m) (create m)))
                   (oscale (- 'i * (q_zp (himp h i))%:C) (osub (destroy m) (create m)))) k l =
         - ((q_zp (himp h i) * q_zp (himp h i))%R)%:C *
         ent (omul (osub (destroy m) (create m)) (osub (destroy m) (create m))) k l.
  rewrite cRM /omul /= mulr_sumr; apply: eq_bigr => p _.
  have i2 : ('i : C) * 'i = -1 by rewrite -expr2 sqr_i.
  by rewrite mulrACA; congr (_ * _); rewrite mulrACA mulrNN i2 mulN1r.
have Zf : ent (omul (oscale (f_zp (himp h i))%:C (oadd (destroy m) (create m)))
                    (oscale (f_zp (himp h i))%:C (oadd (destroy m) (create m)))) k l =
         ((f_zp (himp h i) * f_zp (himp h i))%R)%:C *
         ent (omul (oadd (destroy m) (create m)) (oadd (destroy m) (create m))) k l.
  by rewrite cRM /omul /= mulr_sumr; apply: eq_bigr => p _; rewrite mulrACA.
rewrite Z Zf mulNr mulrN !(mulrA (_%:C) (_%:C)) -!cRM.
have -> : c * (q_zp (himp h i) * q_zp (himp h i)) = halfR (t_om (h_st h) i).
  by rewrite Eom; apply: q_energy.
have -> : lt * (f_zp (himp h i) * f_zp (himp h i)) = halfR (t_om (h_st h) i).
  by rewrite Eom; apply: f_energy.
rewrite [X in X - _]addrC -mulrBr quadratures [(halfR _)%:C * _]mulrCA [_ * ((halfR _)%:C * _)]mulrA two_half -/om aad // ada //.
rewrite mulrCA -mulrBr; congr (_ * _); rewrite /top_defect [ent _ _ _]/=.
case: eqP => [_|_]; last by rewrite mulr0 addr0 subr0.
case: eqP => [Ek|_]; last first.
  have -> : (INR k.+1)%:C = (INR k)%:C + 1 by rewrite INRS.
  by move: ((INR k)%:C : C) => x; ring.
have -> : (INR m)%:C = (INR k)%:C + 1 by rewrite -INRS Ek prednK //; case: (m) hk.
by move: ((INR k)%:C : C) => x; ring.
Qed.
