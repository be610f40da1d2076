(** OffsetGround.v -- the Hamiltonian at the mean of two gate charges. *)
From Coq Require Import Reals Lra FunctionalExtensionality.
From Verif.Model Require Import Base Units Elements Edge LCWB Accuracy HamConst.
From Verif.Spec Require Import ThermalSpec.
From Verif.Proofs Require Import HamConstProofs.

(** The square of an affine function between two points. *)
Lemma mean_square c g a b t :
  (c * ((1 - t) * a + t * b - g) * (c * ((1 - t) * a + t * b - g)) =
   (1 - t) * (c * (a - g) * (c * (a - g))) + t * (c * (b - g) * (c * (b - g))) - c * c * (t * (1 - t) * ((b - a) * (b - a))))%R.
Proof. ring. Qed.
Lemma mean_point c g a b t : (c * ((1 - t) * a + t * b - g) = (1 - t) * (c * (a - g)) + t * (c * (b - g)))%R.
Proof. ring. Qed.
Lemma unit_square : (0 < hbar -> charge_unit * charge_unit = 2 * e_charge * (2 * e_charge) / hbar)%R.
Proof.
  intros p. unfold charge_unit. assert (q : sqrt hbar <> 0%R) by (apply Rgt_not_eq, sqrt_lt_R0; lra).
  rewrite <- (sqrt_sqrt hbar) at 3 by lra. field. exact q.
Qed.

From mathcomp Require Import all_ssreflect all_algebra.
From mathcomp Require Import complex ring.
From Verif.Numerics Require Import RStruct Bridge.
From Verif.Model Require Import Transform Op Ham Diag CircuitSM.
From Verif.Spec Require Import OpSpec GradSpec.
From Verif.Proofs Require Import OpProofs HamProofs HamProofs2 HamProofs3 HamProofs4 HamProofs6 SMProofs NgProofs.

Set Implicit Arguments.
Unset Strict Implicit.
Unset Printing Implicit Defensive.
Import GRing.Theory.
Local Open Scope ring_scope.
Local Open Scope complex_scope.

Lemma spread (X Y G K w : C) : (1 - w) * X + w * Y - G + K = (1 - w) * (X + K) + w * (Y + K) - G.
Proof. ring. Qed.

Section Mean.
Variables (h : hin) (i : nat).
Hypothesis hi : (i < hn h)%N.
Hypothesis ch : hcharge h i.
Let u (t : R) : C := (Rmult charge_unit (Rminus t (h_ng h i)))%:C.
Let dl (b : bool) : C := if b then 1 else 0.

Lemma prodQ_at k l t a b : (a < total h)%N -> (b < total h)%N ->
  prodQ (h_at h i t) a b k l = prodQ h a b k l - u t * (dl (k == i) * ent (opQ h l) a b + dl (l == i) * ent (opQ h k) a b)
     + u t * u t * (dl (k == i) * dl (l == i) * dl (a == b)).
Proof.
move=> ha hb; pose N := total h.
have q j c e : (c < N)%N -> (e < N)%N -> ent (opQ (h_at h i t) j) c e = ent (opQ h j) c e - u t * (dl (j == i) * dl (c == e)).
  move=> hc he; rewrite (opQ_at hi ch) // /dl; congr (_ - _); case: (j == i); rewrite ?mul1r ?mul0r ?mulr0 //.
have -> : prodQ (h_at h i t) a b k l = \sum_(c < N) ent (opQ (h_at h i t) k) a c * ent (opQ (h_at h i t) l) c b.
  by rewrite /prodQ /omul /= dim_opQ.
have -> : prodQ h a b k l = \sum_(c < N) ent (opQ h k) a c * ent (opQ h l) c b.
  by rewrite /prodQ /omul /= dim_opQ.
have s1 (F : nat -> C) : \sum_(c < N) dl (a == c) * F c = F a.
  rewrite -[RHS](@sum_delta N F a ha); apply: eq_bigr => c _; rewrite /dl; case: eqP => _; by rewrite ?mul1r ?mul0r.
have s2 (F : nat -> C) : \sum_(c < N) dl (val c == b) * F c = F b.
  rewrite -[RHS](@sum_delta N F b hb); apply: eq_bigr => c _; rewrite /dl [b == c]eq_sym; case: eqP => _; by rewrite ?mul1r ?mul0r.
transitivity (\sum_(c < N) (ent (opQ h k) a c * ent (opQ h l) c b)
   - \sum_(c < N) dl (a == c) * (u t * dl (k == i) * ent (opQ h l) c b)
   - \sum_(c < N) dl (val c == b) * (u t * dl (l == i) * ent (opQ h k) a c)
   + \sum_(c < N) dl (a == c) * (u t * u t * dl (k == i) * dl (l == i) * dl (val c == b))).
  rewrite -!sumrB -big_split /=; apply: eq_bigr => c _; rewrite !q //.
  move: (ent _ _ _) (ent _ _ _) (dl (k == i)) (dl (l == i)) (dl (a == c)) (dl (val c == b)) (u t) => *; ring.
rewrite (s1 (fun c => u t * dl (k == i) * ent (opQ h l) c b)) (s2 (fun c => u t * dl (l == i) * ent (opQ h k) a c)).
rewrite (s1 (fun c => u t * u t * dl (k == i) * dl (l == i) * dl (c == b))).
move: (\sum_(c < N) _) (ent _ _ _) (ent _ _ _) (dl _) (dl _) (dl _) (u t) => *; ring.
Qed.

Variables (p q t : R).
Let r : R := Rplus (Rmult (Rminus 1 t) p) (Rmult t q).
Let gap : C := (Rmult (Rmult charge_unit charge_unit) (Rmult (Rmult t (Rminus 1 t)) (Rmult (Rminus q p) (Rminus q p))))%:C.

Lemma prodQ_mean k l a b : (a < total h)%N -> (b < total h)%N ->
  prodQ (h_at h i r) a b k l = (Rminus 1 t)%:C * prodQ (h_at h i p) a b k l + t%:C * prodQ (h_at h i q) a b k l
     - gap * (dl (k == i) * dl (l == i) * dl (a == b)).
Proof.
move=> ha hb; rewrite !prodQ_at //.
have e1 : u r = (Rminus 1 t)%:C * u p + t%:C * u q by rewrite /u /r mean_point -!cRM -cRD.
have e2 : u r * u r = (Rminus 1 t)%:C * (u p * u p) + t%:C * (u q * u q) - gap.
  by rewrite /u /gap /r -!cRM -cRD -cRB -[LHS]/((Rmult _ _)%:C) mean_square.
have e3 : (Rminus 1 t)%:C = 1 - t%:C :> C by rewrite -cR1 -cRB.
rewrite e2 e1 e3; move: gap (prodQ _ _ _ _ _) (ent _ _ _) (ent _ _ _) (dl _) (dl _) (dl _) (u p) (u q) (t%:C) => *; ring.
Qed.

Lemma half_mean a b : (a < total h)%N -> (b < total h)%N ->
  half_sum (hn h) (t_cI (h_st h)) (prodQ (h_at h i r) a b) =
  (Rminus 1 t)%:C * half_sum (hn h) (t_cI (h_st h)) (prodQ (h_at h i p) a b) +
  t%:C * half_sum (hn h) (t_cI (h_st h)) (prodQ (h_at h i q) a b) - (halfR (t_cI (h_st h) i i))%:C * gap * dl (a == b).
Proof.
move=> ha hb; pose cf (k l : nat) : C := if k == l then (halfR (t_cI (h_st h) k l))%:C else (t_cI (h_st h) k l)%:C.
have -> : (halfR (t_cI (h_st h) i i))%:C * gap * dl (a == b) =
   \sum_(k < hn h) \sum_(l < hn h | (k <= l)%N) cf k l * (gap * (dl (val k == i) * dl (val l == i) * dl (a == b))).
  have z (k : 'I_(hn h)) : k != Ordinal hi -> dl (val k == i) = 0 by move=> ne; rewrite /dl ifN.
  transitivity (\sum_(l < hn h | (Ordinal hi <= l)%N) cf i l * (gap * (dl (i == i) * dl (val l == i) * dl (a == b)))); last first.
    symmetry; rewrite (bigD1 (Ordinal hi)) //= [X in _ + X = _]big1 ?addr0 // => k /z zk.
    by rewrite big1 // => l _; rewrite zk !mul0r !mulr0.
  rewrite (bigD1 (Ordinal hi)) //= [X in _ = _ + X]big1 ?addr0; last first.
    by move=> l /andP [_ /z zl]; rewrite zl mulr0 mul0r !mulr0.
  by rewrite /cf !eqxx {2 3}/dl !mul1r mulrA.
rewrite /half_sum !mulr_sumr -big_split -sumrB /=; apply: eq_bigr => k _.
rewrite !mulr_sumr -big_split -sumrB /=; apply: eq_bigr => l _; rewrite -/(cf k l) prodQ_mean //.
move: (cf _ _) gap (prodQ _ _ _ _ _) (prodQ _ _ _ _ _) (dl _) (dl _) (dl _) (t%:C) ((Rminus _ _)%:C) => *; ring.
Qed.

Lemma LC_mean a b : (a < total h)%N -> (b < total h)%N ->
  oent (LC_hamil (h_at h i r)) a b =
  (Rminus 1 t)%:C * oent (LC_hamil (h_at h i p)) a b + t%:C * oent (LC_hamil (h_at h i q)) a b
   - (halfR (t_cI (h_st h) i i))%:C * gap * dl (a == b).
Proof.
move=> ha hb.
pose rest := \sum_(k < hn h | ~~ hcharge h k) ((t_om (h_st h) k)%:C * ent (opN h k) a b
     - (halfR (t_cI (h_st h) k k))%:C * prodQ h a b k k).
have E z : oent (LC_hamil (h_at h i z)) a b = half_sum (hn h) (t_cI (h_st h)) (prodQ (h_at h i z) a b) + rest.
  rewrite (@HamProofs4.LC_entry (h_at h i z)) //; congr (_ + _); apply: eq_bigr => k ck; congr (_ - _ * _).
  - by rewrite !opNE.
  - by rewrite /prodQ !opQ_other //; apply: contra ck => /eqP ->.
have e3 : (Rminus 1 t)%:C = 1 - t%:C :> C by rewrite -cR1 -cRB.
rewrite !E half_mean // e3 {E}; move: (half_sum _ _ _) (half_sum _ _ _) (_ * gap * _) rest (t%:C) => *; ring.
Qed.

(** The whole Hamiltonian. *)
Lemma ham_mean disp val loops B ks A0 A1 A a b :
  hamiltonian disp (h_at h i p) val loops B ks = Ok A0 -> hamiltonian disp (h_at h i q) val loops B ks = Ok A1 ->
  hamiltonian disp (h_at h i r) val loops B ks = Ok A -> (a < total h)%N -> (b < total h)%N ->
  ent A a b = (Rminus 1 t)%:C * ent A0 a b + t%:C * ent A1 a b - (halfR (t_cI (h_st h) i i))%:C * gap * dl (a == b).
Proof.
move=> H0 H1 H ha hb.
have [rest R] : exists rest, forall z A', hamiltonian disp (h_at h i z) val loops B ks = Ok A' ->
    ent A' a b = oent (LC_hamil (h_at h i z)) a b + rest.
  exists (\sum_(k <- k_ind ks) (ind_coef (val k.1.2) (ext_flux loops B k.2))%:C * cpl h k.1.1 a b
    - \sum_(k <- k_jj ks) (val k.1.1.2)%:C * jjent disp h (ext_flux loops B k.1.2) k.2 a b) => z A' HA.
  rewrite (hamiltonian_entry _ _ HA) addrA; congr (_ + _ - _); apply: eq_bigr => k _.
  by rewrite /cpl flux_at.
have e3 : (Rminus 1 t)%:C = 1 - t%:C :> C by rewrite -cR1 -cRB.
rewrite (R _ _ H0) (R _ _ H1) (R _ _ H) (LC_mean ha hb) e3.
exact: spread.
Qed.
End Mean.
