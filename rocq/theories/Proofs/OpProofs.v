(** OpProofs.v -- algebra of operators and tensor products. *)
From Coq Require Import Reals ZArith.
From mathcomp Require Import all_ssreflect all_algebra.
From mathcomp Require Import complex.
From Verif.Numerics Require Import RStruct.
From Verif.Model Require Import Op.
From Verif.Spec Require Import OpSpec.

Set Implicit Arguments.
Unset Strict Implicit.
Unset Printing Implicit Defensive.
Import GRing.Theory.
Local Open Scope ring_scope.
Local Open Scope complex_scope.

Lemma cjM (x y : C) : (x * y)^* = x^* * y^*. Proof. exact: rmorphM. Qed.
Lemma cjD (x y : C) : (x + y)^* = x^* + y^*. Proof. exact: rmorphD. Qed.
Lemma cjB (x y : C) : (x - y)^* = x^* - y^*. Proof. exact: rmorphB. Qed.
Lemma cjN (x : C) : (- x)^* = - x^*. Proof. exact: rmorphN. Qed.
Lemma cjR (r : R) : (r%:C)^* = r%:C. Proof. exact: conjc_real. Qed.
Lemma cj0 : (0 : C)^* = 0. Proof. exact: conjc0. Qed.
Lemma cj1 : (1 : C)^* = 1. Proof. exact: conjc1. Qed.
Lemma cjK (x : C) : x^*^* = x. Proof. exact: conjcK. Qed.
Lemma cji : ('i : C)^* = - 'i.
Proof. by apply/eqP; rewrite eq_complex /= oppr0 !eqxx. Qed.
Lemma cRD (x y : R) : (x + y)%:C = x%:C + y%:C. Proof. exact: rmorphD. Qed.
Lemma cRM (x y : R) : (x * y)%:C = x%:C * y%:C. Proof. exact: rmorphM. Qed.
Lemma cRN (x : R) : (- x)%:C = - x%:C. Proof. exact: rmorphN. Qed.
Lemma cRB (x y : R) : (x - y)%:C = x%:C - y%:C. Proof. exact: rmorphB. Qed.
Lemma cR0 : (0 : R)%:C = 0. Proof. exact: rmorph0. Qed.
Lemma cR1 : (1 : R)%:C = 1. Proof. exact: rmorph1. Qed.
Lemma cj_sum (I : Type) (r : seq I) (P : pred I) (F : I -> C) :
  (\sum_(i <- r | P i) F i)^* = \sum_(i <- r | P i) (F i)^*.
Proof. exact: rmorph_sum. Qed.

(** ** Equality *)
Lemma eqop_refl A : eqop A A. Proof. by []. Qed.
Lemma eqop_sym A B : eqop A B -> eqop B A.
Proof. by case=> d H; split=> // i j; rewrite -d => hi hj; rewrite H. Qed.
Lemma eqop_trans A B D : eqop A B -> eqop B D -> eqop A D.
Proof.
by case=> d H [d' H']; split; [rewrite d|move=> i j hi hj; rewrite H // H' -?d].
Qed.
#[export] Hint Resolve eqop_refl : core.

Lemma oadd_eq A A' B B' : eqop A A' -> eqop B B' -> dim B = dim A -> eqop (oadd A B) (oadd A' B').
Proof. by case=> dA HA [dB HB] d; split=> //= i j hi hj; rewrite HA // HB // d. Qed.
Lemma osub_eq A A' B B' : eqop A A' -> eqop B B' -> dim B = dim A -> eqop (osub A B) (osub A' B').
Proof. by case=> dA HA [dB HB] d; split=> //= i j hi hj; rewrite HA // HB // d. Qed.
Lemma oscale_eq c A A' : eqop A A' -> eqop (oscale c A) (oscale c A').
Proof. by case=> d H; split=> //= i j hi hj; rewrite H. Qed.
Lemma oadj_eq A A' : eqop A A' -> eqop (oadj A) (oadj A').
Proof. by case=> d H; split=> //= i j hi hj; rewrite H. Qed.
Lemma omul_eq A A' B B' : eqop A A' -> eqop B B' -> dim B = dim A -> eqop (omul A B) (omul A' B').
Proof.
case=> dA HA [dB HB] d; split=> //= i j hi hj; rewrite -dA.
by apply: eq_bigr => k _; rewrite HA // HB // d.
Qed.

Lemma divb a b i : (i < a * b)%N -> (i %/ b < a)%N /\ (i %% b < b)%N.
Proof.
move=> h; have b0 : (0 < b)%N by case: b h => //; rewrite muln0.
by rewrite ltn_divLR // ltn_mod.
Qed.

Lemma kron_eq A A' B B' : eqop A A' -> eqop B B' -> eqop (kron A B) (kron A' B').
Proof.
case=> dA HA [dB HB]; split=> /= [|i j hi hj]; first by rewrite dA dB.
have [h1 h2] := divb hi; have [h3 h4] := divb hj.
by rewrite -dB HA // HB.
Qed.

(** ** Kronecker products *)
Lemma sum_divmod a b (f : nat -> nat -> C) :
  \sum_(k < a * b) f (k %/ b)%N (k %% b)%N = \sum_(x < a) \sum_(y < b) f x y.
Proof.
elim: a => [|a IH]; first by rewrite !big_ord0.
rewrite big_ord_recr /= -IH mulSnr big_split_ord /=; congr (_ + _).
apply: eq_bigr => y _ /=.
have b0 : (0 < b)%N by case: b y {IH} => // -[].
by rewrite divnMDl // divn_small // addn0 modnMDl modn_small.
Qed.

Lemma kron_mul A B A' B' : dim A' = dim A -> dim B' = dim B ->
  eqop (omul (kron A B) (kron A' B')) (kron (omul A A') (omul B B')).
Proof.
move=> dA dB; split=> //= i j hi hj.
rewrite dB (sum_divmod _ _ (fun x y => ent A (i %/ dim B)%N x * ent B (i %% dim B)%N y *
          (ent A' x (j %/ dim B)%N * ent B' y (j %% dim B)%N))).
rewrite big_distrl /=; apply: eq_bigr => x _.
rewrite big_distrr /=; apply: eq_bigr => y _.
by rewrite mulrACA.
Qed.

Lemma kron_adj A B : eqop (oadj (kron A B)) (kron (oadj A) (oadj B)).
Proof. by split=> //= i j _ _; rewrite cjM. Qed.

(** ** Tensor products of a family *)
Definition T (F : nat -> op) (n : nat) : op := otensor [seq F k | k <- iota 0 n].

Lemma otensor_rcons A l x : otensor (rcons (A :: l) x) = kron (otensor (A :: l)) x.
Proof. by rewrite /= -cats1 foldl_cat. Qed.

Lemma T0 F : T F 0 = oeye 1. Proof. by []. Qed.
Lemma T1 F : T F 1 = F 0%N. Proof. by []. Qed.
Lemma TS F n : T F n.+2 = kron (T F n.+1) (F n.+1).
Proof. by rewrite /T -(addn1 n.+1) iotaD map_cat cats1 add0n otensor_rcons. Qed.

Lemma T_dim F n : dim (T F n) = (\prod_(k < n) dim (F k))%N.
Proof.
case: n => [|n]; first by rewrite big_ord0.
elim: n => [|n IH]; first by rewrite big_ord_recr big_ord0 /= mul1n.
by rewrite TS [dim _]/= IH [RHS]big_ord_recr.
Qed.

Lemma T_eq F G n : (forall k, (k < n)%N -> eqop (F k) (G k)) -> eqop (T F n) (T G n).
Proof.
case: n => // n; elim: n => [|n IH] H; first by rewrite !T1; apply: H.
by rewrite !TS; apply: kron_eq; [apply: IH => k hk; apply: H; rewrite ltnW|apply: H].
Qed.

Lemma T_ext F G n : (forall k, (k < n)%N -> F k = G k) -> T F n = T G n.
Proof.
move=> H; rewrite /T; congr otensor; apply/eq_in_map => k; rewrite mem_iota add0n => /andP[_].
exact: H.
Qed.

Lemma oeye1_mul : eqop (omul (oeye 1) (oeye 1)) (oeye 1).
Proof. by split=> // -[|//] [|//] _ _; rewrite /= big_ord_recr big_ord0 /= add0r mulr1. Qed.

Lemma T_mul F G n : (forall k, (k < n)%N -> dim (F k) = dim (G k)) ->
  eqop (omul (T F n) (T G n)) (T (fun k => omul (F k) (G k)) n).
Proof.
case: n => [_|n]; first exact: oeye1_mul.
elim: n => [|n IH] H; first by rewrite !T1.
have dT : dim (T G n.+1) = dim (T F n.+1).
  by rewrite !T_dim; apply: eq_bigr => k _; rewrite H //; exact: ltnW (ltn_ord k).
rewrite !TS; apply: eqop_trans (kron_mul _ _) _ => //; first by rewrite H.
by apply: kron_eq => //; apply: IH => k hk; apply: H; rewrite ltnW.
Qed.

Lemma T_adj F n : eqop (oadj (T F n)) (T (fun k => oadj (F k)) n).
Proof.
case: n => [|n]; first by split=> // -[|//] [|//] _ _; exact: conjc1.
elim: n => [|n IH]; first by rewrite !T1.
by rewrite !TS; apply: eqop_trans (kron_adj _ _) _; apply: kron_eq.
Qed.

(** Position of a digit tuple; the entry of a tensor product is the product of
    the entries. *)
Lemma posn_lt (dims d : nat -> nat) n : (forall k, (k < n)%N -> (d k < dims k)%N) ->
  (posn dims d n < \prod_(k < n) dims k)%N.
Proof.
elim: n => [|n IH] H; first by rewrite big_ord0.
rewrite big_ord_recr /=; have h := IH (fun k hk => H k (ltnW hk)); have h' := H n (leqnn _).
by rewrite (leq_trans (n := (posn dims d n * dims n + dims n)%N)) ?ltn_add2l // -mulSnr leq_mul2r h orbT.
Qed.

Lemma posn_ext (dims d d' : nat -> nat) n : (forall k, (k < n)%N -> d k = d' k) ->
  posn dims d n = posn dims d' n.
Proof. by elim: n => //= n IH H; rewrite IH ?H // => k hk; apply: H; apply: ltnW. Qed.

Lemma posn_surj (dims : nat -> nat) n I : (I < \prod_(k < n) dims k)%N ->
  exists d, (forall k, (k < n)%N -> (d k < dims k)%N) /\ posn dims d n = I.
Proof.
elim: n I => [|n IH] I; first by rewrite big_ord0 ltnS leqn0 => /eqP->; exists (fun=> 0%N).
rewrite big_ord_recr /= => h; have [h1 h2] := divb h.
have [d [Hd Ed]] := IH _ h1.
exists (fun k => if k == n then (I %% dims n)%N else d k); split.
  move=> k; rewrite ltnS leq_eqVlt; case: eqP => [-> //|_ /=]; exact: Hd.
rewrite /= eqxx; have -> : posn dims (fun k => if k == n then (I %% dims n)%N else d k) n = posn dims d n.
  by apply: posn_ext => k hk; rewrite (ltn_eqF hk).
by rewrite Ed -divn_eq.
Qed.

Lemma T_ent F n (dims d d' : nat -> nat) : (forall k, (k < n)%N -> dim (F k) = dims k) ->
  (forall k, (k < n)%N -> (d k < dims k)%N) -> (forall k, (k < n)%N -> (d' k < dims k)%N) ->
  ent (T F n) (posn dims d n) (posn dims d' n) = \prod_(k < n) ent (F k) (d k) (d' k).
Proof.
move=> HF Hd Hd'; case: n HF Hd Hd' => [|n]; first by rewrite big_ord0.
elim: n => [|n IH] HF Hd Hd'; first by rewrite T1 big_ord_recr big_ord0 /= mul1r !mul0n !add0n.
rewrite TS [posn _ _ _]/= [X in ent _ _ X]/= /kron [ent _]/= HF // .
have h0 : (0 < dims n.+1)%N by apply: leq_ltn_trans (Hd n.+1 (leqnn _)).
rewrite !divnMDl // !modnMDl !divn_small ?modn_small ?Hd ?Hd' // !addn0.
rewrite [RHS]big_ord_recr /=; congr (_ * _).
by apply: IH => k hk; [apply: HF|apply: Hd|apply: Hd']; rewrite ltnW.
Qed.

(** ** Identity, Hermitian operators *)
Lemma omul1 A d : d = dim A -> eqop (omul (oeye d) A) A.
Proof.
move=> ->; split=> //= i j hi hj; rewrite (bigD1 (Ordinal hi)) //= eqxx mul1r.
by rewrite big1 ?addr0 // => k /eqP Hk; case: eqP => [E|]; [case: Hk; apply: val_inj|rewrite mul0r].
Qed.
Lemma omulA1 A d : d = dim A -> eqop (omul A (oeye d)) A.
Proof.
move=> ->; split=> //= i j hi hj; rewrite (bigD1 (Ordinal hj)) //= eqxx mulr1.
by rewrite big1 ?addr0 // => k /eqP Hk; case: eqP => [E|]; [case: Hk; apply: val_inj|rewrite mulr0].
Qed.

Lemma herm_eq A B : eqop A B -> herm A -> herm B.
Proof. by move=> H HA; apply: eqop_trans (eqop_sym H) _; apply: eqop_trans HA _; apply: oadj_eq. Qed.
Lemma herm_add A B : dim B = dim A -> herm A -> herm B -> herm (oadd A B).
Proof.
by move=> d [_ HA] [_ HB]; split=> //= i j hi hj; rewrite cjD HA // HB // d.
Qed.
Lemma herm_sub A B : dim B = dim A -> herm A -> herm B -> herm (osub A B).
Proof.
by move=> d [_ HA] [_ HB]; split=> //= i j hi hj; rewrite cjB HA // HB // d.
Qed.
Lemma herm_scale (r : R) A : herm A -> herm (oscale r%:C A).
Proof.
case=> _ H; split=> // i j hi hj; change (r%:C * ent A i j = (r%:C * ent A j i)^*).
by rewrite cjM cjR H.
Qed.
Lemma herm_diag d (f : nat -> R) : herm (odiag d (fun k => (f k)%:C)).
Proof.
split=> // i j _ _; change ((if i == j then (f i)%:C else 0) = (if j == i then (f j)%:C else 0)^*).
by rewrite [j == i]eq_sym; case: eqP => [->|_]; rewrite ?cj0 ?cjR.
Qed.
Lemma herm_eye d : herm (oeye d).
Proof.
split=> // i j _ _; change ((if i == j then 1 else 0 : C) = (if j == i then 1 else 0)^*).
by rewrite [j == i]eq_sym; case: eqP => _; rewrite ?cj0 ?cj1.
Qed.
Lemma herm_zero d : herm (ozero d).
Proof. by split=> // i j _ _; rewrite [RHS]cj0. Qed.
Lemma herm_T F n : (forall k, (k < n)%N -> herm (F k)) -> herm (T F n).
Proof. by move=> H; apply: eqop_trans (eqop_sym (T_adj _ _)); apply: T_eq. Qed.
(** The product of commuting Hermitian operators, in particular a square. *)
Lemma herm_mul A B : dim B = dim A -> herm A -> herm B -> eqop (omul A B) (omul B A) ->
  herm (omul A B).
Proof.
move=> d [_ HA] [_ HB] [_ E]; split=> //= i j hi hj.
have := E i j hi hj => /= ->; rewrite cj_sum d; apply: eq_bigr => k _.
by rewrite cjM mulrC HA // HB ?d.
Qed.
Lemma herm_sq A : herm A -> herm (omul A A).
Proof. by move=> H; apply: herm_mul. Qed.
