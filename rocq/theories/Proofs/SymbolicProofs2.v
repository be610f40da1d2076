(** SymbolicProofs2.v -- when the printed Hamiltonian is the Hamiltonian. *)
From Coq Require Import Reals ZArith String Lra Lia FunctionalExtensionality.
From Verif.Model Require Import Base Units Edge Elements LCWB Rounding Accuracy HamConst Symbolic.
From Verif.Numerics Require Import Bridge.
From Verif.Proofs Require Import SymbolicProofs.

Lemma EC_zero u c : Rlt 0 (get_unit_freq u) -> hz_EC u c = 0%R -> c = 0%R.
Proof.
intros Hu E; unfold hz_EC in E; apply Rmult_integral in E; destruct E as [E|E]; [exfalso|exact E].
assert (h0 := hbar_gt); assert (p0 := PI_RGT_0).
assert (e0 : Rlt 0 e_charge) by (unfold e_charge; lra).
assert (Rlt 0 ((2 * e_charge) ^ 2 / (hbar * 2 * PI * get_unit_freq u))).
{ apply Rdiv_lt_0_compat; [apply pow_lt; lra|].
  apply Rmult_lt_0_compat; [apply Rmult_lt_0_compat; [lra|exact p0]|exact Hu]. }
lra.
Qed.
Lemma EC_zero0 u : hz_EC u 0 = 0%R.
Proof. unfold hz_EC; apply Rmult_0_r. Qed.
Lemma unit_ne0 u x : Rlt 0 (get_unit_freq u) -> in_unit u x = 0%R -> x = 0%R.
Proof.
intros Hu E; unfold in_unit in E; assert (p0 := PI_RGT_0).
assert (q : Rlt 0 (2 * PI * get_unit_freq u)) by (apply Rmult_lt_0_compat; lra).
replace x with (x / (2 * PI * get_unit_freq u) * (2 * PI * get_unit_freq u))%R by (field; lra).
rewrite E; ring.
Qed.
Lemma twoPI_ne1 : Rminus (Rmult 2 PI) 1 <> 0%R.
Proof. assert (H := PI_RGT_0); assert (H2 := PI2_1); lra. Qed.

(** Rounding is within half a unit of the last digit. *)
Lemma round_even_near x : Rle (Rabs (Rminus (IZR (round_even x)) x)) (1 / 2).
Proof.
unfold round_even.
assert (E : (x = IZR (Int_part x) + frac_part x)%R) by (unfold frac_part; ring).
destruct (base_fp x) as [H1 H2].
destruct (Rlt_dec (frac_part x) (1 / 2)) as [a|a].
{ apply Rabs_le; rewrite E at 2 4; lra. }
destruct (Rlt_dec (1 / 2) (frac_part x)) as [b|b].
{ rewrite succ_IZR; apply Rabs_le; rewrite E at 2 4; lra. }
destruct (Z.even (Int_part x)); rewrite ?succ_IZR; apply Rabs_le; rewrite E at 2 4; lra.
Qed.
Lemma np_round_near d x : Rle (Rabs (Rminus (np_round d x) x)) (1 / 2 / pow (IZR 10) d).
Proof.
unfold np_round; assert (p : Rlt 0 (pow (IZR 10) d)) by (apply pow_lt; lra).
replace (IZR (round_even (x * pow (IZR 10) d)) / pow (IZR 10) d - x)%R
  with ((IZR (round_even (x * pow (IZR 10) d)) - x * pow (IZR 10) d) * / pow (IZR 10) d)%R by (field; lra).
rewrite Rabs_mult, (Rabs_pos_eq (/ _)) by (apply Rlt_le, Rinv_0_lt_compat, p).
unfold Rdiv at 2; apply Rmult_le_compat_r; [apply Rlt_le, Rinv_0_lt_compat, p|apply round_even_near].
Qed.

From mathcomp Require Import all_ssreflect all_algebra.
From mathcomp Require Import complex ring.
From Verif.Numerics Require Import RStruct.
From Verif.Model Require Import Transform Op Ham.
From Verif.Spec Require Import GraphSpec NetSpec TransSpec OpSpec SymbolicSpec.
From Verif.Proofs Require Import TransProofs2 TransProofs4 OpProofs HamProofs HamProofs2 HamProofs3 HamProofs4 HamProofs5 HamProofs6.

Set Implicit Arguments.
Unset Strict Implicit.
Unset Printing Implicit Defensive.
Import GRing.Theory.
Local Open Scope ring_scope.
Local Open Scope complex_scope.

Lemma mixb (F : zmodType) (x y : F) : x - y - x + y = 0.
Proof. by rewrite -addrA [- x + y]addrC addrA subrK subrr. Qed.
Lemma mixa (F : zmodType) (x y : F) : x - x - y + y = 0.
Proof. by rewrite subrr sub0r addNr. Qed.
Lemma mix5 (F : comRingType) (E p q g : F) :
  E * ((p + 1%:R - g) * (p + 1%:R - (q + 1%:R))) - E * ((p + 1%:R - g) * (p + 1%:R - (q + 0%:R)))
  - E * ((p + 0%:R - g) * (p + 0%:R - (q + 1%:R))) + E * ((p + 0%:R - g) * (p + 0%:R - (q + 0%:R))) = - E.
Proof. ring. Qed.

Section Iff.
Variables (disp : nat -> C -> op) (u : ustate) (h : hin) (val : nat -> R) (loops : seq R) (B : arr) (ks : keys) (k : nat).
Hypothesis nf : normal h ks k.
Variable w : R.
Local Notation n := (hn h).
Local Notation m := (hm h).
Let D := descrip_vars u h val loops B ks.
Let V := reading_of disp D m w.

Lemma excessE x : cross_excess V k n x = excess u h k x.
Proof.
apply: eq_bigr => i ki; apply: eq_bigr => j ij.
rewrite (ng_k disp u val loops B nf w) ?ki ?ltn_ord //; congr (_%:C * _).
by rewrite /V /reading_of /D /descrip_vars; cbn [v_EC dv_EC predn]; rewrite /quad_cI (ltn_eqF ij).
Qed.

(** Charges of a basis state that has digit 1 in modes a and b at most. *)
Definition two_digit (a b : bool) (i j l : nat) : nat :=
  if l == i then nat_of_bool a else if l == j then nat_of_bool b else 0%N.

Lemma chargeD q d : (charge_at q d)%:C = (charge_at q 0)%:C + d%:R.
Proof. by elim: d => [|d IH]; rewrite ?addr0 // chargeS IH -addrA -addn1 natrD. Qed.

Lemma excess_cross i j : (k <= i)%N -> (i < j < n)%N ->
  (forall l, (l < n)%N -> (0 < m l)%N) -> (1 < m i)%N -> (1 < m j)%N ->
  (forall x, (x < total h)%N -> excess u h k x = 0) -> hz_EC u (t_cI (h_st h) i j) = 0.
Proof.
move=> ki /andP[ij hj] m0 mi mj H0; have hi : (i < n)%N by apply: ltn_trans hj.
pose X a b := posn m (two_digit a b i j) n.
have lg a b : legal m (two_digit a b i j) n.
  move=> l hl; rewrite /two_digit; case: eqP => [->|_]; first by apply: leq_ltn_trans mi; case: a.
  by case: eqP => [->|_]; [apply: leq_ltn_trans mj; case: b|apply: m0].
have PX a b l : (l < n)%N -> pairs h l (X a b) = (charge_at (m l) 0)%:C + (two_digit a b i j l)%:R.
  by move=> hl; rewrite /X pairs_at // chargeD.
have EX a b : excess u h k (X a b) = 0 by apply: H0; apply: posn_lt; exact: lg.
have : excess u h k (X true true) - excess u h k (X true false) - excess u h k (X false true)
     + excess u h k (X false false) = - (hz_EC u (t_cI (h_st h) i j))%:C.
  rewrite /excess -!sumrB -big_split /= (bigD1 (Ordinal hi)) //= [X in _ + X]big1 => [|p /andP[kp ne]]; last first.
    rewrite -!sumrB -big_split /=; apply: big1 => q pq.
    rewrite !PX // /two_digit.
    have {}ne : (p : nat) == i = false by apply/negbTE; apply: contra ne => /eqP E; apply/eqP/val_inj.
    rewrite ne; case: (eqVneq (p : nat) j) => [pj|pj].
      by rewrite pj in pq *; rewrite (gtn_eqF (ltn_trans ij pq)) (gtn_eqF pq) /=; exact: mixb.
    by case: (eqVneq (q : nat) i) => qi; [exact: mixa|case: (eqVneq (q : nat) j) => qj; [exact: mixb|exact: mixa]].
  rewrite addr0 -!sumrB -big_split /= (bigD1 (Ordinal hj)) //= [X in _ + X]big1 => [|q /andP[iq ne]]; last first.
    rewrite !PX // /two_digit eqxx (gtn_eqF iq).
    have {}ne : (q : nat) == j = false by apply/negbTE; apply: contra ne => /eqP E; apply/eqP/val_inj.
    rewrite ne; exact: mixa.
  rewrite addr0 !PX // /two_digit !eqxx (gtn_eqF ij); exact: mix5.
rewrite !EX !subr0 addr0 => /esym/eqP; rewrite oppr_eq0 => /eqP E.
by have := congr1 (@complex.Re R_ringType) E.
Qed.

(** Digit 1 in mode 0 only. *)
Lemma opN_digit i d : (i < n)%N -> ~~ hcharge h i -> legal m d n -> ent (opN h i) (posn m d n) (posn m d n) = (d i)%:R.
Proof.
move=> hi hc Hd; rewrite opNE one_emb /num_op_isolated (negbTE hc).
have [_ ->] := emb_acts hi (erefl : dim (num (m i)) = m i) => //.
rewrite ifT; last by apply/forallP => l; rewrite eqxx orbT.
rewrite /num /odiag; cbn [ent]; rewrite eqxx.
by elim: (d i) => [|x IH]; rewrite ?cR0 // INRS IH -addn1 natrD.
Qed.

Lemma omega_reading (Hk : (0 < k)%N) : (forall l, (l < n)%N -> (0 < m l)%N) -> (1 < m 0)%N -> w <> 1 ->
  Rlt 0 (get_unit_freq u) ->
  ~ (forall x, (x < total h)%N ->
      (w - 1)%:C * (\sum_(i < n | (i < k)%N) (in_unit u (t_om (h_st h) i))%:C * ent (opN h i) x x)
      + excess u h k x = 0).
Proof.
move=> m0 m1 w1 Hu H0.
have n0 : (0 < n)%N by apply: leq_trans Hk (nf_le nf).
have c0 : ~~ hcharge h 0 by rewrite (nf_first nf) // -ltnNge.
pose X a := posn m (two_digit a false 0 0) n.
have lg a : legal m (two_digit a false 0 0) n.
  move=> l hl; rewrite /two_digit; case: eqP => [->|_]; first by apply: leq_ltn_trans m1; case: a.
  exact: m0.
have hX a : (X a < total h)%N by apply: posn_lt; exact: lg.
have ex a : excess u h k (X a) = excess u h k (X false).
  apply: eq_bigr => i ki; apply: eq_bigr => j ij.
  have PX l b : (l < n)%N -> (k <= l)%N -> pairs h l (X b) = (charge_at (m l) 0)%:C.
    by move=> hl kl; rewrite pairs_at // /two_digit (gtn_eqF (leq_trans Hk kl)).
  by rewrite !PX // (leq_trans ki (ltnW ij)).
have e1 := H0 _ (hX true); rewrite ex in e1.
have := etrans e1 (esym (H0 _ (hX false))) => /addIr.
have T b : \sum_(i < n | (i < k)%N) (in_unit u (t_om (h_st h) i))%:C * ent (opN h i) (X b) (X b) =
   (in_unit u (t_om (h_st h) 0%N))%:C * (nat_of_bool b)%:R.
  rewrite (bigD1 (Ordinal n0)) //= big1 ?addr0 => [|i /andP[ik ne]].
    by rewrite opN_digit // /two_digit eqxx.
  have nc : ~~ hcharge h i by rewrite (nf_first nf) // -ltnNge.
  rewrite opN_digit // /two_digit; have -> : ((i : nat) == 0%N) = false.
    by apply/negbTE; apply: contra ne => /eqP E; apply/eqP/val_inj.
  by rewrite mulr0.
rewrite !T -[(nat_of_bool true)%:R]/(1 : C) -[(nat_of_bool false)%:R]/(0 : C) mulr1 mulr0 mulr0 -cRM => /(congr1 (@complex.Re R_ringType)) /= /eqP.
rewrite mulf_eq0 => /orP[/eqP E|/eqP E].
  by apply: w1; apply/eqP; rewrite -subr_eq0 E.
have := unit_ne0 _ _ Hu E => om0; move: c0; rewrite /hcharge /is_charge.
by rewrite om0 eqxx.
Qed.
End Iff.

(** Numbers with few digits: nothing is rounded. *)
Lemma rounded_same h : (forall i j, np_round 3 (t_S (h_st h) i j) = t_S (h_st h) i j) ->
  (forall i j, np_round 6 (t_wT (h_st h) i j) = t_wT (h_st h) i j) -> rounded h = h.
Proof.
move=> HS HW; case: h HS HW => -[n0 n m kj W S R cI lT wT om] hm ng hC /= HS HW; rewrite /rounded /=.
have -> : (fun i j => np_round 3 (S i j)) = S by do 2 (apply: functional_extensionality => ?); apply: HS.
by have -> : (fun i j => np_round 6 (wT i j)) = wT by do 2 (apply: functional_extensionality => ?); apply: HW.
Qed.
Lemma roundedB_same B : (forall i j, np_round 2 (B i j) = B i j) -> roundedB B = B.
Proof. by move=> H; do 2 (apply: functional_extensionality => ?); apply: H. Qed.

(** ** The transformations give normal modes *)
Lemma bilin_col n (L S : arr) j : (j < n)%N ->
  bilin n L (fun p => S p j) (fun p => S p j) = \sum_(a < n) \sum_(b < n) S a j * L a b * S b j.
Proof.
move=> hj; rewrite /bilin Bridge.sumnE; apply: eq_bigr => a _; rewrite Bridge.sumnE; by [].
Qed.

Lemma normal_of n m kj (C L W : arr) st0 croot lroot X U D0 eigL tries fuel sv order draw st ind jun mm ng Cm ks k :
  t_init n m kj C L W = Ok st0 ->
  root_of (toM n n C) (toM n n croot) -> root_of (toM n n L) (toM n n lroot) ->
  svd_of (toM n n lroot *m invmx (toM n n croot)) (toM n n X) (toM n n U) (toV n D0) ->
  transform_hamil croot D0 U eigL tries fuel sv order draw st0 = Some (Ok st) ->
  sing_locs n D0 eigL = iota (n - k) k -> (k <= n)%N ->
  (forall i, i \in sing_locs n D0 eigL -> D0 i = 0) ->
  network n m ind jun L W ->
  (forall q, List.In q (k_ind ks) -> List.In q.1.1 ind /\ proper n q.1.1) ->
  (forall q, List.In q (k_jj ks) -> (q.2 < m)%N) ->
  normal (mkH st mm ng Cm) ks (n - k).
Proof.
move=> EI HC HL HA Ht Ek Hk HD net Hind Hjj.
have [k' [Ek' Hn Hf HlT [Em H]]] := transform_all EI HC HL HA Ht.
have Ekk : k' = k by have := congr1 size (etrans (esym Ek') Ek); rewrite !size_iota.
subst k'; have {HlT} lTe := HlT HD.
have [_ [En En0] HDp Hc [HlT [HlTp [HcI [Hsq Hom]]]]] := Hn.
split; rewrite /hn; cbn [h_st]; rewrite ?En.
- exact: leq_subr.
- move=> i hi; rewrite /hcharge /is_charge; cbn [h_st]; rewrite Hom //.
  case: ltnP => hk; last by rewrite eqxx.
  by apply/negbTE/eqP => E; have := HDp i hk; rewrite E => /Rlt_irrefl.
- move=> i j hi /andP[ij hj]; apply: HcI => //; first exact: ltn_trans ij hj.
    by rewrite (ltn_eqF ij).
  by rewrite hi.
- move=> q j /Hjj hq hj.
  have m0 : m != 0%N by case: (m) hq.
  have [H01 _ _ _] := H m0; rewrite /unit_w.
  by case: (H01 q.2 j hq hj) => [->|[->|->]]; [right; left|right; right|left].
- move=> q g j Hq Eg /andP[kj' hj].
  have [Hin Hp] := Hind _ Hq.
  have z : bilin n L (fun p => t_S st p j) (fun p => t_S st p j) = 0.
    rewrite bilin_col //.
    have := congr1 (fun M : 'M_n => M (Ordinal hj) (Ordinal hj)) lTe.
    rewrite !mxE /= HlT // ltnNge kj' andbF => E0; rewrite [RHS]E0 exchange_big /=.
    apply: eq_bigr => b _; rewrite !mxE big_distrl /=; apply: eq_bigr => a _.
    by rewrite !mxE.
  have [[Hnet _] _] := (proj1 net (fun p => t_S st p j), tt).
  have dz := Hnet z _ Hin.
  move: Eg Hp dz; case: (q.1.1) => a b.
  rewrite /proper /GraphSpec.drop /pot; cbn [fst snd] => Eg [Ha [Hb ne]].
  set h' := rounded _ in Eg.
  have EK : coupling_mat h' Inductive_ = Ok (fun i j => np_round 3 (t_S st i j)) by [].
  have E0 : t_n0 (h_st h') = n by [].
  have r0 : np_round 3 0 = 0 by exact: (np_round_z 3 0).
  case: (Z.eqb_spec a 0) => [a0|a0]; case: (Z.eqb_spec b 0) => [b0|b0].
  + by move: ne; rewrite a0 b0.
  + have nb : isnode b (t_n0 (h_st h')) by rewrite E0; split; lia.
    have [_ E] := coef_ground EK nb; move: Eg; rewrite a0 E => -[<-].
    move=> d0; rewrite /rowof.
    have -> : t_S st (Z.to_nat (b - 1)) j = 0.
      have -> : (Z.to_nat (b - 1) = Z.to_nat b - 1)%coq_nat by lia.
      by move: d0; rewrite -[Rminus _ _]/(0 - t_S st (Z.to_nat b - 1)%coq_nat j) sub0r => /eqP; rewrite oppr_eq0 => /eqP.
    exact: r0.
  + have na : isnode a (t_n0 (h_st h')) by rewrite E0; split; lia.
    have [E _] := coef_ground EK na; move: Eg; rewrite b0 E => -[<-].
    move=> d0; rewrite /rowof.
    have -> : t_S st (Z.to_nat (a - 1)) j = 0.
      have -> : (Z.to_nat (a - 1) = Z.to_nat a - 1)%coq_nat by lia.
      by move: d0; rewrite -[Rminus _ _]/(t_S st (Z.to_nat a - 1)%coq_nat j - 0) subr0.
    exact: r0.
  + have na : isnode a (t_n0 (h_st h')) by rewrite E0; split; lia.
    have nb : isnode b (t_n0 (h_st h')) by rewrite E0; split; lia.
    have [g' [E Hg]] := coef_edge EK na nb; move: Eg; rewrite E => -[<-] d0; rewrite Hg mul1r /rowof.
    have -> : (Z.to_nat (a - 1) = Z.to_nat a - 1)%coq_nat by lia.
    have -> : (Z.to_nat (b - 1) = Z.to_nat b - 1)%coq_nat by lia.
    move: d0; rewrite -[Rminus _ _]/(t_S st (Z.to_nat a - 1)%coq_nat j - t_S st (Z.to_nat b - 1)%coq_nat j).
    by move=> /eqP; rewrite subr_eq0 => /eqP->; rewrite subrr.
Qed.
