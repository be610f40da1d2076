(** HamProofs5.v -- charge displacement operators and coupling operators. *)
From Coq Require Import Reals ZArith Lra Lia.
From Verif.Model Require Import Base Units Edge Accuracy HamConst.
From Verif.Proofs Require Import HamConstProofs.
From mathcomp Require Import all_ssreflect all_algebra.
From mathcomp Require Import complex ring.
From Verif.Numerics Require Import RStruct Bridge.
From Verif.Model Require Import Op Transform Ham.
From Verif.Spec Require Import OpSpec.
From Verif.Proofs Require Import OpProofs HamProofs HamProofs2 HamProofs3 HamProofs4.

Set Implicit Arguments.
Unset Strict Implicit.
Unset Printing Implicit Defensive.
Import GRing.Theory.
Local Open Scope ring_scope.
Local Open Scope complex_scope.

(** ** Displacement *)
(** Non-zero entries of the operator: the row is above the column by the sign of w. *)
Lemma d_entry m w i j : ent (d_op_isolated m w) i j =
  if Rlt_dec w 0 then (if j == i.+1 then 1 else 0)
  else if Rlt_dec 0 w then (if i == j.+1 then 1 else 0)
  else (if i == j then 1 else 0).
Proof.
rewrite /d_op_isolated; case: eqP => [->|w0].
  by case: Rlt_dec => [H|H] //; case: (Rlt_irrefl _ H).
case: Rlt_dec => // nw; case: Rlt_dec => [pw|nw'] /=; last first.
  by case: w0; apply: Rle_antisym; apply: Rnot_lt_le.
change ((if i == j.+1 then 1 else 0 : C)^* = if i == j.+1 then 1 else 0).
by case: eqP => _; rewrite ?cj1 ?cj0.
Qed.
Lemma d_dim m w : dim (d_op_isolated m w) = m.
Proof. by rewrite /d_op_isolated; case: eqP => // _; case: Rlt_dec. Qed.

Lemma diagl d f A i j : (i < d)%N -> ent (omul (odiag d f) A) i j = f i * ent A i j.
Proof.
move=> hi /=; rewrite (bigD1 (Ordinal hi)) //= eqxx big1 ?addr0 // => k ne.
by rewrite ifN ?mul0r // eq_sym; apply: contra ne => /eqP E; apply/eqP/val_inj.
Qed.
Lemma diagr d f A i j : dim A = d -> (j < d)%N -> ent (omul A (odiag d f)) i j = ent A i j * f j.
Proof.
move=> dA hj /=; rewrite dA (bigD1 (Ordinal hj)) //= eqxx big1 ?addr0 // => k ne.
by rewrite ifN ?mulr0 //; apply: contra ne => /eqP E; apply/eqP/val_inj.
Qed.

Lemma chargeS m k : (charge_at m k.+1)%:C = (charge_at m k)%:C + 1.
Proof. by rewrite charge_step cRD. Qed.

Lemma shift_entry m (w : R) i j : w = -1 \/ w = 0 \/ w = 1 ->
  (charge_at m i)%:C * ent (d_op_isolated m w) i j =
  ent (d_op_isolated m w) i j * ((charge_at m j)%:C + w%:C).
Proof.
rewrite d_entry => Hw.
case: Rlt_dec => [lt|nlt]; cbn [is_left].
  have -> : w = -1.
    case: Hw => [//|[E|E]]; move: lt; rewrite E => H; first by case: (Rlt_irrefl _ H).
    by case: (Rlt_asym _ _ H Rlt_0_1).
  case: eqP => [->|_]; last by rewrite mulr0 mul0r.
  by rewrite mulr1 mul1r chargeS cRN cR1 addrK.
case: Rlt_dec => [lt|nlt']; cbn [is_left].
  have -> : w = 1.
    case: Hw => [E|[E|//]]; move: lt; rewrite E => H; last by case: (Rlt_irrefl _ H).
    by case: nlt; rewrite E; have := Ropp_lt_gt_contravar _ _ Rlt_0_1; rewrite Ropp_0.
  case: eqP => [->|_]; last by rewrite mulr0 mul0r.
  by rewrite mulr1 mul1r chargeS cR1.
have -> : w = 0 by apply: Rle_antisym; apply: Rnot_lt_le.
by case: eqP => [->|_]; rewrite ?mulr0 ?mul0r // mulr1 mul1r cR0 addr0.
Qed.

(** In the whole space: [num_j E = E num_j + w_j E]. *)
Lemma iso_dim disp h i k : (forall m a, dim (disp m a) = m) -> dim (exp_iso disp h i k) = hm h k.
Proof.
move=> Hd; rewrite /exp_iso; case: ifP => _; first exact: d_dim.
by case: ifP => [/eqP ->|_].
Qed.

Lemma shift_full disp h i j a b : (forall m a, dim (disp m a) = m) -> (j < hn h)%N -> hcharge h j ->
  t_wT (h_st h) i j = -1 \/ t_wT (h_st h) i j = 0 \/ t_wT (h_st h) i j = 1 ->
  (a < total h)%N -> (b < total h)%N ->
  ent (omul (opN h j) (opExp disp h i)) a b =
  ent (omul (opExp disp h i) (opN h j)) a b + (t_wT (h_st h) i j)%:C * ent (opExp disp h i) a b.
Proof.
move=> Hd hj hc Hw ha hb.
have -> : opExp disp h i = T (exp_iso disp h i) (hn h) by [].
rewrite opNE; set F := one_fam h _ j; set G := exp_iso disp h i.
have dG k : dim (G k) = hm h k by exact: iso_dim.
have dF k : dim (F k) = hm h k by rewrite /F /one_fam; case: eqP; rewrite ?dimN.
have [_ E1] : eqop (omul (T F (hn h)) (T G (hn h))) (T (fun k => omul (F k) (G k)) (hn h)).
  by apply: T_mul => k _; rewrite dF dG.
have [_ E2] : eqop (omul (T G (hn h)) (T F (hn h))) (T (fun k => omul (G k) (F k)) (hn h)).
  by apply: T_mul => k _; rewrite dF dG.
have tF : dim (T F (hn h)) = total h by rewrite T_dim; apply: eq_bigr => k _; rewrite dF.
have tG : dim (T G (hn h)) = total h by rewrite T_dim; apply: eq_bigr => k _; rewrite dG.
rewrite E1 ?E2 /=; rewrite ?tF ?tG //.
move: ha hb => /posn_surj [d [Ld <-]] /posn_surj [d' [Ld' <-]].
rewrite !(T_ent (dims := hm h)) //; try by move=> k hk /=; rewrite ?dF ?dG.
pose J := Ordinal hj.
have sp (f : 'I_(hn h) -> C) : \prod_k f k = f J * \prod_(k | k != J) f k by rewrite (bigD1 J).
rewrite !sp.
have same k : k != J -> ent (omul (F k) (G k)) (d k) (d' k) = ent (G k) (d k) (d' k)
                     /\ ent (omul (G k) (F k)) (d k) (d' k) = ent (G k) (d k) (d' k).
  move=> ne; have -> : F k = oeye (hm h k) by rewrite /F /one_fam ifN.
  have [_ A1] := @omul1 (G k) (hm h k) (esym (dG k)).
  have [_ A2] := @omulA1 (G k) (hm h k) (esym (dG k)).
  by split; [apply: A1; rewrite /= ?Ld ?Ld' | apply: A2; rewrite /= dG ?Ld ?Ld'].
rewrite (eq_bigr (fun k : 'I_(hn h) => ent (G k) (d k) (d' k))) => [|k ne]; last by case: (same k ne).
rewrite [X in _ = _ * X + _](eq_bigr (fun k : 'I_(hn h) => ent (G k) (d k) (d' k))) => [|k ne];
  last by case: (same k ne).
have -> : F J = qcharge (hm h j) by rewrite /F /one_fam eqxx /num_op_isolated hc.
have EG : G J = d_op_isolated (hm h j) (t_wT (h_st h) i j) by rewrite /G /exp_iso hc.
rewrite [ent (omul (qcharge _) _) _ _]diagl ?Ld //.
rewrite [ent (omul _ (qcharge _)) _ _]diagr ?dG ?Ld' // EG shift_entry //.
move: (\prod_(k | _) _) => y; move: (ent _ _ _) ((charge_at _ _)%:C) ((t_wT _ _ _)%:C) => x z w; ring.
Qed.

Lemma d_adj m w : eqop (d_op_isolated m (- w)) (oadj (d_op_isolated m w)).
Proof.
split=> [|i j _ _]; first by rewrite /= !d_dim.
change (ent (d_op_isolated m (- w)) i j = (ent (d_op_isolated m w) j i)^*).
rewrite !d_entry.
have [P1 P2] := neg_pos w; have [P3 P4] := pos_neg w.
case: (Rlt_dec (- w) 0) => h1; case: (Rlt_dec w 0) => h2; cbn [is_left].
- by case: (Rlt_asym _ _ h2 (P4 h1)).
- case: Rlt_dec => h3; cbn [is_left]; first by case: eqP => _; rewrite ?cj1 ?cj0.
  by case: h3; exact: P4 h1.
- case: Rlt_dec => h3; cbn [is_left]; first by case: eqP => _; rewrite ?cj1 ?cj0.
  by case: h3; exact: P1 h2.
- case: Rlt_dec => h3; cbn [is_left]; first by case: h2; exact: P2 h3.
  case: Rlt_dec => h4; cbn [is_left]; first by case: h1; exact: P3 h4.
  by rewrite eq_sym; case: eqP => _; rewrite ?cj1 ?cj0.
Qed.

(** [D+ D] is the identity except on the edge state that leaves the truncation. *)
Lemma d_isometry m w : eqop (omul (oadj (d_op_isolated m w)) (d_op_isolated m w))
  (odiag m (fun k => if Rlt_dec w 0 then (if k == 0%N then 0 else 1)
                     else if Rlt_dec 0 w then (if k.+1 == m then 0 else 1) else 1)).
Proof.
split=> [|i j hi hj]; first by rewrite /= d_dim.
have {}hi : (i < m)%N by move: hi; rewrite /= d_dim.
have {}hj : (j < m)%N by move: hj; rewrite /= d_dim.
have -> : ent (omul (oadj (d_op_isolated m w)) (d_op_isolated m w)) i j =
    \sum_(k < m) (ent (d_op_isolated m w) k i)^* * ent (d_op_isolated m w) k j.
  by rewrite [LHS]/= d_dim.
cbn [odiag ent]; rewrite (eq_bigr (fun k : 'I_m =>
    if Rlt_dec w 0 then (if (i == k.+1) && (j == k.+1) then 1 else 0)
    else if Rlt_dec 0 w then (if ((k : nat) == i.+1) && ((k : nat) == j.+1) then 1 else 0)
    else if ((k : nat) == i) && ((k : nat) == j) then 1 else 0 : C)); last first.
  move=> k _; rewrite !d_entry; case: Rlt_dec => h1; cbn [is_left].
    by case: eqP => _; case: eqP => _; rewrite ?cj1 ?cj0 /= ?mul1r ?mul0r.
  case: Rlt_dec => h2; cbn [is_left];
    by case: eqP => _; case: eqP => _; rewrite ?cj1 ?cj0 /= ?mul1r ?mul0r.
have hit (p : nat -> bool) (q : nat) : (forall k, (k < m)%N -> p k = (k == q)) ->
    \sum_(k < m) (if p k then 1 else 0 : C) = if (q < m)%N then 1 else 0.
  move=> Hp; case: ltnP => hq.
    rewrite (bigD1 (Ordinal hq)) //= Hp // eqxx big1 ?addr0 // => k ne.
    by rewrite Hp // ifN //; apply: contra ne => /eqP E; apply/eqP/val_inj.
  by rewrite big1 // => k _; rewrite Hp // ltn_eqF // (leq_trans (ltn_ord k)).
have miss (p : nat -> bool) : (forall k, (k < m)%N -> p k = false) ->
    \sum_(k < m) (if p k then 1 else 0 : C) = 0.
  by move=> Hp; rewrite big1 // => k _; rewrite Hp.
case: Rlt_dec => h1; cbn [is_left].
  have [<-|ne] := eqVneq i j.
    case: i hi {hj} => [|i] hi.
      by rewrite eqxx; apply: (miss (fun k => (0%N == k.+1) && (0%N == k.+1))).
    rewrite /= (hit (fun k => (i.+1 == k.+1) && (i.+1 == k.+1)) i) ?(ltnW hi) // => k _.
    by rewrite andbb eqSS eq_sym.
  apply: (miss (fun k => (i == k.+1) && (j == k.+1))) => k _.
  by apply/negbTE; apply: contra ne => /andP[/eqP -> /eqP ->].
case: Rlt_dec => h2; cbn [is_left].
  have [<-|ne] := eqVneq i j.
    rewrite (hit (fun k => (k == i.+1) && (k == i.+1)) i.+1) => [|k _]; last exact: andbb.
    by rewrite ltn_neqAle hi andbT; case: eqP.
  apply: (miss (fun k => (k == i.+1) && (k == j.+1))) => k _.
  by apply/negbTE; apply: contra ne => /andP[/eqP -> /eqP [->]].
have [<-|ne] := eqVneq i j.
  by rewrite (hit (fun k => (k == i) && (k == i)) i) ?hi // => k _; rewrite andbb.
apply: (miss (fun k => (k == i) && (k == j))) => k _.
by apply/negbTE; apply: contra ne => /andP[/eqP -> /eqP ->].
Qed.

(** ** Coupling operators *)
Definition isnode (z : Z) (n : nat) : Prop := Z.le 1 z /\ Z.le z (Z.of_nat n).

Lemma np_row_ok n z : isnode z n -> np_row n (z - 1) = Ok (Z.to_nat (z - 1)).
Proof.
move=> [h1 h2]; rewrite /np_row /py_index.
have -> : Z.leb 0 (z - 1) = true by apply/Z.leb_le; lia.
have -> : Z.ltb (z - 1) (Z.of_nat n) = true by apply/Z.ltb_lt; lia.
by [].
Qed.

Definition csign (ct : ctype) : R := if ct is Capacitive then -1 else 1.
Definition rowof (z : Z) : nat := Z.to_nat (z - 1).

Lemma coef_edge h ct K a b : coupling_mat h ct = Ok K ->
  isnode a (t_n0 (h_st h)) -> isnode b (t_n0 (h_st h)) ->
  exists k, coupling_coef h ct (a, b) = Ok k /\ forall i, k i = csign ct * (K (rowof a) i - K (rowof b) i).
Proof.
move=> EK Ha Hb; rewrite /coupling_coef EK.
have -> : Z.eqb a 0 || Z.eqb b 0 = false by apply/Bool.orb_false_iff; split; apply/Z.eqb_neq; case: Ha; case: Hb; lia.
rewrite !np_row_ok //; eexists; split; first by [].
by move=> i; case: {EK} ct => /=; rewrite /csign ?mul1r // mulN1r opprB.
Qed.

Lemma coef_ground h ct K a : coupling_mat h ct = Ok K -> isnode a (t_n0 (h_st h)) ->
  coupling_coef h ct (a, Z0) = Ok (K (rowof a)) /\ coupling_coef h ct (Z0, a) = Ok (K (rowof a)).
Proof.
move=> EK Ha; rewrite /coupling_coef EK orbT /= Z.add_0_r.
by have := np_row_ok Ha; rewrite /rowof => ->.
Qed.

Lemma mat_total h ct : toM (t_n0 (h_st h)) (t_n0 (h_st h)) (h_C h) \in unitmx ->
  exists K, coupling_mat h ct = Ok K.
Proof. by move=> u; case: ct; rewrite /= /inv ?u; eexists. Qed.

(** The operator of a node: the combination of the mode operators given by its row. *)
Definition node_ent (h : hin) (ct : ctype) (K : arr) (z : Z) (x y : nat) : C :=
  \sum_(i < hn h) (K (rowof z) i)%:C * ent (mode_op h ct i) x y.

Lemma coupling_ground h ct K a A : coupling_mat h ct = Ok K -> isnode a (t_n0 (h_st h)) ->
  coupling_op h (Some ct) (a, Z0) = Ok A \/ coupling_op h (Some ct) (Z0, a) = Ok A ->
  forall x y, ent A x y = node_ent h ct K a x y.
Proof.
by move=> EK Ha; have [E1 E2] := coef_ground EK Ha; case=> /couplingP [k [Ek _ _ _ H]] x y;
  rewrite H; move: Ek; rewrite ?E1 ?E2 => -[<-].
Qed.

Lemma coupling_edge h ct K a b A : coupling_mat h ct = Ok K ->
  isnode a (t_n0 (h_st h)) -> isnode b (t_n0 (h_st h)) ->
  coupling_op h (Some ct) (a, b) = Ok A ->
  forall x y, ent A x y = (csign ct)%:C * (node_ent h ct K a x y - node_ent h ct K b x y).
Proof.
move=> EK Ha Hb /couplingP [k [Ek _ _ _ H]] x y; rewrite H.
have [k' [Ek' Hk']] := coef_edge EK Ha Hb.
have <- : k' = k by move: Ek; rewrite Ek' => -[].
rewrite /node_ent -sumrB mulr_sumr; apply: eq_bigr => i _.
by rewrite Hk' cRM cRB -mulrA mulrBl.
Qed.

(** The coefficient of a harmonic mode can be read off the operator. *)
Definition unit_digit (i k : nat) : nat := if k == i then 1%N else 0%N.
Definition mode_iso (h : hin) (ct : ctype) : nat -> op :=
  match ct with Capacitive => charge_op_isolated h | Inductive_ => flux_op_isolated h end.

Lemma mode_read h ct i j : (i < hn h)%N -> (j < hn h)%N -> (1 < hm h i)%N ->
  (forall k, (k < hn h)%N -> (0 < hm h k)%N) ->
  ent (mode_op h ct j) (posn (hm h) (fun=> 0%N) (hn h)) (posn (hm h) (unit_digit i) (hn h)) =
  if j == i then ent (mode_iso h ct i) 0%N 1%N else 0.
Proof.
move=> hi hj m1 pos.
have L0 : legal (hm h) (fun=> 0%N) (hn h) by move=> k /pos.
have L1 : legal (hm h) (unit_digit i) (hn h).
  by move=> k hk; rewrite /unit_digit; case: eqP => [->|_] //; apply: pos.
have [_ H] : acts_on (hn h) (hm h) j (ent (mode_iso h ct j)) (mode_op h ct j).
  by case: ct; rewrite /= ?opQE ?opPhiE; apply: one_acts => // k; rewrite ?dimQ ?dimF.
rewrite H //; have [->|ne] := eqVneq j i.
  rewrite ifT; first by rewrite /unit_digit eqxx.
  by apply/forallP => k; rewrite /unit_digit; case: eqP.
rewrite ifF //; apply/negbTE/forallP => /(_ (Ordinal hi)) /=.
by rewrite eq_sym (negbTE ne) /unit_digit eqxx.
Qed.

Lemma coupling_read h ct e A k i : coupling_op h (Some ct) e = Ok A -> coupling_coef h ct e = Ok k ->
  (i < hn h)%N -> (1 < hm h i)%N -> (forall k, (k < hn h)%N -> (0 < hm h k)%N) ->
  ent A (posn (hm h) (fun=> 0%N) (hn h)) (posn (hm h) (unit_digit i) (hn h)) =
  (k i)%:C * ent (mode_iso h ct i) 0%N 1%N.
Proof.
move=> /couplingP [k' [-> _ _ _ H]] [<-] hi m1 pos; rewrite H (bigD1 (Ordinal hi)) //= mode_read // eqxx.
rewrite big1 ?addr0 // => j ne; rewrite mode_read // ifN ?mulr0 //.
Qed.

Lemma iso_amp h ct i : ~~ hcharge h i -> (1 < hm h i)%N ->
  Rlt 0 (t_cI (h_st h) i i) -> Rlt 0 (t_lT (h_st h) i i) -> ent (mode_iso h ct i) 0%N 1%N != 0.
Proof.
move=> hc m1 c0 l0; have Zp := imp_pos _ _ c0 l0.
have ne1 : (hm h i == 1%N) = false by apply/negbTE; rewrite neq_ltn m1 orbT.
have rn (x : R) : Rlt 0 x -> (x%:C != 0 :> C).
  by move=> /Rgt_not_eq H; apply: contra_not_neq H => /(congr1 (@complex.Re R)).
have s1 : Rlt 0 (sqrt (INR 1)) by rewrite sqrt_1; exact: Rlt_0_1.
case: ct; rewrite /mode_iso /charge_op_isolated /flux_op_isolated (negbTE hc) ne1.
  change (- 'i * (q_zp (himp h i))%:C * ((sqrt (INR 1))%:C - (0 : C)^*) != 0 :> C).
  rewrite cj0 subr0 !mulf_neq0 ?rn ?oppr_eq0 //; try exact: q_zp_pos.
  by apply/eqP => /(congr1 (@complex.Im R)) /eqP; rewrite /= oner_eq0.
change ((f_zp (himp h i))%:C * ((sqrt (INR 1))%:C + (0 : C)^*) != 0 :> C).
by rewrite cj0 addr0 mulf_neq0 ?rn //; exact: f_zp_pos.
Qed.
