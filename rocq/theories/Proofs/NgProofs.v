(** NgProofs.v -- the Hamiltonian as a function of a gate charge. *)
From Coq Require Import Reals ZArith String FunctionalExtensionality.
From Verif.Model Require Import Base Units Elements Edge LCWB Accuracy HamConst PartialConst.
From Verif.Spec Require Import ThermalSpec.

Lemma unit_ng c : (sqrt hbar <> 0 -> charge_unit * c = 2 * e_charge * ng_coef c)%R.
Proof. intros H. unfold charge_unit, ng_coef. field. exact H. Qed.

From mathcomp Require Import all_ssreflect all_algebra.
From mathcomp Require Import complex.
From Verif.Numerics Require Import RStruct Bridge.
From Verif.Model Require Import Transform Op Ham Diag CircuitSM Partial.
From Verif.Spec Require Import OpSpec GradSpec.
From Verif.Proofs Require Import OpProofs HamProofs HamProofs2 HamProofs3 HamProofs4 HamProofs6 CDeriv SMProofs MemProofs GradProofs SymProofs.

Set Implicit Arguments.
Unset Strict Implicit.
Unset Printing Implicit Defensive.
Import GRing.Theory.
Local Open Scope ring_scope.
Local Open Scope complex_scope.

Lemma kron_eye a b : eqop (kron (oeye a) (oeye b)) (oeye (a * b)).
Proof.
split=> //= i j hi hj; have b0 : (0 < b)%N by case: b hi {hj} => //; rewrite muln0.
have [->|ne] := eqVneq i j; first by rewrite !eqxx mulr1.
case: eqP => [E1|]; last by rewrite mul0r.
case: eqP => [E2|]; last by rewrite mulr0.
by case/eqP: ne; rewrite (divn_eq i b) (divn_eq j b) E1 E2.
Qed.
Lemma T_eye (d : nat -> nat) n : eqop (T (fun k => oeye (d k)) n) (oeye (\prod_(k < n) d k)).
Proof.
case: n => [|n]; first by rewrite big_ord0.
elim: n => [|n IH]; first by rewrite T1 big_ord_recr big_ord0 /= mul1n.
rewrite TS big_ord_recr /=; apply: eqop_trans (kron_eq IH (eqop_refl _)) _; exact: kron_eye.
Qed.

Lemma inP (j : nat) s : List.In j s -> j \in s.
Proof. by elim: s => //= k s IH [->|/IH H]; rewrite inE ?eqxx // H orbT. Qed.

(** The same circuit with another gate charge on mode [i]. *)
Definition h_at (h : hin) (i : nat) (t : R) : hin :=
  mkH (h_st h) (h_m h) (fun k => if k == i then t else h_ng h k) (h_C h).

Section Ng.
Variables (h : hin) (i : nat).
Hypothesis hi : (i < hn h)%N.
Hypothesis ch : hcharge h i.

Lemma emb_eye a b : (a < total h)%N -> (b < total h)%N ->
  ent (emb h i (oeye (hm h i))) a b = if a == b then 1 else 0.
Proof.
move=> ha hb; have -> : emb h i (oeye (hm h i)) = T (fun k => oeye (hm h k)) (hn h).
  by apply: T_ext => k _; case: eqP => [->|].
have [d H] := T_eye (hm h) (hn h); rewrite H ?d //.
Qed.

Lemma opQ_other k t : k != i -> opQ (h_at h i t) k = opQ h k.
Proof.
move=> ki; rewrite !opQE !one_emb; congr (T _ _); apply: functional_extensionality => l.
by rewrite /charge_op_isolated /hcharge /hm /himp /= (negbTE ki).
Qed.

Lemma opQ_own t a b : (a < total h)%N -> (b < total h)%N ->
  ent (opQ (h_at h i t) i) a b = ent (opQ h i) a b - (charge_unit * (t - h_ng h i))%:C * (if a == b then 1 else 0).
Proof.
move=> ha hb; rewrite -(emb_eye ha hb) !opQE !one_emb -[emb (h_at h i t) i _]/(emb h i _).
have := @emb_lin h i 1 1 0 (charge_unit * (t - h_ng h i))%:C (charge_op_isolated (h_at h i t) i)
  (charge_op_isolated h i) (charge_op_isolated h i) (oeye (hm h i)) hi (dimQ _ _) (dimQ _ _) (dimQ _ _) erefl.
move=> /(_ _ a b ha hb); rewrite mul0r !mul1r addr0; apply=> // k l hk hl.
rewrite mul0r !mul1r addr0 /charge_op_isolated -[hcharge (h_at h i t) i]/(hcharge h i) ch.
rewrite -[hm (h_at h i t) i]/(hm h i); cbn [ent oscale osub oadd oeye h_at h_ng]; rewrite eqxx.
rewrite (cRM charge_unit) (cRB t) -!mulrA -mulrBr; congr (_ * _).
by rewrite mulrBl opprB addrA subrK.
Qed.

Lemma opQ_at k t a b : (a < total h)%N -> (b < total h)%N ->
  ent (opQ (h_at h i t) k) a b =
  ent (opQ h k) a b - (if k == i then (charge_unit * (t - h_ng h i))%:C * (if a == b then 1 else 0) else 0).
Proof.
by move=> ha hb; case: eqP => [->|/eqP ki]; [apply: opQ_own | rewrite opQ_other // subr0].
Qed.

Definition d_opQ (k a b : nat) : C := if (k == i) && (a == b) then - charge_unit%:C else 0.

Lemma opQ_slope k a b : (a < total h)%N -> (b < total h)%N ->
  cderiv (fun t => ent (opQ (h_at h i t) k) a b) (h_ng h i) (d_opQ k a b).
Proof.
move=> ha hb; apply: (cd_ext (f := fun t => ent (opQ h k) a b + (t - h_ng h i)%:C * d_opQ k a b)).
  move=> t; rewrite opQ_at // /d_opQ; case: eqP => /= _; last by rewrite mulr0 subr0 addr0.
  case: eqP => _; first by rewrite mulr1 mulrN (cRM charge_unit) [_%:C * _%:C]mulrC.
  by rewrite !mulr0 subr0 addr0.
rewrite -[X in cderiv _ _ X]add0r; apply: cd_add; first exact: cd_const.
rewrite -[X in cderiv _ _ X]mul1r; apply: cd_scaler; apply: (@cd_real (fun v => v - h_ng h i) _ 1).
apply: hd_ext (hd_affine 0 (h_ng h i) 1 _) => v.
by rewrite (Rmult_1_r (Rminus v _)) Rplus_0_l.
Qed.

Lemma opQ_self k a b : (a < total h)%N -> (b < total h)%N -> ent (opQ (h_at h i (h_ng h i)) k) a b = ent (opQ h k) a b.
Proof.
by move=> ha hb; rewrite opQ_at // subrr; case: eqP => _; rewrite ?subr0 // mulr0 mul0r subr0.
Qed.

Definition d_prodQ (a b k l : nat) : C :=
  - charge_unit%:C * ((if k == i then ent (opQ h l) a b else 0) + (if l == i then ent (opQ h k) a b else 0)).

Lemma mulr_if0 (b : bool) (c x : C) : c * (if b then x else 0) = if b then c * x else 0.
Proof. by case: b; rewrite ?mulr0. Qed.
Lemma sum_delta n (F : nat -> C) a : (a < n)%N -> \sum_(c < n) (if a == c then F c else 0) = F a.
Proof.
move=> ha; rewrite (bigD1 (Ordinal ha)) //= eqxx big1 ?addr0 // => c ca.
by case: eqP => // E; case/eqP: ca; apply: val_inj.
Qed.

Lemma prodQ_slope k l a b : (a < total h)%N -> (b < total h)%N ->
  cderiv (fun t => prodQ (h_at h i t) a b k l) (h_ng h i) (d_prodQ a b k l).
Proof.
move=> ha hb; pose N := total h.
have E t : prodQ (h_at h i t) a b k l =
   \sum_(c < N) ent (opQ (h_at h i t) k) a c * ent (opQ (h_at h i t) l) c b.
  by rewrite /prodQ /omul /= dim_opQ.
apply: (cd_ext (f := fun t => \sum_(c < N) ent (opQ (h_at h i t) k) a c * ent (opQ (h_at h i t) l) c b)) => [t|].
  by rewrite E.
apply: cd_eq; first by apply: cd_sum_ord => c; apply: cd_mul; apply: opQ_slope => //; apply: ltn_ord.
rewrite /= big_split /d_prodQ mulrDr /=; congr (_ + _).
  transitivity (\sum_(c < N) (if a == c then (if k == i then - charge_unit%:C * ent (opQ h l) c b else 0) else 0)).
    apply: eq_bigr => c _; rewrite opQ_self // /d_opQ; case: eqP => _; case: eqP => _ //=; by rewrite mul0r.
  by rewrite (@sum_delta N (fun c => if k == i then - charge_unit%:C * ent (opQ h l) c b else 0)) //; case: eqP; rewrite ?mulr0.
transitivity (\sum_(c < N) (if b == c then (if l == i then - charge_unit%:C * ent (opQ h k) a c else 0) else 0)).
  apply: eq_bigr => c _; rewrite opQ_self // /d_opQ [b == c]eq_sym; case: eqP => _; case: eqP => _ //=; by rewrite ?mulr0 // mulrC.
by rewrite (@sum_delta N (fun c => if l == i then - charge_unit%:C * ent (opQ h k) a c else 0)) //; case: eqP; rewrite ?mulr0.
Qed.

Hypothesis sym : forall k l, (k < hn h)%N -> (l < hn h)%N -> t_cI (h_st h) k l = t_cI (h_st h) l k.

Lemma d_half_sum a b : half_sum (hn h) (t_cI (h_st h)) (d_prodQ a b) =
  - charge_unit%:C * \sum_(j < hn h) (t_cI (h_st h) i j)%:C * ent (opQ h j) a b.
Proof.
have h2 : (2%:R : C) != 0 by rewrite Num.Theory.pnatr_eq0.
apply: (mulfI h2); rewrite half_sumE //; last by move=> k l _ _; rewrite /d_prodQ addrC.
transitivity (- charge_unit%:C * (\sum_(j < hn h) (t_cI (h_st h) i j)%:C * ent (opQ h j) a b +
                                  \sum_(j < hn h) (t_cI (h_st h) i j)%:C * ent (opQ h j) a b)); last first.
  by rewrite -mulr2n -mulr_natl mulrCA.
rewrite mulrDr !mulr_sumr -big_split /=.
transitivity (\sum_(k < hn h) ((if (k : nat) == i then \sum_(l < hn h) - charge_unit%:C * ((t_cI (h_st h) i l)%:C * ent (opQ h l) a b) else 0)
    + - charge_unit%:C * ((t_cI (h_st h) i k)%:C * ent (opQ h k) a b))).
  apply: eq_bigr => k _.
  transitivity (\sum_(l < hn h) ((if (k : nat) == i then - charge_unit%:C * ((t_cI (h_st h) i l)%:C * ent (opQ h l) a b) else 0) +
     (if i == l then - charge_unit%:C * ((t_cI (h_st h) l k)%:C * ent (opQ h k) a b) else 0))).
    apply: eq_bigr => l _; rewrite /d_prodQ mulrCA mulrDr [- charge_unit%:C * (_ + _)]mulrDr [i == l]eq_sym; congr (_ + _).
      by case: eqP => [->|]; rewrite ?mulr0.
    by case: eqP => [E|]; rewrite ?mulr0 // sym.
  rewrite big_split /=; congr (_ + _); first by case: eqP => // _; rewrite big1.
  by rewrite (@sum_delta (hn h) (fun l => - charge_unit%:C * ((t_cI (h_st h) l k)%:C * ent (opQ h k) a b))).
rewrite big_split /= [RHS]big_split /=; congr (_ + _).
rewrite (bigD1 (Ordinal hi)) //= eqxx [X in _ + X]big1 ?addr0 // => k ki.
by case: eqP => // E; case/eqP: ki; apply: val_inj.
Qed.

Lemma LC_slope a b : (a < total h)%N -> (b < total h)%N ->
  cderiv (fun t => oent (LC_hamil (h_at h i t)) a b) (h_ng h i)
    (- charge_unit%:C * \sum_(j < hn h) (t_cI (h_st h) i j)%:C * ent (opQ h j) a b).
Proof.
move=> ha hb.
pose rest := \sum_(k < hn h | ~~ hcharge h k) ((t_om (h_st h) k)%:C * ent (opN h k) a b
     - (halfR (t_cI (h_st h) k k))%:C * prodQ h a b k k).
apply: (cd_ext (f := fun t => half_sum (hn h) (t_cI (h_st h)) (prodQ (h_at h i t) a b) + rest)) => [t|].
  rewrite (@LC_entry (h_at h i t)) //; congr (_ + _); apply: eq_bigr => k ck; congr (_ - _ * _).
- by rewrite !opNE.
- by rewrite /prodQ !opQ_other //; apply: contra ck => /eqP ->.
rewrite -d_half_sum -[X in cderiv _ _ X]addr0; apply: cd_add (cd_const rest _); rewrite /half_sum.
by apply: cd_sum_ord => k; apply: cd_sum => l _ _; apply: cd_scale; apply: prodQ_slope.
Qed.

Lemma coef_at t e : coupling_coef (h_at h i t) Inductive_ e = coupling_coef h Inductive_ e.
Proof. by []. Qed.
Lemma flux_at t e : coupling_op (h_at h i t) (Some Inductive_) e = coupling_op h (Some Inductive_) e.
Proof.
rewrite /coupling_op (coef_at t e); case: coupling_coef => // k.
have E : mode_op (h_at h i t) Inductive_ = mode_op h Inductive_.
  by apply: functional_extensionality => j; rewrite /mode_op /= !opPhiE.
by rewrite E.
Qed.

Lemma LC_self a b : (a < total h)%N -> (b < total h)%N ->
  oent (LC_hamil (h_at h i (h_ng h i))) a b = oent (LC_hamil h) a b.
Proof.
move=> ha hb; have -> : h_at h i (h_ng h i) = h; last by [].
rewrite /h_at; case: (h) => st m ng Cm /=; congr (mkH _ _ _ _).
by apply: functional_extensionality => k; case: eqP => [->|].
Qed.
End Ng.

(** ** The session *)
Section Session.
Variable disp : nat -> C -> op.

Lemma hof_offset x i m t : island_of m x = Some i -> hof (set_offset m t x).1 = h_at (hof x) i t.
Proof.
move=> Ei; have Hi := island_ofP Ei; rewrite /set_offset Ei /=.
have E : hof (island_set x i (fun p => (t, p.2))) = h_at (hof x) i t.
  rewrite /hof /h_at /=; congr (mkH _ _ _ _); apply: functional_extensionality => k.
  by rewrite /ng_of isl_set; case: eqP => // _; case: isl Hi.
by case: ifP => _; [|case: mem_err => [e|]].
Qed.
Lemma offset_keeps m t x : let y := (set_offset m t x).1 in x_c y = x_c x /\ x_B y = x_B x.
Proof.
by rewrite /set_offset; case: island_of => [i|] //=; case: ifP => _; [|case: mem_err => [e|]].
Qed.

Lemma hamil_at s x i m t : good disp x -> island_of m x = Some i -> (exists H, (hamil s x).2 = Ok H) ->
  exists H, (hamil s (set_offset m t x).1).2 = Ok H.
Proof.
move=> G Ei [H]; have [-> _] := hamilE s G; have [-> _] := hamilE s (good_set_offset m t G).
rewrite /ham_of (hof_offset t Ei); have [-> ->] := offset_keeps m t x.
rewrite /hamiltonian; cbn [h_at h_m hof]; case: ifP => // _; rewrite -/(hof x) -/(h_at (hof x) i t).
have -> : ind_hamil disp (h_at (hof x) i t) = ind_hamil disp (hof x).
  do 4![apply: functional_extensionality => ?]; rewrite /ind_hamil.
  have E : ind_term (h_at (hof x) i t) = ind_term (hof x).
    do 4![apply: functional_extensionality => ?]; apply: functional_extensionality => -[[e el] bb].
    by rewrite /ind_term flux_at.
  by rewrite E.
case: ind_hamil => // A.
have same : isSome (LC_hamil (hof x)) -> isSome (LC_hamil (h_at (hof x) i t)).
  case: (posnP (hn (hof x))) => [n0|n0 _]; last exact: (LC_some (h := h_at (hof x) i t)).
  by rewrite /LC_hamil n0.
move: same; case: A => [A|]; case: (LC_hamil (hof x)) => [B|] //= same _.
- by case: LC_hamil => [D|]; eexists.
- by case: LC_hamil => [D|]; eexists.
by move: (same isT); case: LC_hamil => // D _; eexists.
Qed.

Lemma ng_slope s x i m a b : good disp x -> cI_sym (x_st x) -> island_of m x = Some i ->
  (i < x_n x)%N -> is_charge (x_st x) i ->
  (exists H, (hamil s x).2 = Ok H) -> (a < total (hof x))%N -> (b < total (hof x))%N ->
  cderiv (fun t => res_entry (hamil s (set_offset m t x).1).2 a b) (ng_of x i)
    (- charge_unit%:C * \sum_(j < x_n x) (t_cI (x_st x) i j)%:C * ent (opQ (hof x) j) a b).
Proof.
move=> G Sy Ei hi ch HH ha hb.
have D := @LC_slope (hof x) i hi ch Sy a b ha hb.
pose rest := \sum_(k <- c_keys_ind (x_c x))
      (ind_coef (evalue s k.1.2) (ext_flux (loop_vals s x) (x_B x) k.2))%:C * cpl (hof x) k.1.1 a b
  - \sum_(k <- c_keys_jj (x_c x))
      (evalue s k.1.1.2)%:C * jjent disp (hof x) (ext_flux (loop_vals s x) (x_B x) k.1.2) k.2 a b.
apply: (cd_ext (f := fun t => oent (LC_hamil (h_at (hof x) i t)) a b + rest)) => [t|].
  have [H EH] := hamil_at t G Ei HH; rewrite EH /=; move: EH.
  have [-> _] := hamilE s (good_set_offset m t G); rewrite /ham_of (hof_offset t Ei).
  have [-> ->] := offset_keeps m t x; move=> /hamiltonian_entry ->.
  rewrite /rest addrA; cbn [k_ind k_jj]; congr (_ + _ - _); apply: eq_bigr => k _.
  by rewrite /cpl flux_at.
by rewrite -[X in cderiv _ _ X]addr0; apply: cd_add D (cd_const _ _).
Qed.

(** The operator of the code. *)
Lemma ng_op x i : fresh_ops disp x -> is_charge (x_st x) i ->
  exists2 P, partial_H_ng x i = Ok P & forall a b,
    oent P a b = \sum_(j < x_n x) (ng_coef (t_cI (x_st x) i j))%:C * ent (opQ (hof x) j) a b.
Proof.
move=> F ch; rewrite /partial_H_ng ch /=; set f := (X in racc X).
have [|A -> HA] := @racc_sum nat f (fun j => oscale (ng_coef (t_cI (x_st x) i j))%:C (opQ (hof x) j))
   (iota 0 (x_n x)) None.
  move=> j hj; have {}hj : (j < x_n x)%N by have /inP := hj; rewrite mem_iota.
  by rewrite /f (fo_Q F) -map_comp (nth_map 0%N) ?size_iota // nth_iota.
exists A => // a b; rewrite HA /= add0r sum_iota; apply: eq_bigr => j _ //.
Qed.
End Session.
