(** DecProofs2.v -- decoherence rates: exchange of the states, sums of directed
    rates, signs, and the values of the rates. *)
From Coq Require Import Reals ZArith Lra.
From Verif.Model Require Import Base Units Noise Edge Elements LCWB HamConst PartialConst Thermal RateConst.
From Verif.Spec Require Import ThermalSpec.
From Verif.Proofs Require Import ThermalProofs.
From mathcomp Require Import all_ssreflect all_algebra.
From mathcomp Require Import complex.
From Verif.Numerics Require Import RStruct Bridge.
From Verif.Model Require Import Transform Op Ham Diag CircuitSM Partial DecRate.
From Verif.Spec Require Import OpSpec DecSpec.
From Verif.Proofs Require Import DecProofs.

Set Implicit Arguments.
Unset Strict Implicit.
Unset Printing Implicit Defensive.
Import GRing.Theory.
Local Open Scope ring_scope.
Local Open Scope complex_scope.

Lemma py_nth_err (T : Type) (x0 : T) l z e : py_nth x0 l z = Err e -> e = IndexError.
Proof. by rewrite /py_nth /np_row; case: py_index => // -[]. Qed.

Lemma abs_diff_sym a b : abs_diff a b = abs_diff b a.
Proof. exact: Rabs_minus_sym. Qed.

Lemma In_pmap (T U : Type) (f : T -> option U) l y : List.In y (pmap f l) -> exists2 i, List.In i l & f i = Some y.
Proof.
elim: l => //= i l IH; case E: (f i) => [u|] /=; last by move/IH => [j hj Ej]; exists j => //; right.
by case=> [<-|/IH [j hj Ej]]; [exists i => //; left | exists j => //; right].
Qed.

Lemma matrix_swap x e m n : herm_mem (x_mem x) ->
  matrix_elements x (Some Capacitive) e n m =
  match matrix_elements x (Some Capacitive) e m n with Ok z => Ok z^* | Err z => Err z end.
Proof.
move=> HM; rewrite /matrix_elements; case: ifP => // _.
case Em: (evec x m) => [v|z]; cbn [bind]; last first.
  case En: (evec x n) => [w|z']; cbn [bind]; first by [].
  by rewrite (py_nth_err Em) (py_nth_err En).
case En: (evec x n) => [w|z']; cbn [bind]; last by [].
case Ec: coupling_cap => [A|z]; cbn [bind]; last by [].
by rewrite (inner_swap v w (coupling_cap_herm HM Ec)).
Qed.

Lemma cap_swap s q x tS omega m n k : herm_mem (x_mem x) ->
  cap_term s q x tS omega m n k = cap_term s q x tS omega n m k.
Proof.
move=> HM; rewrite /cap_term (@matrix_swap x k.1 m n) //; case: q_cap => // Q.
by case: matrix_elements => [z|e] //; cbn [bind]; rewrite abs2_conj.
Qed.

Lemma ind_mem_herm x k : herm_mem (x_mem x) -> List.In k (ind_mem x) -> herm k.2.
Proof.
case=> _ H _ Hk; have [[[e el] b] _] := In_pmap Hk; case E: M_ind => [A|] //= [<-]; exact: H E.
Qed.
Lemma half_mem_herm x k : herm_mem (x_mem x) -> List.In k (half_mem x) -> herm k.2.
Proof.
case=> _ _ H Hk; have [[[[e el] b] u] _] := In_pmap Hk; case E: M_half => [A|] //= [<-]; exact: H E.
Qed.

Lemma omega_mn_swap s x c m n b : 
  partial_omega_mn s x c n m b =
  match partial_omega_mn s x c m n b with Ok p => Ok (- p) | Err z => Err z end.
Proof.
rewrite /partial_omega_mn.
case Em: (evec x m) => [v|z]; cbn [bind]; last first.
  case En: (evec x n) => [w|z']; cbn [bind]; first by [].
  by rewrite (py_nth_err Em) (py_nth_err En).
case En: (evec x n) => [w|z']; cbn [bind]; last by [].
case: partial_H => [[P|]|z]; cbn [bind inner0] => //.
by rewrite -opprB; case: (inner v P v - inner w P w).
Qed.

Lemma dephasing_opp E A p : dephasing E A (- p) = dephasing E A p.
Proof. by rewrite /dephasing; case: log_factor => // k; rewrite -(Rabs_Ropp (Rmult p A)) Ropp_mult_distr_l. Qed.

(** *** Exchanging the states *)
Lemma dec_symm E s q x dt m n : herm_mem (x_mem x) ->
  dec_rate E s q x dt m n true = dec_rate E s q x dt n m true.
Proof.
move=> HM; rewrite /dec_rate; case: ifP => // _.
case E1: (efreq x m) => [w1|z1]; case E2: (efreq x n) => [w2|z2]; cbn [bind];
  rewrite ?(py_nth_err E1) ?(py_nth_err E2) //.
case E3: (evec x m) => [v|z1]; case E4: (evec x n) => [w|z2]; cbn [bind];
  rewrite ?(py_nth_err E3) ?(py_nth_err E4) //.
rewrite (abs_diff_sym w2 w1); set om := abs_diff _ _.
rewrite (_ : omap (temp_factor true m n) _ = omap (temp_factor true n m) (thermal E om)) //.
set tS := omap _ _; case: dt => [[]|] //; apply: fold_rate => k Hk.
- exact: cap_swap.
- by rewrite /ind_rate (inner_swap w v (ind_mem_herm HM Hk)) abs2_conj.
- by rewrite /qp_rate (inner_swap w v (half_mem_herm HM Hk)) abs2_conj.
- rewrite /charge_rate; case: ifP => // _; case: partial_H_ng => [[P|]|z]; cbn [bind inner0] => //.
  by rewrite cabs_sub.
- rewrite /cc_rate (omega_mn_swap s x (CEl k.1) m n (Some k.2)); case: partial_omega_mn => [p|z] //.
  by cbn [bind]; rewrite dephasing_opp.
- rewrite /flux_rate (omega_mn_swap s x (CLoop k) m n None); case: partial_omega_mn => [p|z] //.
  by cbn [bind]; rewrite dephasing_opp.
Qed.

(** *** Sum of the directed rates *)
Definition zero_or_bad (r : res (option R)) : Prop :=
  match r with Ok (Some y) => y = 0 | _ => True end.
Lemma fold_zero K (f : K -> res (option R)) l : (forall k, zero_or_bad (f k)) ->
  forall a, zero_or_bad a -> zero_or_bad (foldl (rate_add f) a l).
Proof.
move=> H; elim: l => //= k l IH a Ha; apply: IH; move: (H k) Ha; rewrite /rate_add.
by case: a (f k) => [[y|]|e] [[z|]|e'] //= -> ->; rewrite addr0.
Qed.

Lemma dec_none E s q x dt m n w1 w2 : thermal_type dt -> size (e_freqs (x_eig x)) <> 0%N ->
  efreq x m = Ok w1 -> efreq x n = Ok w2 -> thermal E (abs_diff w2 w1) = None -> forall total total',
  dec_rate E s q x dt m n total = dec_rate E s q x dt m n total' /\
  zero_or_bad (dec_rate E s q x dt m n total).
Proof.
move=> Ht /eqP/negbTE Hs E1 E2 Eth t t'; rewrite /dec_rate Hs E1 E2; cbn [bind].
case: (evec x m) => [v|e] //; cbn [bind]; case: (evec x n) => [w|e] //; cbn [bind]; rewrite Eth; split=> //.
cbn [omap obind oapp]; case: dt Ht => [[]|] // _; apply: fold_zero => //= k.
- by rewrite /cap_term; case: q_cap => // Q; case: matrix_elements.
- by rewrite /ind_rate; case: q_ind.
- by rewrite /qp_rate; case: q_jj.
Qed.

Lemma unit_swap E s q x dt m n : thermal_type dt -> herm_mem (x_mem x) ->
  unit_rate E s q x dt m n = unit_rate E s q x dt n m.
Proof.
move=> Ht HM; rewrite /unit_rate.
case E1: (efreq x m) => [w1|z1]; case E2: (efreq x n) => [w2|z2]; cbn [bind];
  rewrite ?(py_nth_err E1) ?(py_nth_err E2) //.
case E3: (evec x m) => [v|z1]; case E4: (evec x n) => [w|z2]; cbn [bind];
  rewrite ?(py_nth_err E3) ?(py_nth_err E4) //.
rewrite (abs_diff_sym w2 w1); set om := abs_diff _ _.
case: dt Ht => [[]|] // _; apply: fold_rate => k Hk.
- exact: cap_swap.
- by rewrite /ind_rate (inner_swap w v (ind_mem_herm HM Hk)) abs2_conj.
- by rewrite /qp_rate (inner_swap w v (half_mem_herm HM Hk)) abs2_conj.
Qed.

Lemma dec_sum E s q x dt m n : thermal_type dt -> herm_mem (x_mem x) -> m <> n ->
  dec_rate E s q x dt m n true =
  both_rates (dec_rate E s q x dt m n false) (dec_rate E s q x dt n m false).
Proof.
move=> Ht HM Hmn.
case Hs: (size (e_freqs (x_eig x)) == 0%N); first by rewrite /dec_rate Hs.
have Hs' : size (e_freqs (x_eig x)) <> 0%N by apply/eqP; rewrite Hs.
case E1: (efreq x m) => [w1|z1]; last first.
  by rewrite /dec_rate Hs E1; case: (efreq x n) => [w2|z2]; cbn [bind].
case E2: (efreq x n) => [w2|z2]; last first.
  by rewrite /dec_rate Hs E1 E2; cbn [bind].
case Eth: (thermal E (abs_diff w2 w1)) => [du|]; last first.
  have [H1 H2] := dec_none s q Ht Hs' E1 E2 Eth true false.
  rewrite (abs_diff_sym w2 w1) in Eth; have [H3 _] := dec_none s q Ht Hs' E2 E1 Eth false true.
  rewrite H3 -H1 -(dec_symm E s q dt m n HM); move: H2.
  by case: dec_rate => [[y|]|e] //= ->; rewrite addr0.
rewrite !(dec_unit s q _ Ht Hs' E1 E2 Eth); rewrite (abs_diff_sym w2 w1) in Eth.
rewrite !(dec_unit s q _ Ht Hs' E2 E1 Eth) -(unit_swap E s q m n Ht HM).
case: unit_rate => [[y|]|e] //=; rewrite -mulrDl; do 3 congr (_ _); congr (_ * _); rewrite /temp_factor.
case: du {Eth} => d u /=; case: (Z.ltb_spec n m) => H1; case: (Z.ltb_spec m n) => H2 //; try by [].
- by have := Z.lt_asymm _ _ H1 H2.
- by rewrite -RplusE Rplus_comm.
- by case: Hmn; apply: Z.le_antisymm.
Qed.

(** *** Signs *)
Definition rate_ge0 (r : res (option R)) : Prop :=
  match r with Ok (Some y) => Rle 0 y | _ => True end.
Lemma fold_ge0 K (f : K -> res (option R)) l : (forall k, rate_ge0 (f k)) ->
  forall a, rate_ge0 a -> rate_ge0 (foldl (rate_add f) a l).
Proof.
move=> H; elim: l => //= k l IH a Ha; apply: IH; move: (H k) Ha; rewrite /rate_add.
by case: a (f k) => [[y|]|e] [[z|]|e'] //= Hz Hy; apply: Rplus_le_le_0_compat.
Qed.

Lemma thermal_ge0 E omega d u : Rlt 0 (Noise.T E) -> Rle 0 omega -> thermal E omega = Some (d, u) ->
  Rle 0 d /\ Rle 0 u.
Proof.
move=> HT Ho; case: (Req_dec omega R0) => [->|No].
  rewrite /thermal; case: Req_EM_T => [e|_]; first by rewrite e in HT; case: (Rlt_irrefl R0).
  cbv zeta; rewrite ratioE (proj2 (@ratio_zero R0 (Noise.T E) _)) //; last by apply: Rgt_not_eq.
  case: Rlt_dec => [H|_]; first by exfalso; lra.
  by case: Req_EM_T.
have Hp : Rlt 0 omega by case: Ho => // e; case: No.
case: (Rle_or_lt (thermal_ratio omega (Noise.T E)) (IZR 709)) => H.
  rewrite (thermalE E omega _ H No); last exact: Rgt_not_eq.
  have K := occupation_pos _ _ Hp HT; case=> <- <-; rewrite /emission /absorption; split; lra.
rewrite (thermal_cold E omega H); last exact: Rgt_not_eq.
by case=> <- <-; split; lra.
Qed.

Lemma dephasing_ge0 E A p : rate_ge0 (Ok (dephasing E A p)).
Proof.
rewrite /dephasing /=; case El: log_factor => [k|] //; apply: Rmult_le_pos; first exact: Rabs_pos.
exact: (proj1 (log_factor_zero E k El)).
Qed.

Lemma fdiv_ge0 a b y : Rle 0 a -> Rlt 0 b -> fdiv a b = Some y -> Rle 0 y.
Proof.
move=> Ha Hb; rewrite /fdiv; case: ifP => // /eqP Nb [<-]; rewrite -RinvE.
by apply: Rmult_le_pos => //; apply: Rlt_le; apply: Rinv_0_lt_compat.
Qed.

Lemma dec_ge0 E s q x dt m n total r : positive s q -> Rlt 0 (Noise.T E) ->
  dec_rate E s q x dt m n total = Ok (Some r) -> Rle 0 r.
Proof.
move=> Hp HT Hr; suff : rate_ge0 (dec_rate E s q x dt m n total) by rewrite Hr.
rewrite /dec_rate; case: ifP => // _.
case: (efreq x m) => [w1|z1]; case: (efreq x n) => [w2|z2] //; cbn [bind].
case: (evec x m) => [v|z1]; case: (evec x n) => [w|z2] //; cbn [bind].
set om := abs_diff w2 w1; have Hom : Rle 0 om by exact: Rabs_pos.
have Ht : forall t, omap (temp_factor total m n) (thermal E om) = Some t -> Rle 0 t.
  move=> t; case Eth: thermal => [[d u]|] //= [<-].
  have [Hd Hu] := thermal_ge0 HT Hom Eth; rewrite /temp_factor /=.
  by case: (total); [exact: Rplus_le_le_0_compat | case: ifP].
move: (omap _ _) Ht => tS Ht; have H0 : rate_ge0 (Ok (Some 0)) by exact: Rle_refl.
case: dt {Hr} => [[]|] //; (apply: fold_ge0; last exact: H0) => k.
- rewrite /cap_term; case Eq: q_cap => [Q|] //; case: matrix_elements => [z|e] //; cbn [bind].
  case: tS Ht => [t|] // /(_ t erefl) Ht /=; case Ef: fdiv => [y|] //=; apply: Rmult_le_pos; last exact: abs2_ge0.
  apply: fdiv_ge0 Ef; last exact: (pos_qcap Hp om Eq).
  by apply: Rmult_le_pos => //; apply: Rlt_le; exact: (pos_val Hp _).
- rewrite /ind_rate; case Eq: q_ind => [Q|] //.
  case: tS Ht => [t|] // /(_ t erefl) Ht /=; case Ef: fdiv => [y|] //=; case Eg: fdiv => [y'|] //=.
  apply: Rmult_le_pos; last exact: abs2_ge0.
  apply: fdiv_ge0 Eg; last exact: (pos_val Hp _).
  apply: fdiv_ge0 Ef => //; exact: (pos_qind Hp Eq).
- rewrite /qp_rate; case Eq: q_jj => [Y|] //.
  case: tS Ht => [t|] // /(_ t erefl) Ht /=; apply: Rmult_le_pos; last exact: abs2_ge0.
  rewrite /qp_factor; have HY := pos_y Hp Eq; have Hv := Rlt_le _ _ (pos_val Hp k.1).
  have Hh := Rlt_le _ _ hbar_pos; by do 4 (apply: Rmult_le_pos => //).
- rewrite /charge_rate; case: ifP => // _; case: partial_H_ng => [[P|]|z]; cbn [bind inner0] => //.
  by case: isl => // p; apply: dephasing_ge0.
- by rewrite /cc_rate; case: partial_omega_mn => [p|z] //; cbn [bind]; apply: dephasing_ge0.
- by rewrite /flux_rate; case: partial_omega_mn => [p|z] //; cbn [bind]; apply: dephasing_ge0.
Qed.
