(** P_Ops.v -- C27, C33, C34, C35, C36, C51, C63: operators and the Hamiltonian. *)
From Coq Require Import Reals ZArith Lra Lia String.
From Verif.Model Require Import Base Units Edge Accuracy HamConst.
From Verif.Proofs Require Import HamConstProofs.
From mathcomp Require Import all_ssreflect all_algebra.
From mathcomp Require Import complex ring.
From Verif.Numerics Require Import RStruct Bridge.
From Verif.Model Require Import Op FluxDist Transform Ham.
From Verif.Spec Require Import OpSpec TransSpec.
From Verif.Proofs Require Import TransProofs TransProofs6 OpProofs HamProofs HamProofs2 HamProofs3.
From Verif.Proofs Require Import HamProofs4 HamProofs5 HamProofs6 RemovalCase.

Set Implicit Arguments.
Unset Strict Implicit.
Unset Printing Implicit Defensive.
Import GRing.Theory.
Local Open Scope ring_scope.
Local Open Scope complex_scope.

(** A circuit of a harmonic mode with two states and a charge mode with three. *)
Definition case_tst : tst := mkT 2 2 1 1 (fun _ _ => 1) eye eye eye
  (fun i j => if (i == 0%N) && (j == 0%N) then 1 else 0) (fun _ _ => 1)
  (fun i => if i == 0%N then 1 else 0).
Definition case_h : hin := mkH case_tst [:: 2; 3]%N (fun=> 0) eye.
Lemma case_harm : ~~ hcharge case_h 0%N. Proof. by rewrite /hcharge /is_charge /= oner_eq0. Qed.
Lemma case_chg : hcharge case_h 1%N. Proof. by rewrite /hcharge /is_charge /= eqxx. Qed.
Lemma case_posn i j : posn (hm case_h) (fun k => if k == 0%N then i else j) 2 = (i * 3 + j)%N.
Proof. by rewrite /= mul0n add0n. Qed.

(** ** C33 *)
(** Entry by entry: the stored charge operator of mode i acts on mode i only, as
    (2e/sqrt hbar)(n - n_g) on a charge mode and as -i sqrt(1/2Z) (a - a+) on a
    harmonic mode of at least two states. *)
Theorem C33_charge h i : (i < hn h)%N ->
  acts_on (hn h) (hm h) i (fun k l =>
    if hcharge h i then (if k == l then (charge_unit * (charge_at (hm h i) k - h_ng h i))%:C else 0)
    else if hm h i == 1%N then 0
    else - 'i * (q_zp (himp h i))%:C *
         ((if l == k.+1 then (sqrt (INR l))%:C else 0) - (if k == l.+1 then (sqrt (INR k))%:C else 0)))
    (opQ h i).
Proof.
move=> hi; rewrite opQE; have [d H] := one_acts hi (dimQ h); split=> // x y Lx Ly.
rewrite H //; case: ifP => // _; rewrite /charge_op_isolated; case: ifP => _.
  change (charge_unit%:C * ((if x i == y i then (charge_at (hm h i) (x i))%:C else 0)
     - (h_ng h i)%:C * (if x i == y i then 1 else 0)) =
     if x i == y i then (charge_unit * (charge_at (hm h i) (x i) - h_ng h i))%:C else 0).
  by case: eqP => _; rewrite ?mulr1 ?cRM ?cRB // mulr0 subr0 mulr0.
case: ifP => // _.
change (- 'i * (q_zp (himp h i))%:C * ((if y i == (x i).+1 then (sqrt (INR (y i)))%:C else 0)
  - (if x i == (y i).+1 then (sqrt (INR (x i)))%:C else 0)^*) =
  - 'i * (q_zp (himp h i))%:C * ((if y i == (x i).+1 then (sqrt (INR (y i)))%:C else 0)
  - (if x i == (y i).+1 then (sqrt (INR (x i)))%:C else 0))).
by congr (_ * (_ - _)); case: eqP => _; rewrite ?cj0 ?cjR.
Qed.
Print Assumptions C33_charge.

(** The flux operator: the identity on a charge mode, sqrt(Z/2) (a + a+) else. *)
Theorem C33_flux h i : (i < hn h)%N ->
  acts_on (hn h) (hm h) i (fun k l =>
    if hcharge h i then (if k == l then 1 else 0)
    else if hm h i == 1%N then 0
    else (f_zp (himp h i))%:C *
         ((if l == k.+1 then (sqrt (INR l))%:C else 0) + (if k == l.+1 then (sqrt (INR k))%:C else 0)))
    (opPhi h i).
Proof.
move=> hi; rewrite opPhiE; have [d H] := one_acts hi (dimF h); split=> // x y Lx Ly.
rewrite H //; case: ifP => // _; rewrite /flux_op_isolated; case: ifP => _ //.
case: ifP => // _.
change ((f_zp (himp h i))%:C * ((if y i == (x i).+1 then (sqrt (INR (y i)))%:C else 0)
  + (if x i == (y i).+1 then (sqrt (INR (x i)))%:C else 0)^*) =
  (f_zp (himp h i))%:C * ((if y i == (x i).+1 then (sqrt (INR (y i)))%:C else 0)
  + (if x i == (y i).+1 then (sqrt (INR (x i)))%:C else 0))).
by congr (_ * (_ + _)); case: eqP => _; rewrite ?cj0 ?cjR.
Qed.
Print Assumptions C33_flux.

(** The number operator: the charge on a charge mode, 0, 1, 2, ... else. *)
Theorem C33_number h i : (i < hn h)%N ->
  acts_on (hn h) (hm h) i (fun k l =>
    if k == l then (if hcharge h i then (charge_at (hm h i) k)%:C else (INR k)%:C) else 0)
    (opN h i).
Proof.
move=> hi; rewrite opNE; have [d H] := one_acts hi (dimN h); split=> // x y Lx Ly.
by rewrite H //; case: ifP => // _; rewrite /num_op_isolated; case: (hcharge h i).
Qed.
Print Assumptions C33_number.

(** Charges of a mode with 2N+1 states are -N, ..., N. *)
Theorem C33_charge_range N k : (k < 2 * N + 1)%N ->
  charge_at (2 * N + 1)%N k = IZR (Z.of_nat k - Z.of_nat N).
Proof. by move=> hk; apply: charge_range; apply/ssrnat.ltP. Qed.
Print Assumptions C33_charge_range.

Theorem C33_products h i j : (i <= j)%N -> (j < hn h)%N ->
  eqop (opQQ h i (j - i)) (omul (opQ h i) (opQ h j)).
Proof. exact: opQQ_mul. Qed.
Print Assumptions C33_products.

Theorem C33_commute h i j : i <> j ->
  [/\ commute (opQ h i) (opQ h j), commute (opPhi h i) (opPhi h j), commute (opN h i) (opN h j) &
      commute (opQ h i) (opPhi h j)].
Proof.
move=> /eqP ne; split; [exact: opQ_commute|exact: opPhi_commute| |].
  by rewrite !opNE; apply: fam_commute => // k; rewrite dimN.
by rewrite opQE opPhiE; apply: fam_commute => // k; rewrite ?dimQ ?dimF.
Qed.
Print Assumptions C33_commute.

Theorem C33_hermitian h i : [/\ herm (opQ h i), herm (opPhi h i), herm (opN h i) &
  forall j, (i + j < hn h)%N -> herm (opQQ h i j)].
Proof.
split; [exact: (mode_op_ok h Capacitive i).2|exact: (mode_op_ok h Inductive_ i).2|exact: (N_ok h i).2|].
by move=> j hj; exact: (QQ_ok hj).2.
Qed.
Print Assumptions C33_hermitian.

(** The charge of the second mode in state (1, 2): 2e/sqrt hbar; the flux of the
    first mode from (1, 2) to (0, 2). *)
Example C33_case : ent (opQ case_h 1%N) 5%N 5%N = (charge_unit * (charge_at 3%N 2%N - 0))%:C /\
  ent (opPhi case_h 0%N) 2%N 5%N = (f_zp (himp case_h 0%N))%:C * ((sqrt (INR 1))%:C + 0) /\
  ent (opPhi case_h 0%N) 1%N 5%N = 0.
Proof.
pose d i j := fun k : nat => if k == 0%N then i else j : nat.
have L i j : (i < 2)%N -> (j < 3)%N -> legal (hm case_h) (d i j) (hn case_h) by move=> hi hj [|[|k]].
have [_ HQ] := C33_charge (isT : (1 < hn case_h)%N); have [_ HF] := C33_flux (isT : (0 < hn case_h)%N).
have := HQ _ _ (L 1%N 2%N isT isT) (L 1%N 2%N isT isT).
have := HF _ _ (L 0%N 2%N isT isT) (L 1%N 2%N isT isT).
have := HF _ _ (L 0%N 1%N isT isT) (L 1%N 2%N isT isT).
rewrite [hn case_h]/= !case_posn => E1 E2 E3; split; last split.
- rewrite E3 case_chg ifT //; by apply/forallP => -[[|[|k]] hk].
- rewrite E2 (negbTE case_harm) ifT //; by apply/forallP => -[[|[|k]] hk].
- rewrite E1 ifF //; apply/negbTE/forallP => /(_ (Ordinal (isT : (1 < 2)%N))) //.
Qed.

(** ** C34 *)
Theorem C34_shift m (w : R) : w = -1 \/ w = 0 \/ w = 1 ->
  let D := d_op_isolated m w in let n := qcharge m in
  eqop (omul n D) (omul D (oadd n (oscale w%:C (oeye m)))).
Proof.
move=> Hw D n; split=> [|i j hi hj]; first by rewrite /= d_dim.
rewrite [in LHS]diagl // shift_entry //.
have -> : ent (omul D (oadd n (oscale w%:C (oeye m)))) i j =
          ent (omul D (odiag m (fun k => (charge_at m k)%:C + w%:C))) i j.
  cbn [omul ent dim]; apply: eq_bigr => k _; congr (_ * _).
  change ((if (k : nat) == j then (charge_at m k)%:C else 0) + w%:C * (if (k : nat) == j then 1 else 0) =
          if (k : nat) == j then (charge_at m k)%:C + w%:C else 0).
  by case: eqP => _; rewrite ?mulr1 // mulr0 addr0.
by rewrite diagr // d_dim.
Qed.
Print Assumptions C34_shift.

Theorem C34_adjoint m w : eqop (d_op_isolated m (- w)) (oadj (d_op_isolated m w)).
Proof. exact: d_adj. Qed.
Print Assumptions C34_adjoint.

(** Unitary except on the state that would leave the truncation. *)
Theorem C34_unitary m w : let D := d_op_isolated m w in
  eqop (omul (oadj D) D)
    (odiag m (fun k => if Rlt_dec w 0 then (if k == 0%N then 0 else 1)
                       else if Rlt_dec 0 w then (if k.+1 == m then 0 else 1) else 1)).
Proof. exact: d_isometry. Qed.
Print Assumptions C34_unitary.

(** Inside the junction operator of the whole circuit. *)
Theorem C34_junction disp h i j a b : (forall m a, dim (disp m a) = m) -> (j < hn h)%N -> hcharge h j ->
  t_wT (h_st h) i j = -1 \/ t_wT (h_st h) i j = 0 \/ t_wT (h_st h) i j = 1 ->
  (a < total h)%N -> (b < total h)%N ->
  ent (omul (opN h j) (opExp disp h i)) a b =
  ent (omul (opExp disp h i) (opN h j)) a b + (t_wT (h_st h) i j)%:C * ent (opExp disp h i) a b.
Proof. exact: shift_full. Qed.
Print Assumptions C34_junction.

(** Only the sign of w is used: the relation fails for every other w. *)
Theorem C34_large_refuted m (w : R) : (1 < m)%N -> w <> -1 -> w <> 0 -> w <> 1 ->
  let D := d_op_isolated m w in let n := qcharge m in
  ~ eqop (omul n D) (omul D (oadd n (oscale w%:C (oeye m)))).
Proof.
move=> m1 wm w0 wp D n [_ H].
have rel i j : (i < m)%N -> (j < m)%N -> (charge_at m i)%:C * ent D i j = ent D i j * ((charge_at m j)%:C + w%:C).
  move=> hi hj; have := H i j hi hj; rewrite [in LHS]diagl // => ->.
  have -> : ent (omul D (oadd n (oscale w%:C (oeye m)))) i j =
          ent (omul D (odiag m (fun k => (charge_at m k)%:C + w%:C))) i j.
    cbn [omul ent dim]; apply: eq_bigr => k _; congr (_ * _).
    change ((if (k : nat) == j then (charge_at m k)%:C else 0) + w%:C * (if (k : nat) == j then 1 else 0) =
            if (k : nat) == j then (charge_at m k)%:C + w%:C else 0).
    by case: eqP => _; rewrite ?mulr1 // mulr0 addr0.
  by rewrite diagr // d_dim.
have m0 := ltnW m1; move: (rel 0%N 1%N m0 m1) (rel 1%N 0%N m1 m0).
rewrite /D !d_entry; case: Rlt_dec => h1; cbn [is_left].
  rewrite /= mulr1 mul1r chargeS -addrA => E _; case: wm.
  have : (1 : C) + w%:C = 0 by apply: (addrI (charge_at m 0)%:C); rewrite addr0 -E.
  rewrite -cR1 -cRD => /(congr1 (@complex.Re R)) /= E'.
  by apply/eqP; rewrite -addr_eq0 addrC; apply/eqP.
case: Rlt_dec => h2; cbn [is_left].
  rewrite /= mulr1 mul1r chargeS => _ /addrI; rewrite -cR1 => /(congr1 (@complex.Re R)) /= E.
  by case: wp.
by case: w0; apply: Rle_antisym; apply: Rnot_lt_le.
Qed.
Print Assumptions C34_large_refuted.

Example C34_case : ent (d_op_isolated 3 1) 1%N 0%N = 1 /\ ent (d_op_isolated 3 (-1)) 0%N 1%N = 1 /\
  ent (d_op_isolated 3 1) 0%N 1%N = 0.
Proof.
have n1 : ~ Rlt 1 0 by apply: Rle_not_lt; exact: Rle_0_1.
have m1 : Rlt (- R1) 0 by apply: Ropp_lt_gt_0_contravar; exact: Rlt_0_1.
rewrite !d_entry; do ?[case: Rlt_dec => // ?; cbn [is_left]].
all: by move: Rlt_0_1.
Qed.

(** ** C35 *)
Theorem C35_hermitian disp h val loops B ks A : (forall m a, dim (disp m a) = m) ->
  hamiltonian disp h val loops B ks = Ok A ->
  dim A = (\prod_(k < hn h) hm h k)%N /\
  forall a b, (a < dim A)%N -> (b < dim A)%N -> ent A a b = (ent A b a)^*.
Proof. by move=> Hd /(hamiltonian_ok Hd) [d [_ H]]; split=> // a b ha hb; exact: H. Qed.
Print Assumptions C35_hermitian.

(** It exists for every circuit with at least one mode and truncation numbers. *)
Theorem C35_total disp h val loops B ks : h_m h <> [::] -> (0 < hn h)%N ->
  (forall k, List.In k (k_ind ks) -> let e := k.1.1 in
    (isnode e.1 (t_n0 (h_st h)) /\ (isnode e.2 (t_n0 (h_st h)) \/ e.2 = Z0)) \/
    (e.1 = Z0 /\ isnode e.2 (t_n0 (h_st h)))) ->
  exists A, hamiltonian disp h val loops B ks = Ok A.
Proof. exact: hamiltonian_total. Qed.
Print Assumptions C35_total.

Theorem C35_unset disp h val loops B ks : h_m h = [::] ->
  hamiltonian disp h val loops B ks = Err CircuitStateError.
Proof. by move=> E; rewrite /hamiltonian E. Qed.
Print Assumptions C35_unset.

(** Its terms: oscillators and charging energy, linear inductive flux bias, and
    -EJ cos(phi + phi_ext) with cos X = (e^{iX} + (e^{iX})+)/2. *)
Theorem C35_terms disp h val loops B ks A a b :
  hamiltonian disp h val loops B ks = Ok A ->
  ent A a b = oent (LC_hamil h) a b
    + \sum_(k <- k_ind ks) (ind_coef (val k.1.2) (\sum_(i < size loops) nth 0 loops i * B k.2 i))%:C * cpl h k.1.1 a b
    - \sum_(k <- k_jj ks) (val k.1.1.2)%:C *
        (2%:R^-1 * (expi (\sum_(i < size loops) nth 0 loops i * B k.1.2 i) * ent (opExp disp h k.2) a b
           + (expi (\sum_(i < size loops) nth 0 loops i * B k.1.2 i) * ent (opExp disp h k.2) b a)^*)).
Proof. exact: hamiltonian_entry. Qed.
Print Assumptions C35_terms.

Example C35_case disp val : (forall m a, dim (disp m a) = m) -> exists A,
  hamiltonian disp case_h val [:: PI] (fun _ _ => 1)
    (mkKeys [:: (Z0, Zpos xH, 0%N, 0%N)] [:: (Zpos xH, Zpos (xO xH), 1%N, 0%N, 0%N)]) = Ok A /\
  dim A = 6%N /\ herm A.
Proof.
move=> Hd; have m0 : h_m case_h <> [::] by [].
have [|A E] := @C35_total disp case_h val [:: PI] (fun _ _ => 1)
    (mkKeys [:: (Z0, Zpos xH, 0%N, 0%N)] [:: (Zpos xH, Zpos (xO xH), 1%N, 0%N, 0%N)]) m0 isT.
  by move=> k [<-|[]]; right; split=> //; split => /=; lia.
by exists A; split=> //; have [d H] := hamiltonian_ok Hd E; split=> //; rewrite d /total !big_ord_recr big_ord0.
Qed.

(** ** C36 *)
Theorem C36_quadratic_Q h A a b : (a < total h)%N -> (b < total h)%N ->
  (forall i j, (i < hn h)%N -> (j < hn h)%N -> A i j = A j i) ->
  2%:R * oent (quadratic_Q h A) a b =
  \sum_(i < hn h) \sum_(j < hn h) (A i j)%:C * ent (omul (opQ h i) (opQ h j)) a b.
Proof.
move=> ha hb S; rewrite quadratic_QE half_sum_QQ // half_sumE //.
by move=> i j _ _; apply: prodQ_sym.
Qed.
Print Assumptions C36_quadratic_Q.

Theorem C36_quadratic_phi h A a b : (a < total h)%N -> (b < total h)%N ->
  (forall i j, (i < hn h)%N -> (j < hn h)%N -> A i j = A j i) ->
  2%:R * oent (quadratic_phi h A) a b =
  \sum_(i < hn h) \sum_(j < hn h) (A i j)%:C * ent (omul (opPhi h i) (opPhi h j)) a b.
Proof.
move=> ha hb S; rewrite quadratic_phiE half_sumE // => i j _ _.
have [->//|ne] := eqVneq i j; have [_ H] := opPhi_commute h ne.
by apply: H; rewrite /= dim_opPhi.
Qed.
Print Assumptions C36_quadratic_phi.

(** The LC part is 1/2 sum_ij cI_ij Q_i Q_j + 1/2 sum_harmonic lT_ii phi_i^2 minus
    the zero-point energies; [top_defect m] is the identity except for 1 - m on
    the last state, the error of the truncated commutator. *)
Theorem C36_LC_energy h a b : (a < total h)%N -> (b < total h)%N ->
  (forall i j, (i < hn h)%N -> (j < hn h)%N -> t_cI (h_st h) i j = t_cI (h_st h) j i) ->
  (forall i, (i < hn h)%N -> ~~ hcharge h i ->
     [/\ Rlt 0 (t_cI (h_st h) i i), Rlt 0 (t_lT (h_st h) i i) &
         t_om (h_st h) i = sqrt (t_cI (h_st h) i i * t_lT (h_st h) i i)]) ->
  2%:R * oent (LC_hamil h) a b =
  \sum_(i < hn h) \sum_(j < hn h) (t_cI (h_st h) i j)%:C * ent (omul (opQ h i) (opQ h j)) a b +
  \sum_(i < hn h | ~~ hcharge h i) ((t_lT (h_st h) i i)%:C * ent (omul (opPhi h i) (opPhi h i)) a b
     - (t_om (h_st h) i)%:C * ent (emb h i (top_defect (hm h i))) a b).
Proof. exact: LC_energy. Qed.
Print Assumptions C36_LC_energy.

(** ** C51 *)
Theorem C51_total h ct e : toM (t_n0 (h_st h)) (t_n0 (h_st h)) (h_C h) \in unitmx -> (0 < hn h)%N ->
  isnode e.1 (t_n0 (h_st h)) -> isnode e.2 (t_n0 (h_st h)) ->
  exists A, coupling_op h (Some ct) e = Ok A /\ dim A = total h /\ herm A.
Proof.
case: e => a b u n0 Ha Hb; have [K EK] := mat_total ct u.
have [k [Ek _]] := coef_edge EK Ha Hb; have [A EA] := coupling_total Ek n0.
by exists A; split=> //; have [_ [_ _ d hA _]] := couplingP EA.
Qed.
Print Assumptions C51_total.

Theorem C51_kirchhoff h ct a b c A1 A2 A3 :
  let n := t_n0 (h_st h) in isnode a n -> isnode b n -> isnode c n ->
  coupling_op h (Some ct) (a, b) = Ok A1 -> coupling_op h (Some ct) (b, c) = Ok A2 ->
  coupling_op h (Some ct) (a, c) = Ok A3 ->
  forall x y, ent A1 x y + ent A2 x y = ent A3 x y.
Proof.
move=> n Ha Hb Hc E1 E2 E3 x y.
have [K EK] : exists K, coupling_mat h ct = Ok K.
  by move: E1; rewrite /coupling_op /coupling_coef; case: coupling_mat => // K _; exists K.
rewrite (coupling_edge EK Ha Hb E1) (coupling_edge EK Hb Hc E2) (coupling_edge EK Ha Hc E3) -mulrDr.
by rewrite addrA subrK.
Qed.
Print Assumptions C51_kirchhoff.

Theorem C51_swap h ct a b A1 A2 : let n := t_n0 (h_st h) in isnode a n -> isnode b n ->
  coupling_op h (Some ct) (a, b) = Ok A1 -> coupling_op h (Some ct) (b, a) = Ok A2 ->
  forall x y, ent A1 x y = - ent A2 x y.
Proof.
move=> n Ha Hb E1 E2 x y.
have [K EK] : exists K, coupling_mat h ct = Ok K.
  by move: E1; rewrite /coupling_op /coupling_coef; case: coupling_mat => // K _; exists K.
by rewrite (coupling_edge EK Ha Hb E1) (coupling_edge EK Hb Ha E2) -mulrN opprB.
Qed.
Print Assumptions C51_swap.

(** Ground edges, in either order: the row of the node in C^-1 R (capacitive) or
    S (inductive) applied to the mode operators. *)
Theorem C51_ground h ct a A : isnode a (t_n0 (h_st h)) ->
  coupling_op h (Some ct) (a, Z0) = Ok A \/ coupling_op h (Some ct) (Z0, a) = Ok A ->
  exists K, coupling_mat h ct = Ok K /\ forall x y, ent A x y =
    \sum_(i < hn h) (K (Z.to_nat (a - 1)) i)%:C *
      ent (if ct is Capacitive then opQ h i else opPhi h i) x y.
Proof.
move=> Ha E; have [K EK] : exists K, coupling_mat h ct = Ok K.
  by case: E; rewrite /coupling_op /coupling_coef; case: coupling_mat => // K _; exists K.
exists K; split=> // x y; rewrite (coupling_ground EK Ha E); apply: eq_bigr => i _.
by case: (ct).
Qed.
Print Assumptions C51_ground.

(** With ground the law holds in one direction of the two coupling types only. *)
Theorem C51_kirchhoff_ground h a b A1 A2 A3 : let n := t_n0 (h_st h) in isnode a n -> isnode b n ->
  (coupling_op h (Some Inductive_) (a, b) = Ok A1 -> coupling_op h (Some Inductive_) (b, Z0) = Ok A2 ->
   coupling_op h (Some Inductive_) (a, Z0) = Ok A3 -> forall x y, ent A1 x y + ent A2 x y = ent A3 x y) /\
  (coupling_op h (Some Capacitive) (Z0, a) = Ok A1 -> coupling_op h (Some Capacitive) (a, b) = Ok A2 ->
   coupling_op h (Some Capacitive) (Z0, b) = Ok A3 -> forall x y, ent A1 x y + ent A2 x y = ent A3 x y).
Proof.
move=> n Ha Hb; split=> E1 E2 E3 x y.
  have EK : coupling_mat h Inductive_ = Ok (t_S (h_st h)) by [].
  rewrite (coupling_edge EK Ha Hb E1) (coupling_ground EK Hb (or_introl E2)) (coupling_ground EK Ha (or_introl E3)).
  by rewrite cR1 mul1r subrK.
have [K EK] : exists K, coupling_mat h Capacitive = Ok K.
  by move: E1; rewrite /coupling_op /coupling_coef; case: coupling_mat => // K _; exists K.
rewrite (coupling_ground EK Ha (or_intror E1)) (coupling_edge EK Ha Hb E2) (coupling_ground EK Hb (or_intror E3)).
by rewrite cRN cR1 mulN1r opprB addrC subrK.
Qed.
Print Assumptions C51_kirchhoff_ground.
(** In the other direction the two sides differ by twice the edge operator. *)
Theorem C51_kirchhoff_ground_refuted h a b A1 A2 A3 : let n := t_n0 (h_st h) in isnode a n -> isnode b n ->
  (coupling_op h (Some Capacitive) (a, b) = Ok A1 -> coupling_op h (Some Capacitive) (b, Z0) = Ok A2 ->
   coupling_op h (Some Capacitive) (a, Z0) = Ok A3 ->
   forall x y, ent A1 x y + ent A2 x y = ent A3 x y + 2%:R * ent A1 x y) /\
  (coupling_op h (Some Inductive_) (Z0, a) = Ok A3 -> coupling_op h (Some Inductive_) (a, b) = Ok A1 ->
   coupling_op h (Some Inductive_) (Z0, b) = Ok A2 ->
   forall x y, ent A3 x y + ent A1 x y = ent A2 x y + 2%:R * ent A1 x y).
Proof.
move=> n Ha Hb; split=> E1 E2 E3 x y.
  have [K EK] : exists K, coupling_mat h Capacitive = Ok K.
    by move: E1; rewrite /coupling_op /coupling_coef; case: coupling_mat => // K _; exists K.
  rewrite (coupling_edge EK Ha Hb E1) (coupling_ground EK Hb (or_introl E2)) (coupling_ground EK Ha (or_introl E3)).
  rewrite cRN cR1 mulN1r opprB.
  by move: (node_ent _ _ _ a _ _) (node_ent _ _ _ b _ _) => u v; ring.
have EK : coupling_mat h Inductive_ = Ok (t_S (h_st h)) by [].
rewrite (coupling_edge EK Ha Hb E2) (coupling_ground EK Ha (or_intror E1)) (coupling_ground EK Hb (or_intror E3)).
rewrite cR1 mul1r.
by move: (node_ent _ _ _ a _ _) (node_ent _ _ _ b _ _) => u v; ring.
Qed.
Print Assumptions C51_kirchhoff_ground_refuted.

Theorem C51_errors h ct e : coupling_op h None e = Err ValueError /\
  (forall a K, coupling_mat h ct = Ok K -> Z.lt (Z.of_nat (t_n0 (h_st h))) a ->
    coupling_op h (Some ct) (a, Z0) = Err IndexError).
Proof.
split=> // a K EK Ha; rewrite /coupling_op /coupling_coef EK orbT /= Z.add_0_r /np_row /py_index.
have -> : Z.leb 0 (a - 1) = true by apply/Z.leb_le; lia.
by have -> : Z.ltb (a - 1) (Z.of_nat (t_n0 (h_st h))) = false by apply/Z.ltb_ge; lia.
Qed.
Print Assumptions C51_errors.

(** Node 1 of the example is the harmonic mode, node 2 the charge mode. *)
Example C51_case A x y : coupling_op case_h (Some Inductive_) (Zpos xH, Zpos (xO xH)) = Ok A ->
  ent A x y = ent (opPhi case_h 0%N) x y - ent (opPhi case_h 1%N) x y.
Proof.
have n1 : isnode (Zpos xH) (t_n0 (h_st case_h)) by split => /=; lia.
have n2 : isnode (Zpos (xO xH)) (t_n0 (h_st case_h)) by split => /=; lia.
move=> /(coupling_edge (erefl : coupling_mat case_h Inductive_ = Ok eye) n1 n2) ->.
rewrite cR1 mul1r /node_ent !big_ord_recr !big_ord0 /= /eye /=.
by rewrite !add0r !mul1r !mul0r add0r addr0.
Qed.

(** ** C27 *)
(** The coefficient of the mode in position i is the i-th column of the
    untouched matrix; read off a harmonic mode. *)
Theorem C27_columns h ct K a A i : coupling_mat h ct = Ok K -> isnode a (t_n0 (h_st h)) ->
  coupling_op h (Some ct) (a, Z0) = Ok A -> (i < hn h)%N -> (1 < hm h i)%N ->
  (forall k, (k < hn h)%N -> (0 < hm h k)%N) -> ~~ hcharge h i ->
  Rlt 0 (t_cI (h_st h) i i) -> Rlt 0 (t_lT (h_st h) i i) ->
  exists z, z != 0 /\ ent A (posn (hm h) (fun=> 0%N) (hn h)) (posn (hm h) (unit_digit i) (hn h)) =
    (K (Z.to_nat (a - 1)) i)%:C * z.
Proof.
move=> EK Ha EA hi m1 pos hc c0 l0; exists (ent (mode_iso h ct i) 0%N 1%N).
split; first exact: iso_amp.
by rewrite (coupling_read EA (proj1 (coef_ground EK Ha)) hi m1 pos).
Qed.
Print Assumptions C27_columns.

(** If the removed modes all come after the kept ones, every remaining mode has
    its own coefficient. *)
Theorem C27_prefix st h ct K a A : h_st h = remove_uncoupled st ->
  (forall j l, (l <= j)%N -> (j < t_n st)%N -> coupled st j -> coupled st l) ->
  coupling_mat h ct = Ok K -> isnode a (t_n0 st) -> coupling_op h (Some ct) (a, Z0) = Ok A ->
  exists idx, [/\ sorted ltn idx, (forall j, j \in idx <-> (j < t_n st)%N /\ coupled st j),
    t_n (h_st h) = size idx & forall x y, ent A x y =
    \sum_(i < hn h) (K (Z.to_nat (a - 1)) (nth 0%N idx i))%:C *
      ent (if ct is Capacitive then opQ h i else opPhi h i) x y].
Proof.
move=> Eh pre EK Ha EA; have [idx [Hs Hi En _]] := removal st.
exists idx; split=> //; first by rewrite Eh.
have Ha' : isnode a (t_n0 (h_st h)) by rewrite Eh.
move=> x y; rewrite (coupling_ground EK Ha' (or_introl EA)); apply: eq_bigr => i _.
suff -> : nth 0%N idx i = i by case: (ct).
have szi : (i < size idx)%N by rewrite -En -Eh; exact: ltn_ord.
have Eidx : idx = iota 0 (size idx); last by rewrite {1}Eidx nth_iota.
have down l j : (l <= j)%N -> j \in idx -> l \in idx.
  move=> lj /Hi [Hj Hc]; apply/Hi; split; [exact: leq_ltn_trans lj Hj|exact: pre lj Hj Hc].
clear -Hs down; have U := sorted_uniq ltn_trans ltnn Hs.
apply: (irr_sorted_eq ltn_trans ltnn Hs (iota_ltn_sorted 0 _)) => j; rewrite mem_iota add0n leq0n /=.
apply/idP/idP => [jin|jlt].
  have : {subset iota 0 j.+1 <= idx} by move=> l; rewrite mem_iota add0n ltnS => /andP[_ lj]; apply: down lj jin.
  by move/(uniq_leq_size (iota_uniq 0 j.+1)); rewrite size_iota.
apply/negPn/negP => jn.
have : {subset idx <= iota 0 j}.
  move=> l lin; rewrite mem_iota add0n leq0n /= ltnNge; apply/negP => jl.
  by move/negP: jn; apply; apply: down jl lin.
by move/(uniq_leq_size U); rewrite size_iota leqNgt jlt.
Qed.
Print Assumptions C27_prefix.

(** Otherwise not.  Two uncoupled oscillators of frequencies 2 and 1, the second
    with a junction: the first mode is removed, the second gets its coefficient,
    which is 0 at the second node.  Its flux operator vanishes although the
    mode's own coefficient does not, and an external flux through the inductor
    at that node drops out of the Hamiltonian. *)
Theorem C27_own_coefficients_refuted sv order tries fuel draw ng m : (1 < m)%N ->
  let rm_st := rm_st eye (dg rmL) rmW in
  t_init 2 1 0 eye (dg rmL) rmW = Ok rm_st /\
  root_of (toM 2 2 eye) (toM 2 2 eye) /\ root_of (toM 2 2 (dg rmL)) (toM 2 2 (dg rmD)) /\
  svd_of (toM 2 2 (dg rmD) *m invmx (toM 2 2 eye)) (toM 2 2 eye) (toM 2 2 eye) (toV 2 rmD) /\
  exists st, transform_hamil eye rmD eye rmL tries.+1 fuel sv order draw rm_st = Some (Ok st) /\
  let h := mkH (finish_modes false st) [:: m] ng eye in
  [/\ hn h = 1%N /\ t_om (h_st h) 0%N = t_om st 1%N,
      t_S st 1%N 1%N <> 0 /\ (exists a b, ent (opPhi h 0%N) a b <> 0),
      exists A, coupling_op h (Some Inductive_) (Z0, Zpos (xO xH)) = Ok A /\ forall a b, ent A a b = 0 &
      forall disp val el el' B ks, k_ind ks = [:: (Z0, Zpos (xO xH), el, 0%N)] ->
        k_jj ks = [:: (Z0, Zpos (xO xH), el', 1%N, 0%N)] -> B 1%N 0%N = 0 ->
        forall x y A A', hamiltonian disp h val [:: x] B ks = Ok A ->
          hamiltonian disp h val [:: y] B ks = Ok A' -> forall a b, ent A a b = ent A' a b].
Proof.
move=> m1 rm_st; split; first exact: rm_init.
split; first exact: rm_root. split; first exact: rm_lroot. split; first exact: rm_svd.
have [st [E [En [En0 Em]] [S0 [S1 _]] [w0 w1] [o0 [o1 [c1 l1]]]]] :=
  rm_run (erefl (toM 2 2 eye)) (erefl (toM 2 2 (dg rmL))) (fun j _ => erefl (rmW 0%N j)) sv order tries fuel draw.
exists st; split=> // h.
have Eun : uncoupled st = [:: 0%N].
  rewrite /uncoupled En Em /= w0 eqxx /=.
  by have -> : (t_wT st 0%N 1%N == 0) = false by apply/negbTE/eqP.
have Ekp : kept_modes st = [:: 1%N] by rewrite /kept_modes Eun En.
have Eh : h_st h = remove_uncoupled st by rewrite /h /= /finish_modes Em.
have hn1 : hn h = 1%N by rewrite /hn Eh /= Eun En.
have om1 : t_om (h_st h) 0%N = t_om st 1%N by rewrite Eh /= Ekp.
have hc : ~~ hcharge h 0%N.
  by rewrite /hcharge /is_charge om1 o1; apply/eqP; exact: R1_neq_R0.
have z0 k : (k < hn h)%N -> (0 < hm h k)%N by rewrite hn1; case: k => // _; apply: ltnW.
have EA : exists A, coupling_op h (Some Inductive_) (Z0, Zpos (xO xH)) = Ok A.
  apply: coupling_defined; first by rewrite hn1.
  by right; split=> //; rewrite Eh /= En0; split; lia.
have [A EA'] := EA.
have zero a b : ent A a b = 0.
  have nd : isnode (Zpos (xO xH)) (t_n0 (h_st h)) by rewrite Eh /= En0; split; lia.
  have EK : coupling_mat h Inductive_ = Ok (t_S (h_st h)) by [].
  rewrite (coupling_ground EK nd (or_intror EA')) /node_ent hn1 big_ord1.
  by rewrite Eh /= -[rowof _]/(1%N) S0 -cR0 mul0r.
split=> //; first split=> //.
- exists (posn (hm h) (fun=> 0%N) (hn h)), (posn (hm h) (unit_digit 0) (hn h)).
  have i0 : (0 < hn h)%N by rewrite hn1.
  have m1' : (1 < hm h 0)%N by [].
  rewrite (mode_read Inductive_ i0 i0 m1' z0) eqxx; apply/eqP; apply: iso_amp => //;
    by rewrite Eh /= Ekp.
- by exists A.
- move=> disp val el el' B ks Ei Ej B0 x y A1 A2 /hamiltonian_entry E1 /hamiltonian_entry E2 a b.
  rewrite E1 E2 Ei Ej !big_seq1 /ext_flux !big_ord1 [size _]/=; cbn [fst snd].
  have -> : cpl h (Z0, Zpos (xO xH)) a b = 0 by rewrite /cpl EA'.
  by rewrite /= B0 !mulr0.
Qed.
Print Assumptions C27_own_coefficients_refuted.

(** ** C63 *)
Theorem C63_flux_quanta disp h val loops B ks l z A : (l < size loops)%N ->
  (forall k, List.In k (k_ind ks) -> B k.2 l = 0) ->
  (forall k, List.In k (k_jj ks) -> exists n : Z, B k.1.2 l = IZR n) ->
  hamiltonian disp h val loops B ks = Ok A ->
  exists A', hamiltonian disp h val (set_nth 0 loops l (nth 0 loops l + (IZR z * (PI + PI))%R)) B ks = Ok A' /\
    forall a b, ent A a b = ent A' a b.
Proof.
move=> hl Hi Hj E.
have [A' E'] := hamiltonian_shape (add_quanta loops l z) E.
exists A'; split=> //; exact: hamiltonian_period hl Hi Hj E E'.
Qed.
Print Assumptions C63_flux_quanta.

Example C63_case disp val x : (forall m a, dim (disp m a) = m) -> exists A A',
  [/\ hamiltonian disp case_h val [:: x] (fun _ _ => 1) (mkKeys [::] [:: (Zpos xH, Zpos (xO xH), 1%N, 0%N, 0%N)]) = Ok A,
      hamiltonian disp case_h val [:: x + (IZR 1 * (PI + PI))%R] (fun _ _ => 1)
        (mkKeys [::] [:: (Zpos xH, Zpos (xO xH), 1%N, 0%N, 0%N)]) = Ok A' &
      forall a b, ent A a b = ent A' a b].
Proof.
move=> Hd; have m0 : h_m case_h <> [::] by [].
have [//|A E] := @C35_total disp case_h val [:: x] (fun _ _ => 1)
    (mkKeys [::] [:: (Zpos xH, Zpos (xO xH), 1%N, 0%N, 0%N)]) m0 isT.
have Hj (k : edge * nat * nat * nat) : List.In k [:: (Zpos xH, Zpos (xO xH), 1%N, 0%N, 0%N)] ->
  exists n : Z, (fun _ _ => 1) k.1.2 0%N = IZR n :> R by exists (Zpos xH).
by have [//|A' [E' H]] := @C63_flux_quanta _ _ _ [:: x] (fun _ _ => 1)
  (mkKeys [::] [:: (Zpos xH, Zpos (xO xH), 1%N, 0%N, 0%N)]) 0 (Zpos xH) _ isT _ Hj E; exists A, A'.
Qed.
