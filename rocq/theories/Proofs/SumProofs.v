(** SumProofs.v -- sums of the energies and of their squares. *)
From Coq Require Import Reals ZArith Lia Lra.
From Verif.Model Require Import Base Units Edge Accuracy HamConst.
From mathcomp Require Import all_ssreflect all_algebra.
From mathcomp Require Import complex ring zify.
From Verif.Numerics Require Import RStruct Bridge.
From Verif.Model Require Import FluxDist Op Transform Ham.
From Verif.Spec Require Import OpSpec TransSpec LevelsSpec LinearSpec SymmetrySpec PerturbSpec SumSpec.
From Verif.Proofs Require Import OpProofs HamProofs HamProofs2 HamProofs3 HamProofs4 HamProofs5 HamProofs6 ChargeShiftProofs.
From Verif.Proofs Require Import MinMaxProofs LinearProofs LinearLevels LevelProofs PartsProofs OrderProofs.

Set Implicit Arguments.
Unset Strict Implicit.
Unset Printing Implicit Defensive.
Import GRing.Theory.
Local Open Scope ring_scope.
Local Open Scope complex_scope.

(** ** Traces *)
Section Trace.
Variables (n : nat) (v : nat -> nat -> C).
Hypothesis ON : forall i j, (i < n)%N -> (j < n)%N -> \sum_(a < n) (v i a)^* * v j a = if i == j then 1 else 0.

Lemma closure a b : (a < n)%N -> (b < n)%N -> \sum_(j < n) (v j a)^* * v j b = if a == b then 1 else 0.
Proof.
move=> ha hb; have := complete (fun c => if a == c then 1 else 0) ON hb => ->.
apply: eq_bigr => j _; congr (_ * _); rewrite /PerturbSpec.dot (bigD1 (Ordinal ha)) //= eqxx mulr1 big1 ?addr0 // => c ne.
by rewrite ifN ?mulr0 //; apply: contra ne => /eqP e; apply/eqP/val_inj.
Qed.

Lemma trace_sum (h : nat -> nat -> C) (E : nat -> C) :
  (forall i a, (i < n)%N -> (a < n)%N -> \sum_(b < n) h a b * v i b = E i * v i a) ->
  \sum_(i < n) E i = \sum_(a < n) h a a.
Proof.
move=> EV.
have -> : \sum_(a < n) h a a = \sum_(a < n) \sum_(b < n) h a b * (if (a : nat) == b then 1 else 0).
  apply: eq_bigr => a _; rewrite (bigD1 a) //= eqxx mulr1 big1 ?addr0 // => b ne.
  by rewrite ifN ?mulr0 //; apply: contra ne => /eqP e; apply/eqP/val_inj.
transitivity (\sum_(a < n) \sum_(b < n) \sum_(j < n) (v j a)^* * (h a b * v j b)); last first.
  apply: eq_bigr => a _; apply: eq_bigr => b _; rewrite -closure // mulr_sumr; apply: eq_bigr => j _; exact: mulrCA.
transitivity (\sum_(a < n) \sum_(j < n) (v j a)^* * (E j * v j a)); last first.
  apply: eq_bigr => a _; rewrite [RHS]exchange_big /=; apply: eq_bigr => j _; rewrite -EV // mulr_sumr //.
rewrite exchange_big; apply: eq_bigr => j _.
transitivity (E j * \sum_(a < n) (v j a)^* * v j a); first by rewrite ON // eqxx mulr1.
by rewrite mulr_sumr; apply: eq_bigr => a _; exact: mulrCA.
Qed.
End Trace.

Lemma energy_sum A E : energies A E -> (\sum_(k < dim A) E k)%:C = \sum_(a < dim A) ent A a a.
Proof.
move=> [v [_ EV ON]]; rewrite rmorph_sum; exact: (trace_sum ON EV).
Qed.
Lemma energy_squares A E : herm A -> energies A E ->
  \sum_(k < dim A) E k * E k = \sum_(a < dim A) \sum_(b < dim A) nrm (ent A a b).
Proof.
move=> [_ H] [v [_ EV ON]]; apply: complexI; rewrite !rmorph_sum.
transitivity (\sum_(k < dim A) ((E k)%:C * (E k)%:C)); first by apply: eq_bigr => k _; rewrite -cRM.
rewrite (trace_sum (h := fun a c => \sum_(b < dim A) ent A a b * ent A b c) (E := fun k => (E k)%:C * (E k)%:C) ON).
  apply: eq_bigr => a _; rewrite rmorph_sum; apply: eq_bigr => b _.
  by rewrite -[RHS]nrmE mulrC (H b a).
move=> i a hi ha; transitivity (\sum_(b < dim A) ent A a b * ((E i)%:C * v i b)); last first.
  transitivity ((E i)%:C * \sum_(b < dim A) ent A a b * v i b); last by rewrite EV // mulrA.
  by rewrite mulr_sumr; apply: eq_bigr => b _; exact: mulrCA.
transitivity (\sum_(b < dim A) \sum_(c < dim A) ent A a b * (ent A b c * v i c)).
  rewrite exchange_big /=; apply: eq_bigr => c _; rewrite mulr_suml; apply: eq_bigr => b _; exact: (esym (mulrA _ _ _)).
by apply: eq_bigr => b _; rewrite -EV // mulr_sumr.
Qed.

(** ** The diagonal of the Hamiltonian *)
Section Diagonal.
Variables (disp : nat -> C -> op) (h : hin).
Hypothesis disp_dim : forall m a, dim (disp m a) = m.
Let n := hn h.
Let pos d := posn (hm h) d n.

Lemma off_diag i d d' : ~~ hcharge h i -> d = d' -> ent (charge_op_isolated h i) d d' = 0.
Proof.
move=> c ->; rewrite /charge_op_isolated (negbTE c); case: ifP => // _ /=.
by rewrite !ltn_eqF // cj0 subr0 mulr0.
Qed.
Lemma flux_diag i d : ~~ hcharge h i -> ent (flux_op_isolated h i) d d = 0.
Proof.
move=> c; rewrite /flux_op_isolated (negbTE c); case: ifP => // _ /=.
by rewrite !ltn_eqF // cj0 addr0 mulr0.
Qed.

Lemma two_zero i j d : (i < j)%N -> (j < n)%N -> ~~ hcharge h i || ~~ hcharge h j -> legal (hm h) d n -> prodQ h (pos d) (pos d) i j = 0.
Proof.
move=> lt hj c L; have lp : (pos d < total h)%N := posn_lt L; have hi := ltn_trans lt hj.
have [dd H] := opQQ_mul (ltnW lt) hj; rewrite /prodQ -H; try by rewrite dd /= dim_opQ.
rewrite opQQE ?subnKC ?(ltnW lt) // /pos (T_ent (dims := hm h)) //; last first.
  by move=> k _; rewrite /two_fam; case: eqP => [->|_]; [case: eqP => _ /=; rewrite ?dimQ|case: eqP => _; rewrite ?dimQ].
case/orP: c => c.
  rewrite (bigD1 (Ordinal hi)) //= /two_fam eqxx (ltn_eqF lt) off_diag // mul0r //.
by rewrite (bigD1 (Ordinal hj)) //= /two_fam (gtn_eqF lt) eqxx off_diag // mul0r.
Qed.
Lemma prod_zero i j d : (i < n)%N -> (j < n)%N -> i != j -> ~~ hcharge h i || ~~ hcharge h j -> legal (hm h) d n ->
  prodQ h (pos d) (pos d) i j = 0.
Proof.
move=> hi hj ne c L; have lp : (pos d < total h)%N := posn_lt L.
case: (ltngtP i j) ne => // lt _; first exact: two_zero.
by rewrite prodQ_sym //; apply: two_zero => //; rewrite orbC.
Qed.

Hypothesis sym : forall i j, (i < hn h)%N -> (j < hn h)%N -> t_cI (h_st h) i j = t_cI (h_st h) j i.
Lemma LC_diag d : legal (hm h) d n ->
  oent (LC_hamil h) (pos d) (pos d) = (level n (t_om (h_st h)) (hcharge h) (t_cI (h_st h)) (hm h) (h_ng h) d)%:C.
Proof.
move=> L; have la : (pos d < total h)%N := posn_lt L.
have two : 2%:R != 0 :> C by rewrite Num.Theory.pnatr_eq0.
apply: (mulfI two); rewrite (HamProofs4.LC_entry la la) mulrDr half_sumE //; last by move=> i j _ _; exact: prodQ_sym.
set P := prodQ h (pos d) (pos d); set A := t_cI (h_st h); set w := t_om (h_st h).
have split2 : \sum_(i < n) \sum_(j < n) (A i j)%:C * P i j =
  \sum_(i < n | hcharge h i) \sum_(j < n | hcharge h j) (A i j)%:C * P i j + \sum_(i < n | ~~ hcharge h i) (A i i)%:C * P i i.
  rewrite (bigID (fun i : 'I_n => hcharge h i)) /=; congr (_ + _); apply: eq_bigr => i ci.
    rewrite (bigID (fun j : 'I_n => hcharge h j)) /= [X in _ + X]big1 ?addr0 // => j cj.
    rewrite /P prod_zero ?mulr0 ?cj ?orbT //; apply/eqP => e; by rewrite e (negbTE cj) in ci.
  rewrite (bigD1 i) //= big1 ?addr0 // => j ne; rewrite /P prod_zero ?mulr0 ?ci // eq_sym; exact: ne.
rewrite split2 -addrA.
have -> : (\sum_(i < n | ~~ hcharge h i) (A i i)%:C * P i i) + 2%:R * (\sum_(i < n | ~~ hcharge h i) ((w i)%:C * ent (opN h i) (pos d) (pos d) - (halfR (A i i))%:C * P i i)) =
  2%:R * (\sum_(i < n | ~~ hcharge h i) (w i)%:C * ent (opN h i) (pos d) (pos d)).
  rewrite sumrB mulrBr addrCA -[RHS]addr0; congr (_ + _); rewrite mulr_sumr -sumrB big1 // => i _.
  rewrite mulrA.
  have -> : 2%:R * (halfR (A i i))%:C = (A i i)%:C by rewrite mulr_natl mulr2n -cRD; congr (_%:C); rewrite /halfR; exact: (esym (double_var _)).
  by rewrite subrr.
have Nn : \sum_(i < n | ~~ hcharge h i) (w i)%:C * ent (opN h i) (pos d) (pos d) = (\sum_(i < n | ~~ hcharge h i) w i * INR (d i))%:C.
  have NE (i : 'I_n) : ~~ hcharge h i -> ent (opN h i) (pos d) (pos d) = (INR (d i))%:C.
    move=> ci; have := @one_diag h i d d (fun k => (INR k)%:C) (opN h i) (ltn_ord i) L L; rewrite eqxx; apply.
    rewrite opNE; have [e H] := one_acts (ltn_ord i) (dimN h); split=> // x y Lx Ly.
    by rewrite H //; case: ifP => // _; rewrite /num_op_isolated (negbTE ci).
  by rewrite rmorph_sum; apply: eq_bigr => i ci; rewrite NE // -cRM.
have Pn : \sum_(i < n | hcharge h i) \sum_(j < n | hcharge h j) (A i j)%:C * P i j =
  (\sum_(i < n | hcharge h i) \sum_(j < n | hcharge h j) A i j * cooper (hm h) (h_ng h) d i * cooper (hm h) (h_ng h) d j)%:C.
  rewrite rmorph_sum; apply: eq_bigr => i ci; rewrite rmorph_sum; apply: eq_bigr => j cj.
  have -> : P i j = (cooper (hm h) (h_ng h) d i * cooper (hm h) (h_ng h) d j)%:C by rewrite /P /pos QQ_entry // eqxx.
  by rewrite -cRM mulrA.
rewrite Nn Pn /level mulr_natl [RHS]mulr_natl !mulr2n -!cRD; congr (_%:C).
set x := \sum_(i < n | hcharge h i) _; set y := \sum_(i < n | ~~ hcharge h i) _.
by rewrite {1}(double_var x) !RplusE addrACA addrC.
Qed.

(** Junctions that move charge and inductors have nothing on the diagonal. *)
Lemma exp_zero w d : moves_charge h w -> legal (hm h) d n -> ent (opExp disp h w) (pos d) (pos d) = 0.
Proof.
move=> [i [hi c nz]] L; rewrite -[opExp _ _ _]/(T (exp_iso disp h w) n) /pos (T_ent (dims := hm h)) //; last first.
  by move=> k _; rewrite /exp_iso; case: hcharge; [exact: d_dim|case: eqP => [->|_]].
rewrite (bigD1 (Ordinal hi)) //= /exp_iso c d_entry; case: Rlt_dec => lt; first by rewrite ltn_eqF // mul0r.
case: Rlt_dec => gt; first by rewrite ltn_eqF // mul0r.
by case: nz; apply: Rle_antisym; apply: Rnot_lt_le.
Qed.
Lemma jj_zero phi w d : moves_charge h w -> legal (hm h) d n -> jjent disp h phi w (pos d) (pos d) = 0.
Proof. by move=> m L; rewrite /jjent exp_zero // mulr0 cj0 addr0 mulr0. Qed.
Lemma Phi_zero i d : (i < n)%N -> ~~ hcharge h i -> legal (hm h) d n -> ent (opPhi h i) (pos d) (pos d) = 0.
Proof.
move=> hi c L; rewrite opPhiE /pos (T_ent (dims := hm h)) //; last by move=> k _; rewrite /one_fam; case: eqP => // ->; exact: dimF.
by rewrite (bigD1 (Ordinal hi)) //= /one_fam eqxx flux_diag // mul0r.
Qed.

Lemma ham_diag val loops B ks A d : hamiltonian disp h val loops B ks = Ok A ->
  inductor_free h ks -> (forall k, List.In k (k_jj ks) -> moves_charge h k.2) -> legal (hm h) d n ->
  ent A (pos d) (pos d) = (level n (t_om (h_st h)) (hcharge h) (t_cI (h_st h)) (hm h) (h_ng h) d)%:C.
Proof.
move=> EA F M L; rewrite (hamiltonian_entry _ _ EA) LC_diag //.
rewrite (eq_sum_In (G := fun=> 0)) ?big1_eq ?addr0; last first.
  move=> k hk; have [c Ec cz] := F k hk; rewrite cpl_entry Ec big_seq big1 ?mulr0 // => i.
  rewrite mem_iota add0n => /andP [_ hi]; case ci: (hcharge h i); first by rewrite cz // cR0 mul0r.
  by rewrite Phi_zero ?mulr0 // ci.
rewrite (eq_sum_In (G := fun=> 0)) ?big1_eq ?subr0 // => k hk.
by rewrite jj_zero ?mulr0 //; exact: M.
Qed.

Lemma ham_sum val loops B ks A E : hamiltonian disp h val loops B ks = Ok A ->
  inductor_free h ks -> (forall k, List.In k (k_jj ks) -> moves_charge h k.2) -> energies A E ->
  \sum_(k < dim A) E k = \sum_(x <- states (hm h) n) level n (t_om (h_st h)) (hcharge h) (t_cI (h_st h)) (hm h) (h_ng h) (nth 0%N x).
Proof.
move=> EA F M HE; have [dA _] := hamiltonian_ok disp_dim EA.
apply: complexI; rewrite energy_sum // dA rmorph_sum -(big_mkord xpredT (fun a => ent A a a)) /index_iota subn0.
rewrite -[total h]/(\prod_(k < n) hm h k)%N -states_pos big_map; apply: eq_big_seq => x hx.
exact: (ham_diag EA F M (states_legal hx)).
Qed.
End Diagonal.
