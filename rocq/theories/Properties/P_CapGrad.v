(** C64: gradients with respect to capacitors and inductors.
    C50: the mixed derivative for gate charge and capacitance. *)
From Coq Require Import Reals ZArith String Lra Lia.
From Verif.Model Require Import Base Units Settings Elements Edge LCWB HamConst PartialConst.
From Verif.Spec Require Import ThermalSpec.
From Verif.Proofs Require Import SensProofs.

Lemma half_eq x y : (x / 2 = y / 2 -> x = y)%R.
Proof. lra. Qed.
Lemma cap_value r : (0 < r -> r * (/ (r * r) * 1 * / (r * r)) * r = / (r * r))%R.
Proof. intros H. field. lra. Qed.
Lemma cap_wrong r : (0 < r -> r <> 1 -> / (r * r) * 1 * / (r * r) <> / (r * r))%R.
Proof.
intros H N E. assert (Q : (r * r = 1)%R).
{ apply (f_equal (fun z => z * (r * r) * (r * r))%R) in E. field_simplify in E; nra. }
nra.
Qed.

Lemma hbar_pos : (0 < sqrt hbar)%R. Proof. apply sqrt_lt_R0. unfold hbar. lra. Qed.
Lemma charge_unit_pos : (0 < charge_unit)%R.
Proof. unfold charge_unit. apply Rmult_lt_0_compat; [|apply Rinv_0_lt_compat; exact hbar_pos]. unfold e_charge. lra. Qed.
Lemma ng_coef_inj a b : ng_coef a = ng_coef b -> a = b.
Proof. unfold ng_coef. intros E. assert (H := hbar_pos). apply (f_equal (fun z => z * sqrt hbar)%R) in E. field_simplify in E; lra. Qed.

From mathcomp Require Import all_ssreflect all_algebra.
From mathcomp Require Import complex.
From Verif.Numerics Require Import RStruct Bridge.
From Verif.Model Require Import Transform Op Ham Diag CircuitSM Partial.
From Verif.Spec Require Import OpSpec SessionSpec GradSpec CapGradSpec.
From Verif.Proofs Require Import TransProofs OpProofs HamProofs HamProofs2 HamProofs3 HamProofs5 HamProofs6 CDeriv SMProofs SMProofs3 MemProofs GradProofs.
From Verif.Properties Require P_Ng.
From Verif.Proofs Require Import NgProofs CapGrad SessionCase CapCase.

Set Implicit Arguments.
Unset Strict Implicit.
Unset Printing Implicit Defensive.
Import GRing.Theory.
Local Open Scope ring_scope.
Local Open Scope complex_scope.

(** After any history of calls in which no rebuild failed and no element was
    changed after the last build, no mode was removed and the Hamiltonian can be
    formed. *)
Section Session.
Variables (disp : nat -> C -> op) (optim : bool) (o : oracle) (s0 : store) (lobj : nat -> lrec) (fd : string).
Variables (d : seq (edge * seq nat)) (x0 : circ) (u : ustate) (cs : seq call) (tr : seq (world * res unit)).
Hypothesis built_ok : construct optim o s0 lobj fd d = Some (Ok x0).
Hypothesis session : run disp optim (mkW s0 u x0) cs = Some tr.
Hypothesis updates : updates_ok optim (mkW s0 u x0) cs tr.
Hypothesis sync : in_sync optim true cs tr.
Let s := w_s (final (mkW s0 u x0) tr).
Let x := w_x (final (mkW s0 u x0) tr).
Let n0 := t_n0 (x_st x).
Hypothesis formed : exists H0, (hamil s x).2 = Ok H0.
Hypothesis full : t_n (x_st x) = t_n0 (x_st x).
Hypothesis caps : forall e, ekind s e <> KCap -> ekind s (ecap s e) = KCap.

Let Rg : regular disp s x.
Proof. exact: (session_regular built_ok session updates). Qed.
Let G : good disp x := rg_good Rg.
Let Sy : synced optim s x.
Proof. exact: (synced_session (b := true) (w := mkW s0 u x0) (fun _ => synced_construct built_ok) session updates sync). Qed.
Let F : fresh_ops disp x.
Proof.
have [H0 formed0] := formed.
by case: (g_ops G) => // m0; move: formed0; have [-> _] := hamilE s G; rewrite /ham_of /hamiltonian /= m0.
Qed.

Theorem C64_capacitor el : plain_capacitor optim s x el -> placed optim s (x_dict x) el ->
  exists P, reported_grad s x (CEl el) None = Ok P /\
    forall a b, (a < total (hof x))%N -> (b < total (hof x))%N ->
      cderiv (fun v => charge_energy optim s x el v a b) (evalue s el) (opt_entry P a b).
Proof.
move=> [k own] pl; have [P EP HP] := cap_gradP Sy G Rg full caps k own pl.
by exists P.
Qed.

Theorem C64_inductor el : ekind s el = KInd -> evalue s el <> 0 ->
  (exists e els, List.In (e, els) (x_dict x) /\ List.In el els) ->
  exists P, reported_grad s x (CEl el) None = Ok P /\
    (exists r, Rlt 0 r /\ forall v, Rlt (Rabs (Rminus v (evalue s el))) r -> exists p, mats_at optim s x el v = Ok p) /\
    forall a b, (a < total (hof x))%N -> (b < total (hof x))%N ->
      cderiv (fun v => flux_energy optim s x el v a b) (evalue s el) (opt_entry P a b).
Proof.
move=> k nz pl; have [P EP HP] := ind_gradP Sy G Rg full caps k nz pl.
by exists P.
Qed.

(** The coefficients of the charge energy at the present value are those of the
    Hamiltonian. *)
Theorem C64_charge_energy el : plain_capacitor optim s x el -> placed optim s (x_dict x) el ->
  forall i j, (i < x_n x)%N -> (j < x_n x)%N -> charge_coef (C_at optim s x el (evalue s el)) i j = t_cI (x_st x) i j.
Proof.
move=> [k own] pl i j; rewrite /x_n full => hi hj; have [P EP [EC _]] := C_line Sy caps k own pl.
rewrite EC subrr scale0r addr0 /charge_coef -(sy_cI Sy full).
by rewrite (ofME _ (Ordinal hi) (Ordinal hj)) mxE.
Qed.

(** In the NumPy engine a capacitor inside an inductor or junction is refused. *)
Theorem C64_inner_capacitor el : optim = false -> ekind s el = KCap ->
  (forall e els, List.In (e, els) (x_dict x) -> ~ List.In el els) -> reported_grad s x (CEl el) None = Err ValueError.
Proof.
move=> Eo k np; have [M [EM _]] := filledP Rg.
have [s' [lobj' [[E1 [E2 E3]] H]]] := sy_lcwb Sy.
have [ci Eci] := inv_unit (sy_unit Sy).
rewrite /reported_grad EM /partial_H k /= Eci.
have [hp _] := pm_entries _ _ _ _ _ _ _ el H.
case Ep: c_pm hp => [P|] // hp; exfalso; have [//|e [els [e' [h1 [h2 h3]]]]] := hp _.
case: h3 => [[E _]|[E _]]; last by rewrite Eo in E.
by apply: (np e els h1); rewrite -E.
Qed.

(** ** C50 *)
(** The operator of the first derivative is the one whose slope is wanted. *)
Theorem C50_first el i : plain_capacitor optim s x el -> placed optim s (x_dict x) el ->
  (i < x_n x)%N -> is_charge (x_st x) i ->
  exists P, partial_H_ng x i = Ok P /\ forall a b, opt_entry P a b = ng_operator optim s x el i (evalue s el) a b.
Proof.
move=> pc pl hi ch; have [P EP HP] := ng_op F ch; exists P; split=> // a b.
rewrite -[opt_entry P a b]/(oent P a b) HP /ng_operator; apply: eq_bigr => j _.
by rewrite C64_charge_energy.
Qed.

(** What is reported differs from the derivative by the terms in which R^T K R
    differs from K, with K = C^-1 dC C^-1. *)
Theorem C50_difference el i : plain_capacitor optim s x el -> placed optim s (x_dict x) el ->
  (i < x_n x)%N -> is_charge (x_st x) i ->
  exists P A, [/\ c_pm (x_c x) el = Some P, partial_squared_H_ng s x i (CEl el) = Ok A &
    let Rm := toM n0 n0 (t_R (x_st x)) in
    let K := invmx (toM n0 n0 (x_C x)) *m toM n0 n0 P *m invmx (toM n0 n0 (x_C x)) in
    forall a b, cderiv (fun v => ng_operator optim s x el i v a b) (evalue s el)
      (opt_entry A a b - \sum_(j < x_n x) (ng_coef (ofM (Rm^T *m K *m Rm) i j) - ng_coef (ofM K i j))%:C * ent (opQ (hof x) j) a b)].
Proof.
move=> [k own] pl hi ch; have hi0 : (i < n0)%N by rewrite /n0 -full.
have [P EP [A EA HA]] := ng_reported Sy G Rg full caps k own pl ch hi0.
have [P' EP' [EC _]] := C_line Sy caps k own pl.
have EPP : P' = P by have := etrans (esym EP') EP; case.
rewrite EPP in EP' EC; exists P, A; split=> // Rm K a b.
have D := ng_slope_true Sy full a b EP EC hi0.
rewrite HA -/n0 -/K -opprD -big_split /=.
have -> : \sum_(j < x_n x) ((ng_coef (ofM K i j))%:C * ent (opQ (hof x) j) a b +
     (ng_coef (ofM (Rm^T *m K *m Rm) i j) - ng_coef (ofM K i j))%:C * ent (opQ (hof x) j) a b) =
   \sum_(j < x_n x) (ng_coef (ofM (Rm^T *m K *m Rm) i j))%:C * ent (opQ (hof x) j) a b.
  by apply: eq_bigr => j _; rewrite -mulrDl; congr (_ * _); rewrite rmorphB /= addrC subrK.
exact: D.
Qed.

(** Right if R is the identity. *)
Theorem C50_identity el i : plain_capacitor optim s x el -> placed optim s (x_dict x) el ->
  (i < x_n x)%N -> is_charge (x_st x) i -> toM n0 n0 (t_R (x_st x)) = 1%:M ->
  exists A, partial_squared_H_ng s x i (CEl el) = Ok A /\
    forall a b, cderiv (fun v => ng_operator optim s x el i v a b) (evalue s el) (opt_entry A a b).
Proof.
move=> pc pl hi ch R1; have [P [A [EP EA D]]] := C50_difference pc pl hi ch.
exists A; split=> // a b; have := D a b; rewrite R1 trmx1 mul1mx mulmx1 big1 ?subr0 // => j _.
by rewrite subrr cR0 mul0r.
Qed.
End Session.
Print Assumptions C64_capacitor.
Print Assumptions C64_inductor.
Print Assumptions C64_charge_energy.
Print Assumptions C64_inner_capacitor.
Print Assumptions C50_first.
Print Assumptions C50_difference.
Print Assumptions C50_identity.

Lemma cderiv_unique f t z z' : cderiv f t z -> cderiv f t z' -> z = z'.
Proof.
case: z z' => [a b] [a' b'] [/= A B] [/= A' B'].
by rewrite (ThermalProofs.has_derivative_unique _ _ _ _ A A') (ThermalProofs.has_derivative_unique _ _ _ _ B B').
Qed.

Lemma one_forms n (Rm Cm P : arr) : n = 1%N ->
  let K := invmx (toM n n Cm) *m toM n n P *m invmx (toM n n Cm) in
  let k := (Cm 0%N 0%N)^-1 * P 0%N 0%N * (Cm 0%N 0%N)^-1 in
  ofM K 0%N 0%N = k /\ ofM ((toM n n Rm)^T *m K *m toM n n Rm) 0%N 0%N = Rm 0%N 0%N * k * Rm 0%N 0%N.
Proof.
move=> -> /=; rewrite !one_mx invmx_scalar tr_scalar_mx -!scalar_mxM.
by split; rewrite (ofME _ (0 : 'I_1) (0 : 'I_1)) mxE eqxx mulr1n.
Qed.

Section OneCapacitor.
Variables (disp : nat -> C -> op) (optim : bool) (lobj : nat -> lrec) (u : ustate) (r : R).
Hypothesis r0 : Rlt 0 r.
Let s := cap_store r.
Let rn : r != 0.
Proof. by apply/eqP => E; apply: (Rlt_not_eq _ _ r0). Qed.

Lemma cap_plain x : plain_capacitor optim s x 0 /\ (x_dict x = cap_dict -> placed optim s (x_dict x) 0).
Proof.
split; first by split=> //; right=> e els e' _ _ [].
by move=> ->; exists (Z0, Zpos xH), [:: 0%N], 0%N; split; [left|split; [left|left]].
Qed.

(** One capacitor r^2 between node 1 and ground, three charge states. *)
Lemma cap_ready : exists x0 x1 P,
  [/\ construct optim (cap_or r) s lobj "junctions" cap_dict = Some (Ok x0),
      set_trunc disp (Some [:: 2%N]) x0 = (x1, Ok tt) /\
        run disp optim (mkW s u x0) [:: SetTrunc (Some [:: 2%N])] = Some [:: (mkW s u x1, Ok tt)],
      (exists H0, (hamil s x1).2 = Ok H0) /\ (is_charge (x_st x1) 0%N /\ t_n (x_st x1) = t_n0 (x_st x1)),
      placed optim s (x_dict x1) 0 /\ (x_n x1 = 1%N /\ x_m x1 = [:: 3%N]) &
      [/\ t_R (x_st x1) 0%N 0%N = r, x_C x1 0%N 0%N = r * r, c_pm (x_c x1) 0%N = Some P, P 0%N 0%N = 1 &
          ent (opQ (hof x1) 0) 0%N 0%N = - charge_unit%:C]].
Proof.
have [x0 [E0 [n0 n00] ch [HR [HC [P EP HP]]] [Ed [Ei Ej]]]] := cap_construct r0 optim lobj.
have [x1 [Es G1 [est ec] [eC ed] [n1 m1 g1]]] := cap_set disp E0 n0 ch.
exists x0, x1, P; split=> //.
- by split=> //; cbn [run step w_x w_s w_u]; rewrite Es.
- split; last by rewrite est -[t_n _]/(x_n x0) n0 n00.
  have [-> _] := hamilE s G1; apply: hamiltonian_total => /=; first by rewrite m1.
    by rewrite /hn -[t_n _]/(x_n x1) n1.
  by rewrite ec Ei.
- by split=> //; have [_] := cap_plain x1; apply; rewrite ed.
split; rewrite ?est ?eC ?ec //.
have hc : hcharge (hof x1) 0%N by rewrite /hcharge /= est.
rewrite opQE /T -[hn _]/(x_n x1) n1 /= /one_fam /= /charge_op_isolated hc; cbn [ent oscale osub oadd qcharge oeye odiag].
rewrite eqxx.
by rewrite g1 mul0r subr0 /hm -[h_m _]/(x_m x1) m1 P_Ng.lowest_charge cRN mulrN1.
Qed.

Let caps e : ekind s e <> KCap -> ekind s (ecap s e) = KCap.
Proof. by []. Qed.

Lemma cap_slope : exists x0 x1 A,
  [/\ construct optim (cap_or r) s lobj "junctions" cap_dict = Some (Ok x0),
      set_trunc disp (Some [:: 2%N]) x0 = (x1, Ok tt) /\ placed optim s (x_dict x1) 0,
      t_R (x_st x1) 0%N 0%N = r, partial_squared_H_ng s x1 0 (CEl 0) = Ok A &
      cderiv (fun v => ng_operator optim s x1 0 0 v 0%N 0%N) (r * r)
        (opt_entry A 0 0 + (ng_coef (Rinv (Rmult r r)) -
           ng_coef (Rmult (Rmult (Rinv (Rmult r r)) R1) (Rinv (Rmult r r))))%:C * charge_unit%:C)].
Proof.
have [x0 [x1 [P [E0 [Es Er] [formed [ch full]] [pl [n1 m1]] [HR HC EP HP Q0]]]]] := cap_ready.
have [pc _] := cap_plain x1; have hi : (0 < x_n x1)%N by rewrite n1.
have n01 : t_n0 (x_st x1) = 1%N by rewrite -full.
have [P' [A [EP' EA D]]] := @C50_difference disp optim _ _ _ _ _ _ u _ _ E0 Er isT isT formed full caps 0%N 0%N pc pl hi ch.
have EPP : P' = P by move: EP'; rewrite EP => -[].
exists x0, x1, A; split=> //.
apply: cd_eq (D 0%N 0%N) _; rewrite n1 big_ord1 Q0 mulrN opprK; congr (_ + (_ - _)%:C * _).
  have [_ ->] := one_forms (t_R (x_st x1)) (x_C x1) P' n01.
  by rewrite HR HC EPP HP -RinvE; congr ng_coef; exact: cap_value.
have [-> _] := one_forms (t_R (x_st x1)) (x_C x1) P' n01.
by rewrite HC EPP HP -RinvE.
Qed.

(** With any capacitance but 1 (farad) the reported operator is not the derivative:
    the charges are those of a mode with R = r, and R is left out. *)
Theorem C50_refuted : r <> 1 -> exists x0 x1 A,
  [/\ construct optim (cap_or r) s lobj "junctions" cap_dict = Some (Ok x0),
      set_trunc disp (Some [:: 2%N]) x0 = (x1, Ok tt),
      plain_capacitor optim s x1 0 /\ placed optim s (x_dict x1) 0,
      partial_squared_H_ng s x1 0 (CEl 0) = Ok A &
      ~ cderiv (fun v => ng_operator optim s x1 0 0 v 0%N 0%N) (evalue s 0) (opt_entry A 0 0)].
Proof.
move=> r1; have [x0 [x1 [A [E0 [Es pl] HR EA D]]]] := cap_slope; have [pc _] := cap_plain x1.
exists x0, x1, A; split=> //.
move=> D'; have := cderiv_unique D D'; rewrite -[X in _ = X]addr0 => /addrI /eqP.
rewrite -cRM (inj_eq (@complexI _)) mulf_eq0 => /orP [/eqP|/eqP].
  by move/eqP; rewrite subr_eq0 => /eqP /ng_coef_inj E; exact: (cap_wrong _ r0 r1 (esym E)).
by move=> E; have := charge_unit_pos; rewrite E => /Rlt_irrefl.
Qed.

(** The gradient of the energy is right: -Q^2 / (2 C), and Q = -2e / sqrt(hbar) in
    the lowest state. *)
Example C64_case : exists x0 x1 P,
  [/\ construct optim (cap_or r) s lobj "junctions" cap_dict = Some (Ok x0),
      set_trunc disp (Some [:: 2%N]) x0 = (x1, Ok tt), reported_grad s x1 (CEl 0) None = Ok P &
      opt_entry P 0 0 = - (Rdiv (Rdiv (charge_unit * charge_unit) (r * r)) 2)%:C].
Proof.
have [x0 [x1 [P [E0 [Es Er] [formed [ch full]] [pl [n1 m1]] [HR HC EP HP Q0]]]]] := cap_ready.
have [pc _] := cap_plain x1; have [k own] := pc.
have n01 : t_n0 (x_st x1) = 1%N by rewrite -full.
have Sy : synced optim s x1 := synced_session (b := true) (w := mkW s u x0) (fun _ => synced_construct E0) Er isT isT.
have hn1 : hn (hof x1) = 1%N := n1.
have tot : total (hof x1) = 3%N by rewrite /total hn1 big_ord1 /hm -[h_m _]/(x_m x1) m1.
have [A [EA D]] := @C64_capacitor disp optim _ _ _ _ _ _ u _ _ E0 Er isT isT formed full caps 0%N pc pl.
exists x0, x1, A; split=> //; have := D 0%N 0%N; rewrite tot => /(_ isT isT) {}D.
have [P' EP' [EC _]] := C_line Sy caps k own pl.
have EPP : P' = P by move: EP'; rewrite EP => -[].
have h0 : (0 < t_n0 (x_st x1))%N by rewrite n01.
have S : has_derivative _ _ _ := charge_coef_slope Sy EP' EC h0 h0.
have [_ E1] := one_forms (t_R (x_st x1)) (x_C x1) P' n01.
have S1 : has_derivative (fun v => charge_coef (C_at optim s x1 0 v) 0%N 0%N) (evalue s 0) (- (Rinv (Rmult r r))).
  move: S; rewrite (ofME _ (Ordinal h0) (Ordinal h0)) mxE; rewrite (ofME _ (Ordinal h0) (Ordinal h0)) in E1.
  rewrite E1 HR HC EPP HP -RinvE; move=> Sl; have Ev := cap_value r r0; apply: hd_eq Sl _; congr (- _); exact: Ev.
have D2 : cderiv (fun v => quad_form 1 (charge_coef (C_at optim s x1 0 v)) (opQ (hof x1)) 0%N 0%N) (evalue s 0)
     (quad_form 1 (fun _ _ => - (Rinv (Rmult r r))) (opQ (hof x1)) 0%N 0%N).
  by apply: cd_form => -[|i] [|j].
rewrite /charge_energy n1 in D; rewrite (cderiv_unique D D2) /quad_form !big_ord1.
have dQ : dim (opQ (hof x1) 0) = 3%N by rewrite dim_opQ tot.
have dg : forall k, k != 0%N -> ent (opQ (hof x1) 0) 0%N k = 0.
  move=> k' kn; have hc : hcharge (hof x1) 0%N by [].
  rewrite opQE /T -[hn _]/(x_n x1) n1 /= /one_fam /= /charge_op_isolated hc; cbn [ent oscale osub oadd qcharge oeye odiag].
  by rewrite eq_sym (negbTE kn) mulr0 subr0 mulr0.
rewrite dQ !big_ord_recl big_ord0 Q0 !dg // !mul0r !addr0 mulrNN -!cRM.
have two0 : (2%:R : C) != 0 by rewrite Num.Theory.pnatr_eq0.
apply: (mulfI two0); rewrite [LHS]mulrA (mulfV two0) mul1r mulrN.
rewrite -[Rdiv _ 2]/(halfR _) two_half -cRN; congr (_%:C).
change (- Rinv (Rmult r r) * (Rmult charge_unit charge_unit) = - Rdiv (Rmult charge_unit charge_unit) (Rmult r r)).
by rewrite mulNr mulrC.
Qed.

(** With capacitance 1 the mixed derivative is right. *)
Example C50_case : r = 1 -> exists x0 x1 A,
  [/\ construct optim (cap_or r) s lobj "junctions" cap_dict = Some (Ok x0),
      set_trunc disp (Some [:: 2%N]) x0 = (x1, Ok tt), partial_squared_H_ng s x1 0 (CEl 0) = Ok A &
      cderiv (fun v => ng_operator optim s x1 0 0 v 0%N 0%N) (evalue s 0) (opt_entry A 0 0)].
Proof.
move=> r1; have [x0 [x1 [P [E0 [Es Er] [formed [ch full]] [pl [n1 m1]] [HR HC EP HP Q0]]]]] := cap_ready.
have [pc _] := cap_plain x1; have n01 : t_n0 (x_st x1) = 1%N by rewrite -full.
have hi : (0 < x_n x1)%N by rewrite n1.
have RI : toM (t_n0 (x_st x1)) (t_n0 (x_st x1)) (t_R (x_st x1)) = 1%:M by rewrite n01 one_mx HR r1.
have [A [EA D]] := @C50_identity disp optim _ _ _ _ _ _ u _ _ E0 Er isT isT formed full caps 0%N 0%N pc pl hi ch RI.
by exists x0, x1, A; split=> //; apply: D.
Qed.

End OneCapacitor.
Print Assumptions C50_refuted.
Print Assumptions C64_case.
Print Assumptions C50_case.

Lemma two_forms n (Rm Cm P : arr) : n = 2%N -> toM 2 2 Cm = 1%:M ->
  [/\ Rm 0%N 1%N = 0, Rm 1%N 0%N = 0, P 0%N 0%N = 0, P 0%N 1%N = 0 & P 1%N 0%N = 0] -> P 1%N 1%N = 1 ->
  let K := invmx (toM n n Cm) *m toM n n P *m invmx (toM n n Cm) in
  ofM (- ((toM n n Rm)^T *m K *m toM n n Rm)) 0%N 0%N = 0 /\
  ofM (- ((toM n n Rm)^T *m K *m toM n n Rm)) 1%N 1%N = - (Rm 1%N 1%N ^+ 2).
Proof.
move=> -> -> [r01 r10 p00 p01 p10] p11 /=; rewrite invmx1 mul1mx mulmx1.
split; [rewrite (ofME _ (ord0 : 'I_2) (ord0 : 'I_2)) | rewrite (ofME _ (lift ord0 ord0 : 'I_2) (lift ord0 ord0 : 'I_2))].
  rewrite !mxE !big_ord_recl !big_ord0 !mxE !big_ord_recl !big_ord0 !mxE /= -[bump 0 0]/1%N r10 p00 p01 p10 p11.
  by rewrite !(mulr0, mul0r, addr0, add0r) oppr0.
rewrite !mxE !big_ord_recl !big_ord0 !mxE !big_ord_recl !big_ord0 !mxE /= -[bump 0 0]/1%N r01 p00 p01 p10 p11.
by rewrite !(mulr0, mul0r, addr0, add0r) mulr1 expr2.
Qed.

Lemma two_coef n (Rm Cm : arr) : n = 2%N -> toM 2 2 Cm = 1%:M -> Rm 0%N 1%N = 0 ->
  ofM ((toM n n Rm)^T *m invmx (toM n n Cm) *m toM n n Rm) 1%N 1%N = Rm 1%N 1%N ^+ 2.
Proof.
move=> -> -> r01; rewrite invmx1 mulmx1 (ofME _ (lift ord0 ord0 : 'I_2) (lift ord0 ord0 : 'I_2)).
by rewrite !mxE !big_ord_recl !big_ord0 !mxE /= -[bump 0 0]/1%N r01 mul0r add0r addr0 expr2.
Qed.

(** Two uncoupled oscillators, the first of which is removed: the gradient for the
    capacitor of the remaining one is 0, because coordinate 0 of R is read for the
    only mode, which is coordinate 1. *)
Theorem C64_removed_refuted disp lobj : exists x0 x1 P,
  [/\ construct false rm_or rm_store lobj "junctions" rm_dict = Some (Ok x0),
      set_trunc disp (Some [:: 2%N]) x0 = (x1, Ok tt),
      x_n x1 = 1%N /\ charge_coef (C_at false rm_store x1 2 (evalue rm_store 2)) 1%N 1%N = t_cI (x_st x1) 0%N 0%N,
      reported_grad rm_store x1 (CEl 2) None = Ok P /\ (forall a b, (a < 2)%N -> (b < 2)%N -> opt_entry P a b = 0) &
      ~ cderiv (fun v => quad_form 1 (fun _ _ => charge_coef (C_at false rm_store x1 2 v) 1%N 1%N) (opQ (hof x1)) 0%N 0%N)
               (evalue rm_store 2) (opt_entry P 0 0)].
Proof.
have [x0 [E0 n0 d0 c0]] := rm_construct lobj.
have [[_ n00] [ch C1] [r00 r01 r10 r11] [HcI [cp lp]] [_ [P EP [p00 p01 p10 p11]]]] := rm_detail E0.
have [x1 [Es G1 [est ec] [eC ed] [n1 m1]]] := rm_set disp E0.
have Sy0 := synced_construct E0.
have f1 : x_fd x1 = x_fd x0.
  by move: Es; rewrite /set_trunc; case: ifP => // _; case: mem_err => // -[<-].
have Sy : synced false rm_store x1 := synced_mats Sy0 f1 est ed ec eC.
have caps e : ekind rm_store e <> KCap -> ekind rm_store (ecap rm_store e) = KCap by [].
have own : false = true \/ forall e els e', List.In (e, els) (x_dict x1) -> List.In e' els ->
    ekind rm_store e' <> KCap -> ecap rm_store e' <> 2%N by right.
have pl : placed false rm_store (x_dict x1) 2.
  rewrite ed d0; exists (Z0, Zpos (xO xH)), [:: 2; 3; 4]%N, 2%N.
  by split; [left|split; [left|left]].
have [P' EP' [EC _]] := C_line Sy caps (erefl : ekind rm_store 2 = KCap) own pl.
have EPP : P' = P by move: EP'; rewrite ec EP => -[].
rewrite EPP in EP' EC.
have n2 : t_n0 (x_st x1) = 2%N by rewrite est n00.
have [A0 A1] := two_forms n2 (etrans (congr1 (fun M => toM 2 2 M) eC) C1)
  (And5 (etrans (congr1 (fun st => t_R st 0%N 1%N) est) r01) (etrans (congr1 (fun st => t_R st 1%N 0%N) est) r10) p00 p01 p10) p11.
have h1 : (1 < t_n0 (x_st x1))%N by rewrite n2.
have D : has_derivative _ _ _ := charge_coef_slope Sy EP' EC h1 h1.
rewrite A1 in D.
exists x0, x1.
have F : fresh_ops disp x1 by case: (g_ops G1) => // m0; rewrite m0 in m1.
have [M [EM [[SQ SQQ Sphi SN] [SE SR]]]] := (hamilE rm_store G1).2.
have FM : fresh_ops disp (put_mem x1 M (x_LC x1)).
  by case: F => F1 F2 F3 F4 F5 F6 F7 F8; split=> //=; rewrite ?SQ ?SQQ ?Sphi ?SN ?SE ?SR.
have [ci Eci] := inv_unit (sy_unit Sy); have [_ Hci] := invP Eci.
rewrite /reported_grad EM /partial_H [ekind _ _]/= /= Eci EP' /cap_grad /= Eci (quad_QP _ FM).
set A := (X in quadratic_Q _ X); have A00 : A 0%N 0%N = 0.
  rewrite -A0 (ofME _ (Ordinal (ltnW h1)) (Ordinal (ltnW h1))) mxE /A.
  set n := t_n0 (x_st x1); rewrite -[mmul _ _ _ 0%N 0%N](mxE matrix_key (fun i j : 'I_n => mmul n _ _ i j) (Ordinal (ltnW h1)) (Ordinal (ltnW h1))).
  congr (- _); rewrite -[\matrix[_]_(_, _) _]/(toM n n (mmul _ _ _)) !toM_mmul toM_tr Hci.
  by rewrite !mulmxA.
have hn1 : hn (hof x1) = 1%N by rewrite /hn -[t_n _]/(x_n x1) n1.
have tot : total (hof x1) = 2%N by rewrite /total hn1 big_ord1 /hm -[h_m _]/(x_m x1) m1.
have SA i j : (i < hn (hof x1))%N -> (j < hn (hof x1))%N -> A i j = A j i by rewrite hn1; case: i j => [|i] [|j].
have Z a b : (a < 2)%N -> (b < 2)%N -> opt_entry (quadratic_Q (hof x1) A) a b = 0.
  move=> ha hb; rewrite -[opt_entry _ a b]/(oent _ a b) charge_form ?tot // /quad_form hn1 !big_ord1 A00 cR0 mul0r mulr0 //.
exists (quadratic_Q (hof x1) A); split=> //.
  split=> //; rewrite EC subrr scale0r addr0 /charge_coef.
  rewrite (two_coef n2 (etrans (congr1 (fun M => toM 2 2 M) eC) C1) (etrans (congr1 (fun st => t_R st 0%N 1%N) est) r01)).
  by rewrite est HcI.
rewrite Z // => D'.
have D2 := @cd_form 1 (fun v _ _ => charge_coef (C_at false rm_store x1 2 v) 1%N 1%N) (fun _ _ => - t_R (x_st x1) 1%N 1%N ^+ 2) (opQ (hof x1)) 0%N 0%N _ (fun i j _ _ => D).
have := cderiv_unique D2 D'; rewrite /quad_form !big_ord1.
have hc : hcharge (hof x1) 0%N = false by rewrite /hcharge /= est.
have m2 : hm (hof x1) 0%N = 2%N by rewrite /hm -[h_m _]/(x_m x1) m1.
have EQ a b : (a < 2)%N -> (b < 2)%N -> ent (opQ (hof x1) 0) a b = ent (charge_op_isolated (hof x1) 0) a b.
  by move=> ha hb; rewrite opQE hn1 /T /= /one_fam eqxx.
have dQ : dim (opQ (hof x1) 0) = 2%N by rewrite dim_opQ tot.
rewrite dQ !big_ord_recl big_ord0 /= -[bump 0 0]/1%N !EQ // => E.
have q01 : ent (charge_op_isolated (hof x1) 0) 0%N 1%N != 0.
  by apply: (@iso_amp (hof x1) Capacitive 0); rewrite ?hc ?m2 //= est.
have EI : charge_op_isolated (hof x1) 0 = oscale (- 'i * (q_zp (himp (hof x1) 0))%:C) (osub (destroy 2) (create 2)).
  by rewrite /charge_op_isolated hc m2.
have q00 : ent (charge_op_isolated (hof x1) 0) 0%N 0%N = 0.
  by rewrite EI; change (- 'i * (q_zp (himp (hof x1) 0))%:C * ((0 : C) - (0 : C)^*) = 0); rewrite cj0 subr0 mulr0.
have q10 : ent (charge_op_isolated (hof x1) 0) 1%N 0%N = - ent (charge_op_isolated (hof x1) 0) 0%N 1%N.
  rewrite EI; set q := - 'i * _; change (q * ((0 : C) - ((sqrt (INR 1))%:C)^*) = - (q * ((sqrt (INR 1))%:C - (0 : C)^*))).
  by rewrite cj0 sub0r subr0 cjR mulrN.
move: E; rewrite q00 mul0r add0r addr0 q10 mulrN => /eqP; rewrite !mulf_eq0 oppr_eq0 invr_eq0 Num.Theory.pnatr_eq0 /=.
rewrite !mulf_eq0 !(negbTE q01) !orbF (inj_eq (@complexI _)) oppr_eq0 sqrf_eq0 => /eqP E.
by apply: r11; rewrite -est.
Qed.
Print Assumptions C64_removed_refuted.

(** For a mode that is not a charge mode all four functions raise ValueError; on a
    charge mode the mixed derivative is the number 0 for anything but a capacitor, and
    a capacitor that contributes to no branch raises ValueError. *)
From Verif.Model Require TorchRates.
Theorem C50_arguments s x i :
  (~~ is_charge (x_st x) i -> forall c m n eps,
    [/\ partial_H_ng x i = Err ValueError, partial_squared_H_ng s x i c = Err ValueError,
        TorchRates.partial_omega_ng x i m n = Err ValueError &
        TorchRates.partial_squared_omega_mn_ng s x c m n eps i = Err ValueError]) /\
  (is_charge (x_st x) i ->
    (forall l, partial_squared_H_ng s x i (CLoop l) = Ok None) /\
    (forall el, ekind s el <> KCap -> partial_squared_H_ng s x i (CEl el) = Ok None) /\
    (forall el, ekind s el = KCap -> toM (t_n0 (x_st x)) (t_n0 (x_st x)) (x_C x) \in unitmx -> c_pm (x_c x) el = None ->
       partial_squared_H_ng s x i (CEl el) = Err ValueError)).
Proof.
split=> [nc c m n eps|ch].
  by rewrite /partial_H_ng /partial_squared_H_ng /TorchRates.partial_omega_ng /TorchRates.partial_squared_omega_mn_ng nc.
split; first by move=> l; rewrite /partial_squared_H_ng ch.
split=> [el|el k u none]; rewrite /partial_squared_H_ng ch /=; first by case: ekind.
by rewrite k none; have [ci ->] := inv_unit u.
Qed.
Print Assumptions C50_arguments.
