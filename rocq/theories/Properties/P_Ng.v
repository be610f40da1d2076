(** C66: the operator behind the charge-noise rates. *)
From Coq Require Import Reals ZArith String Lra Lia.
From Verif.Model Require Import Base Units Noise Elements Edge LCWB Accuracy HamConst PartialConst RateConst.
From Verif.Spec Require Import ThermalSpec.
From Verif.Proofs Require Import HamConstProofs ThermalProofs.

Lemma two_e_pos : (0 < 2 * e_charge)%R.
Proof. unfold e_charge; lra. Qed.
Lemma root_hbar : sqrt hbar <> 0%R.
Proof. apply Rgt_not_eq, sqrt_lt_R0, hbar_pos. Qed.
Lemma lowest_charge : charge_at 3 0 = Ropp R1.
Proof. unfold charge_at; simpl; lra. Qed.
Definition two_e : R := (2 * e_charge)%R.
Lemma amp_abs d p A : (d = - two_e * p -> Rabs (Rabs p * charge_amp A) = Rabs d * Rabs A)%R.
Proof.
  intros ->. unfold charge_amp, two_e. rewrite !Rabs_mult, Rabs_Rabsolu, Rabs_Ropp.
  rewrite Rabs_mult. rewrite (Rabs_right 2) by lra. ring.
Qed.
Lemma mode_label i : (1 <=? Z.of_nat i + 1)%Z = true /\ Z.to_nat (Z.of_nat i + 1 - 1) = i.
Proof. split; [apply Z.leb_le; lia | rewrite Z.add_simpl_r; apply Nat2Z.id]. Qed.

From mathcomp Require Import all_ssreflect all_algebra.
From mathcomp Require Import complex.
From Verif.Numerics Require Import RStruct Bridge.
From Verif.Model Require Import Transform Op Ham Diag CircuitSM Partial DecRate.
From Verif.Spec Require Import OpSpec SessionSpec GradSpec PerturbSpec DecSpec.
From Verif.Proofs Require Import OpProofs HamProofs HamProofs2 HamProofs3 HamProofs6 CDeriv SMProofs SMProofs2 SMProofs3 MemProofs
  GradProofs SymProofs NgProofs PerturbProofs PerturbProofs2 DecProofs DecProofs2 DecProofs3.
From Verif.Properties Require Import P_Decoherence P_Gradient P_Perturb.

Set Implicit Arguments.
Unset Strict Implicit.
Unset Printing Implicit Defensive.
Import GRing.Theory.
Local Open Scope ring_scope.
Local Open Scope complex_scope.

(** The Hamiltonian as a function of the offset of one mode, set by
    [set_charge_offset] (modes are numbered from 1). *)
Definition mode_of (i : nat) : option Z := Some (Z.add (Z.of_nat i) (Zpos xH)).
Definition charge_family (s : store) (x : circ) (disp : nat -> C -> op) (i : nat) (t : R) (a b : nat) : C :=
  res_entry (hamil s (set_offset (mode_of i) t x).1).2 a b.

Lemma modulus_real (p : R) : modulus2 p%:C = p * p.
Proof. by rewrite /modulus2 !expr2; change (p * p + (0 : R) * (0 : R) = p * p :> R); rewrite mul0r addr0. Qed.
Lemma racc_err (K : Type) (f : K -> res op) ks e : foldl (racc f) (Err e) ks = Err e.
Proof. by elim: ks. Qed.
Lemma racc_some (K : Type) (f : K -> res op) ks : forall acc P, foldl (racc f) acc ks = Ok P ->
  (exists A, acc = Ok (Some A)) \/ ks <> [::] -> P <> None.
Proof.
elim: ks => [|k ks IH] acc P /=; first by move=> -> [[A [->]]|].
move=> E H; apply: (IH _ _ E).
move: E; rewrite /racc; case: acc H => [Q|e] H; last by rewrite racc_err.
case: (f k) => [X|e] E; last by rewrite racc_err in E.
by left; case: Q {H E} => [A|]; eexists.
Qed.

Section Session.
Variables (disp : nat -> C -> op) (optim : bool) (o : oracle) (s0 : store) (lobj : nat -> lrec) (fd : string).
Variables (d : seq (edge * seq nat)) (x0 : circ) (u : ustate) (cs : seq call) (tr : seq (world * res unit)).
Hypothesis dims : forall m a, dim (disp m a) = m.
Hypothesis built_ok : construct optim o s0 lobj fd d = Some (Ok x0).
Hypothesis session : run disp optim (mkW s0 u x0) cs = Some tr.
Hypothesis updates : updates_ok optim (mkW s0 u x0) cs tr.
Let s := w_s (final (mkW s0 u x0) tr).
Let x := w_x (final (mkW s0 u x0) tr).
Variable H0 : op.
Hypothesis formed : (hamil s x).2 = Ok H0.

Let G : good disp x.
Proof. exact: good_run (good_construct disp built_ok : good disp (w_x (mkW s0 u x0))) session updates. Qed.
Let Sy : cI_sym (x_st x).
Proof. exact: (sym_session (w := mkW s0 u x0) (sym_construct built_ok) session updates). Qed.
Let F : fresh_ops disp x.
Proof.
by case: (g_ops G) => // m0; move: formed; have [-> _] := hamilE s G; rewrite /ham_of /hamiltonian /= m0.
Qed.
Let N := dim H0.
Let Nt : N = total (hof x).
Proof. by have [E _] := hamilE s G; move: formed; rewrite E => /(hamiltonian_ok dims) []. Qed.

Let isl_i i : (i < x_n x)%N -> is_charge (x_st x) i -> island_of (mode_of i) x = Some i.
Proof.
move=> hi ch; rewrite /island_of /mode_of; have [-> ->] := mode_label i.
by rewrite /= (g_charge G hi ch).
Qed.

(** For every charge mode the operator exists, and -2e times it is the derivative
    of every entry of the Hamiltonian with respect to the offset set by
    [set_charge_offset]. *)
Theorem C66_operator i : (i < x_n x)%N -> is_charge (x_st x) i ->
  (forall t, exists A, (hamil s (set_offset (mode_of i) t x).1).2 = Ok A) /\
  exists P, [/\ partial_H_ng x i = Ok (Some P), dim P = N &
    forall a b, (a < N)%N -> (b < N)%N ->
      cderiv (fun t => charge_family s x disp i t a b) (ng_of x i) (- two_e%:C * ent P a b)].
Proof.
move=> hi ch; have Ei := isl_i hi ch; split.
  by move=> t; apply: (@hamil_at disp s x i _ t G Ei); exists H0.
have [P EP HP] := ng_op F ch.
have [A EA dA] : exists2 A, P = Some A & dim A = N.
  move: EP; rewrite /partial_H_ng ch /=; set f := (X in racc X) => EP.
  have dd : sized N P.
    apply: (racc_dim (f := f) _ _ EP) => [j A hj|Q [<-] //].
    rewrite /f (fo_Q F) -map_comp (nth_map 0%N) ?size_iota; last by have /inP := hj; rewrite mem_iota.
    by case=> <- /=; rewrite dim_opQ Nt.
  case: P dd EP {HP} => [A dA _|_]; first by exists A.
  by move=> E; exfalso; apply: (racc_some E) => //; right; case: (x_n x) hi.
exists A; split=> //; first by rewrite EP EA.
move=> a b ha hb; rewrite Nt in ha hb.
apply: cd_eq (ng_slope G Sy Ei hi ch (ex_intro _ H0 formed) ha hb) _.
have := HP a b; rewrite EA /= => ->.
rewrite !mulNr; congr (- _); rewrite !mulr_sumr; apply: eq_bigr => j _.
rewrite !mulrA -!cRM; congr (_%:C * _); exact: (unit_ng _ root_hbar).
Qed.

(** ** The charge dephasing rate *)
Variables (eigs : eigs_fun) (argsort : seq C -> seq nat) (k : option Z) (x1 : circ) (r : seq R * seq cvec).
Hypothesis diagonalised : diag_sm eigs argsort u k s x = (x1, Ok r).

Let x1E : x_st x1 = x_st x /\ x_isl x1 = x_isl x /\ M_Q (x_mem x1) = M_Q (x_mem x).
Proof.
have [_ [M [E0 [[SQ _ _ _] _]]]] := hamilE s G.
move: diagonalised; rewrite /diag_sm; case: ifP => // _; case: (k) => [k'|] //.
move: E0; case: hamil => xh h /= ->; case: diag => e r' [<- _]. by [].
Qed.

Let ng_same i : partial_H_ng x1 i = partial_H_ng x i.
Proof. by have [E1 [_ E3]] := x1E; rewrite /partial_H_ng /x_n E1 E3. Qed.

Let fam_herm i t : (i < x_n x)%N -> is_charge (x_st x) i -> hermitian N (charge_family s x disp i t).
Proof.
move=> hi ch; have [HA _] := C66_operator hi ch; have [A EA] := HA t.
move=> a b ha hb; rewrite /charge_family EA /=.
have [E _] := hamilE s (good_set_offset (mode_of i) t G); move: EA; rewrite E /ham_of (hof_offset t (isl_i hi ch)).
by move=> /(hamiltonian_ok dims) [dA [_ hA]]; apply: hA; rewrite dA -[total (h_at _ _ _)]/(total (hof x)) -Nt.
Qed.

(** States m and n, followed as each of the offsets varies. *)
Variables (m n : Z) (vm vn : cvec) (V V' : nat -> R -> nat -> C) (W W' : nat -> R -> R).
Variables (dV dV' : nat -> nat -> C) (dW dW' : nat -> R).
Hypothesis Bm : forall i, (i < x_n x)%N -> is_charge (x_st x) i ->
  branch N (charge_family s x disp i) (ng_of x i) (V i) (W i) (dV i) (dW i) /\ V i (ng_of x i) = vm.
Hypothesis Bn : forall i, (i < x_n x)%N -> is_charge (x_st x) i ->
  branch N (charge_family s x disp i) (ng_of x i) (V' i) (W' i) (dV' i) (dW' i) /\ V' i (ng_of x i) = vn.
Hypothesis nm : dot N vm vm = 1.
Hypothesis nn : dot N vn vn = 1.

Let bra i P (vv : nat -> R -> nat -> C) ww dv dw v0 : (i < x_n x)%N -> is_charge (x_st x) i ->
  branch N (charge_family s x disp i) (ng_of x i) (vv i) ww dv dw -> vv i (ng_of x i) = v0 -> dot N v0 v0 = 1 ->
  partial_H_ng x i = Ok (Some P) -> dw%:C = - two_e%:C * braket v0 P v0.
Proof.
move=> hi ch B Ev n1 EP; have [_ [P' [EP' dP HP]]] := C66_operator hi ch.
rewrite EP in EP'; case: EP' => EP'; subst P'.
have := slope_dot B HP (fam_herm _ hi ch); rewrite Ev => /(_ n1) <-.
rewrite /braket dP /dot mulr_sumr; apply: eq_bigr => a _; rewrite /apply_to !mulr_sumr.
by apply: eq_bigr => b _; rewrite mulrA [X in X * _]mulrCA -!mulrA.
Qed.

(** The rate is the sum over the charge modes of the sensitivity of the transition
    frequency to the offset times the noise amplitude of the island. *)
Theorem C66_charge_rate E q total w1 w2 rate K : low_frequency E K ->
  dec_rate E s q x1 (Some DCharge) m n total = Ok (Some rate) -> levels x1 m n w1 w2 vm vn ->
  exists A : nat -> R, (forall i, (i < x_n x)%N -> is_charge (x_st x) i -> isl x i = Some (ng_of x i, A i)) /\
    rate = \sum_(i <- iota 0 (x_n x) | is_charge (x_st x) i) Rabs (dW i - dW' i) * Rabs (A i) * K.
Proof.
move=> lf EE L; have [P [A [HP ->]]] := C61_charge lf EE L; have [E1 [E2 _]] := x1E.
rewrite /x_n E1 in HP *; exists A; split=> [i hi ch|].
  by have [_ [g Eg]] := HP i hi ch; rewrite /ng_of; move: Eg; rewrite /isl E2 => ->.
rewrite big_seq_cond [RHS]big_seq_cond; apply: eq_bigr => i /andP [].
rewrite mem_iota add0n => /andP [_ hi] ch; have [EP _] := HP i hi ch; rewrite ng_same in EP.
have [B1 e1] := Bm hi ch; have [B2 e2] := Bn hi ch.
have D1 := bra hi ch B1 e1 nm EP; have D2 := bra hi ch B2 e2 nn EP.
congr (_ * K); have t0 : two_e%:C != 0 by rewrite (inj_eq (@complexI _)); apply/eqP/Rgt_not_eq/two_e_pos.
pose p := - (dW i - dW' i) / two_e.
have Ep : braket vm (P i) vm - braket vn (P i) vn = p%:C.
  have F1 : two_e%:C * braket vm (P i) vm = - (dW i)%:C by rewrite D1 mulNr opprK.
  have F2 : two_e%:C * braket vn (P i) vn = - (dW' i)%:C by rewrite D2 mulNr opprK.
  apply: (mulfI t0); rewrite mulrBr F1 F2 -cRM -!cRN -cRD; congr (_%:C).
  by rewrite /p mulrCA mulfV ?mulr1 ?opprB ?opprK 1?addrC //; apply/eqP/Rgt_not_eq/two_e_pos.
have Em := modulus_real p.
rewrite Ep Em.
have -> : sqrt (p * p) = Rabs p by rewrite -sqrt_Rsqr_abs.
apply: amp_abs; rewrite /p; change (dW i - dW' i = - two_e * (- (dW i - dW' i) / two_e)).
by rewrite mulrCA mulrA mulrNN mulrK //; apply/unitrP; exists (two_e^-1); rewrite mulVf ?mulfV //; apply/eqP/Rgt_not_eq/two_e_pos.
Qed.
End Session.
Print Assumptions C66_operator.
Print Assumptions C66_charge_rate.

(** Case: the lowest charge state of the three-state mode above at offset 0 has
    charge -2e, and its energy rises by charge_unit^2 per Cooper pair of offset. *)
Lemma squid_charge disp : ent (opQ (hof (squid disp)) 0) 0%N 0%N = - charge_unit%:C.
Proof.
have ch : hcharge (hof (squid disp)) 0%N by rewrite /hcharge /is_charge /=.
rewrite opQE /T /= /one_fam /= /charge_op_isolated ch; cbn [ent oscale osub oadd qcharge oeye odiag]; rewrite eqxx.
by rewrite -[h_ng _ _]/(0 : R) mul0r subr0 -[hm _ _]/3%N lowest_charge cRN mulrN1.
Qed.
Example C66_case disp :
  (exists P, partial_H_ng (squid disp) 0 = Ok (Some P) /\ ent P 0 0 = - (ng_coef charge_unit)%:C) /\
  cderiv (fun t => charge_family squid_store (squid disp) disp 0 t 0%N 0%N) 0 (charge_unit * charge_unit)%:C.
Proof.
have Rg := squid_regular disp; have G := rg_good Rg.
have ch : is_charge (x_st (squid disp)) 0%N by rewrite /is_charge /=.
have F : fresh_ops disp (squid disp) by case: (g_ops G).
have Q0 := squid_charge disp.
split.
  have [P EP HP] := ng_op F ch; have := HP 0%N 0%N.
  case: P EP HP => [P|] EP HP; last by move: EP; rewrite /partial_H_ng ch.
  rewrite big_ord1 Q0 /= => E; exists P; split=> //; rewrite E.
  have -> : ng_coef charge_unit = (ng_coef R1 * charge_unit)%R by rewrite /ng_coef /Rdiv Rmult_1_l Rmult_comm.
  by rewrite mulrN -cRM.
have sy : cI_sym (x_st (squid disp)) by [].
have t3 : total (hof (squid disp)) = 3%N by rewrite /total big_ord1.
have := @ng_slope disp squid_store (squid disp) 0%N (mode_of 0) 0%N 0%N G sy erefl isT ch (rg_ham Rg).
rewrite t3 => /(_ isT isT) D; apply: cd_eq D _.
by rewrite big_ord1 Q0 -[t_cI _ _ _]/(1 : R) mul1r mulrNN -cRM.
Qed.
