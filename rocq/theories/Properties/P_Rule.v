(** P_Rule.v -- C102: currents into an island, and the sum rule of its charge. *)
From Coq Require Import Reals ZArith Lia Lra String List.
From Verif.Model Require Import Base Units Settings Edge Elements LCWB Rounding Accuracy HamConst.
From Verif.Spec Require Import GraphSpec CircuitSpec ThermalSpec.
From Verif.Proofs Require Import ElementsProofs AccProofs LCWBProofs OneNode.
Lemma pair_pos : (0 < 2 * e_charge / sqrt hbar)%R.
Proof. apply Rdiv_lt_0_compat. unfold e_charge; lra. apply sqrt_lt_R0. exact hbar_pos. Qed.
Lemma pair_sq x : (2 * e_charge / sqrt hbar * (2 * e_charge / sqrt hbar) * x = 2 * ((2 * e_charge) * (2 * e_charge) / (2 * hbar) * x))%R.
Proof.
assert (h := hbar_pos). assert (s := sqrt_sqrt _ (Rlt_le _ _ h)). assert (p := sqrt_lt_R0 _ h).
rewrite <- s at 3. field. lra.
Qed.
Lemma twice_eq x y : (2 * x = 2 * y -> x = y)%R. Proof. lra. Qed.
Lemma mul_le_1 x y : (0 <= x -> y <= 1 -> x * y <= x)%R. Proof. intros. nra. Qed.
From mathcomp Require Import all_ssreflect all_algebra.
From mathcomp Require Import complex ring zify.
From Verif.Numerics Require Import RStruct Bridge.
From Verif.Model Require Import FluxDist Op Transform Ham Diag CircuitSM Operators.
From Verif.Spec Require Import OpSpec TransSpec SymmetrySpec OneNodeSpec PerturbSpec LevelsSpec LinearSpec SessionSpec LossSpec RuleSpec.
From Verif.Proofs Require Import OpProofs HamProofs HamProofs2 HamProofs6 GradProofs MinMaxProofs ExpProofs2 ContractProofs OrderProofs ChargeRule.
From Verif.Proofs Require Import SMProofs SMProofs2 SMProofs3 LossSession.
From Verif.Properties Require Import P_Levels P_Operators P_OneNode P_Order P_Parallel P_Strong.

Set Implicit Arguments.
Unset Strict Implicit.
Unset Printing Implicit Defensive.
Import GRing.Theory.
Local Open Scope ring_scope.
Local Open Scope complex_scope.

Lemma moved_sq w : moved w != 0 -> moved w * moved w = 1.
Proof. by rewrite /moved; case: ifP => _; [rewrite -RmultE => _; rewrite -[RHS]/R1; lra|case: ifP => _; rewrite ?mulr1 ?eqxx]. Qed.

Section Rule.
Variables (disp : nat -> C -> op) (h : hin) (val : nat -> R) (loops : seq R) (B : arr) (ks : keys) (A : op) (i k : nat).
Variables (E : nat -> R) (v : nat -> nat -> C).
Hypothesis disp_dim : forall m a, dim (disp m a) = m.
Hypothesis EA : hamiltonian disp h val loops B ks = Ok A.
Hypothesis L : levels_of A E v.
Hypothesis hk : (k < dim A)%N.
(** An island. *)
Hypothesis hi : (i < hn h)%N.
Hypothesis ch : hcharge h i.
Let phase (j : edge * nat * nat * nat) := ext_flux loops B j.1.2.
Let coupling (j : edge * nat * nat * nat) := t_wT (h_st h) j.2 i.

Lemma dimJ p w : dim (jj_sin (jj_exp disp h p w)) = total h /\ dim (jj_cos (jj_exp disp h p w)) = total h.
Proof. by split; rewrite /= exp_dim. Qed.

(** The mean currents E_J sin into the island sum to zero in every energy level. *)
Theorem C102_currents :
  \sum_(j <- k_jj ks) val j.1.1.2 * moved (coupling j) * expect (jj_sin (jj_exp disp h (phase j) j.2)) (v k) = 0.
Proof.
have Z := currents disp_dim hi ch EA L hk.
pose tw (M : nat -> nat -> C) := \sum_(a < total h) \sum_(b < total h) (v k a)^* * (M a b * v k b).
have Z2 : \sum_(j <- k_jj ks) (val j.1.1.2 * moved (coupling j))%:C * tw (sinent disp h (phase j) j.2) = 0.
  have nz : 'i * pair_charge%:C != 0.
    by rewrite mulf_eq0 negb_or i_neq0 /=; apply/eqP => -[] e; have := pair_pos; rewrite -[Rdiv _ _]/pair_charge e => /Rlt_irrefl.
  apply: (mulfI nz); rewrite mulr0 -[RHS]Z mulr_sumr; apply: eq_bigr => j _; rewrite !cRM.
  by rewrite -[t_wT _ _ _]/(coupling j) -/(tw _); move: ('i : C) (val _)%:C (moved _)%:C pair_charge%:C (tw _) => a b c d e; ring.
have := congr1 (@complex.Re _) Z2; rewrite OrderProofs.Re_sum => Z3; rewrite -[RHS]Z3; apply: eq_bigr => j _.
rewrite Re_scale; congr (_ * complex.Re _); have [-> _] := dimJ (phase j) j.2.
by apply: eq_bigr => a _; rewrite mulr_sumr.
Qed.

(** The squared charges of the transitions from a level, weighted by their energies, sum to
    (2e)^2/2 times the mean Josephson energy of the junctions at the island. *)
Theorem C102_rule :
  \sum_(j < dim A) (E j - E k) * strength (element (opQ h i) (v j) (v k)) =
  Rmult (Rdiv (Rmult (Rmult 2 e_charge) (Rmult 2 e_charge)) (Rmult 2 hbar))
    (\sum_(j <- k_jj ks | moved (coupling j) != 0) val j.1.1.2 * expect (jj_cos (jj_exp disp h (phase j) j.2)) (v k)).
Proof.
have T := transitions disp_dim hi ch EA L hk.
have [dA _] := hamiltonian_ok disp_dim EA.
pose tw (M : nat -> nat -> C) := \sum_(a < total h) \sum_(b < total h) (v k a)^* * (M a b * v k b).
have := congr1 (@complex.Re _) T; rewrite OrderProofs.Re_sum dA.
have -> : 2%:R = (IZR 2)%:C :> C by rewrite -[2%:R]/(1 + 1) -cR1 -cRD -RplusE; congr (_%:C); lra.
rewrite -rmorphM ReR => T2; apply: twice_eq; rewrite RmultE [LHS]T2 -pair_sq -/pair_charge.
rewrite [X in _ = Rmult _ X]big_mkcond !RmultE mulr_sumr; apply: eq_bigr => j _.
rewrite -[t_wT _ _ _]/(coupling j) -/(tw _) Re_scale.
rewrite mulrA -cRM Re_scale.
have -> : complex.Re (tw (jjent disp h (ext_flux loops B j.1.2) j.2)) = expect (jj_cos (jj_exp disp h (phase j) j.2)) (v k).
  rewrite /expect; have [_ ->] := dimJ (phase j) j.2; congr complex.Re.
  by apply: eq_bigr => a _; rewrite mulr_sumr.
move: (expect _ _) (val _) => x y; case: (eqVneq (moved (coupling j)) 0) => [->|nz]; first by rewrite !mulr0 !mul0r mulr0.
have := moved_sq nz; move: (moved _) pair_charge => t p e; transitivity (p * p * (t * t) * (y * x)); first by ring.
by rewrite e mulr1.
Qed.
End Rule.
Print Assumptions C102_currents.
Print Assumptions C102_rule.

(** From the ground level no transition exceeds it: the squared charge of a transition is at
    most (2e)^2/2 times the Josephson energies at the island over the energy of the transition. *)
Theorem C102_bound disp h val loops B ks A i E v j : exponential disp ->
  hamiltonian disp h val loops B ks = Ok A -> levels_of A E v -> (j < dim A)%N -> (i < hn h)%N -> hcharge h i ->
  (forall k, List.In k (k_jj ks) -> Rle 0 (val k.1.1.2)) ->
  Rle (Rmult (Rminus (E j) (E 0%N)) (strength (element (opQ h i) (v j) (v 0%N))))
      (Rmult (Rdiv (Rmult (Rmult 2 e_charge) (Rmult 2 e_charge)) (Rmult 2 hbar))
         (\sum_(k <- k_jj ks | moved (t_wT (h_st h) k.2 i) != 0) val k.1.1.2)).
Proof.
move=> ex EA L hj hi ch vp; have D := exp_disp_dims ex; have U m a := disp_unitary ex m a.
have n0 : (0 < dim A)%N by exact: leq_ltn_trans hj.
have [dA _] := hamiltonian_ok D EA; have [_ w1] := ground_expect L n0; rewrite dA in w1.
have [asc _ _] := L.
have := C102_rule D EA L n0 hi ch; rewrite (bigD1 (Ordinal hj)) //= => R0.
apply: (@Rle_trans _ (\sum_(j0 < dim A) (E j0 - E 0%N) * strength (element (opQ h i) (v j0) (v 0%N)))).
  apply/RleP; rewrite (bigD1 (Ordinal hj)) //= -RmultE -RminusE Num.Theory.ler_addl; apply: Num.Theory.sumr_ge0 => k _.
  apply: Num.Theory.mulr_ge0; last exact: nrm_ge0.
  by rewrite Num.Theory.subr_ge0; apply/RleP; apply: asc; rewrite leq0n ltn_ord.
rewrite (C102_rule D EA L n0 hi ch); apply: Rmult_le_compat_l.
  have hb := hbar_pos; apply: Rlt_le; apply: Rdiv_lt_0_compat; last by lra.
  by rewrite /e_charge; lra.
elim: (k_jj ks) vp {EA R0} => [|k l IH] vp; first by rewrite !big_nil; exact: Rle_refl.
have le : Rle (\sum_(j1 <- l | moved (t_wT (h_st h) j1.2 i) != 0) val j1.1.1.2 * expect (jj_cos (jj_exp disp h (ext_flux loops B j1.1.2) j1.2)) (v 0%N)) (\sum_(j1 <- l | moved (t_wT (h_st h) j1.2 i) != 0) val j1.1.1.2).
  by apply: IH => k' hk'; apply: vp; right.
rewrite !big_cons; case: ifP => // _; rewrite -RplusE; apply: Rplus_le_compat => //; rewrite -RmultE.
apply: mul_le_1; first by apply: vp; left.
rewrite /expect; have [_ ->] := dimJ h D (ext_flux loops B k.1.2) k.2.
have := quad_jj disp h (v 0%N) (ext_flux loops B k.1.2) k.2; rewrite /quad => ->; rewrite ReR.
by have /RleP := phase_weight h U D k.2 (v 0%N) (ext_flux loops B k.1.2); rewrite w1.
Qed.
Print Assumptions C102_bound.

(** ** Circuits and charge_op() *)
Section Session.
Variables (disp : nat -> C -> op) (optim : bool) (o : oracle) (s s1 : store) (lobj : nat -> lrec) (fd : string).
Variables (d : seq (edge * seq nat)) (x0 : circ) (u : ustate) (cs : seq call) (tr : seq (world * res unit)).
Hypothesis disp_dim : forall m a, dim (disp m a) = m.
Hypothesis made : construct optim o s lobj fd d = Some (Ok x0).
Hypothesis session : run disp optim (mkW s u x0) cs = Some tr.
Hypothesis updates : updates_ok optim (mkW s u x0) cs tr.
Let x := w_x (final (mkW s u x0) tr).
Hypothesis truncated : x_m x <> [::].

Theorem C102_charge_op A E v i k Q : (hamil s1 x).2 = Ok A -> levels_of A E v -> (k < dim A)%N ->
  (i < x_n x)%N -> is_charge (x_st x) i -> charge_op x (Z.of_nat i.+1) "original" = Ok Q ->
  \sum_(j <- c_keys_jj (x_c x)) evalue s1 j.1.1.2 * moved (t_wT (x_st x) j.2 i) *
     expect (jj_sin (jj_exp disp (hof x) (ext_flux [seq lvalue s1 l | l <- c_loops (x_c x)] (x_B x) j.1.2) j.2)) (v k) = 0 /\
  \sum_(j < dim A) (E j - E k) * strength (element Q (v j) (v k)) =
  Rmult (Rdiv (Rmult (Rmult 2 e_charge) (Rmult 2 e_charge)) (Rmult 2 hbar))
    (\sum_(j <- c_keys_jj (x_c x) | moved (t_wT (x_st x) j.2 i) != 0)
      evalue s1 j.1.1.2 * expect (jj_cos (jj_exp disp (hof x) (ext_flux [seq lvalue s1 l | l <- c_loops (x_c x)] (x_B x) j.1.2) j.2)) (v k)).
Proof.
have G0 : good disp (w_x (mkW s u x0)) := good_construct disp made.
have G : good disp x := good_run G0 session updates.
have [-> _] := hamilE s1 G; rewrite /ham_of => EA L hk hi ch.
rewrite (C71_charge_op made session updates truncated hi) => -[<-].
by split; [exact: (C102_currents disp_dim EA L hk hi ch)|exact: (C102_rule disp_dim EA L hk hi ch)].
Qed.
End Session.
Print Assumptions C102_charge_op.

(** ** Case: a junction of 6 rad/s and five charge states *)
Example C102_case disp ng : exponential disp ->
  let h := LevelsSpec.truncated (P_Levels.box ng) [:: 3]%N in
  let ks := mkKeys [::] [:: ((Z0, Zpos xH), 0, 0, 0)]%N in
  exists A E v, [/\ hamiltonian disp h (fun=> IZR 6) [::] (fun _ _ => 0) ks = Ok A, dim A = 5%N, levels_of A E v,
    expect (jj_sin (jj_exp disp h 0 0)) (v 0%N) = 0 &
    Rle (Rmult (Rminus (E 1%N) (E 0%N)) (strength (element (opQ h 0) (v 1%N) (v 0%N))))
        (Rmult (Rdiv (Rmult (Rmult 2 e_charge) (Rmult 2 e_charge)) (Rmult 2 hbar)) (IZR 6))].
Proof.
move=> ex h ks; have D := exp_disp_dims ex.
have ch : hcharge h 0 = true by exact: P_Levels.box_charge.
have LC : LC_hamil h = Some (oscale (halfR 1)%:C (opQQ h 0 0)) by rewrite /LC_hamil /= /LC_term ch /quad_cI eqxx.
have [A EA] : exists A, hamiltonian disp h (fun=> IZR 6) [::] (fun _ _ => 0) ks = Ok A.
  by eexists; rewrite /hamiltonian /ind_hamil /= LC; reflexivity.
have [dA hA] := hamiltonian_ok D EA.
have m5 : hm h 0 = 5%N by rewrite trunc_hm // box_charge.
have d5 : dim A = 5%N by rewrite dA /HamProofs.total big_ord_recr big_ord0 m5.
have [E [v L]] := energies_exist hA.
have n0 : (0 < dim A)%N by rewrite d5.
have n1 : (1 < dim A)%N by rewrite d5.
have mv : moved (t_wT (h_st h) 0%N 0%N) = 1.
  have p := Rlt_0_1; rewrite -[t_wT _ _ _]/R1 /moved.
  by destruct (Rlt_dec R1 0) as [n|n]; [case: (Rlt_asym _ _ n p)|destruct (Rlt_dec 0 R1) as [n'|n']].
exists A, E, v; split=> //.
  have := C102_currents D EA L n0 (isT : (0 < hn h)%N) ch; rewrite big_seq1 [_.2]/= mv mulr1 /= => /eqP.
  rewrite mulf_eq0 => /orP [/eqP e|/eqP <-]; first by have {}e : IZR 6 = R0 := e; lra.
  by congr (expect (jj_sin (jj_exp _ _ _ _))); rewrite /ext_flux big_ord0.
have := C102_bound ex EA L n1 (isT : (0 < hn h)%N) ch; rewrite big_mkcond big_seq1 [_.2]/= mv oner_eq0 /=.
by apply=> k _; lra.
Qed.
