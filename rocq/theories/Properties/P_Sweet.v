(** P_Sweet.v -- C95: bias points unchanged by reversal of fluxes and charges. *)
From Coq Require Import Reals ZArith Lia Lra String List.
From Verif.Model Require Import Base Units Noise Edge Elements LCWB Accuracy HamConst PartialConst Thermal RateConst.
From Verif.Spec Require Import GraphSpec CircuitSpec ThermalSpec.
From Verif.Proofs Require Import AccProofs LCWBProofs OneNode.
From mathcomp Require Import all_ssreflect all_algebra.
From mathcomp Require Import complex ring.
From Verif.Numerics Require Import RStruct Bridge.
From Verif.Model Require Import FluxDist Transform Op Ham Diag CircuitSM Partial DecRate.
From Verif.Spec Require Import OpSpec TransSpec GradSpec EigSpec DecSpec SymmetrySpec OneNodeSpec SweetSpec.
From Verif.Proofs Require Import OpProofs HamProofs HamProofs2 HamProofs5 HamProofs6 GradProofs DecProofs DecProofs3
  TransProofs PartsProofs OneNodeTrans OneNodeHam SymmetryProofs SymmetryProofs2 SymmetryProofs3 SymmetryProofs4 SweetProofs SweetProofs2.
From Verif.Properties Require Import P_OneNode.

Set Implicit Arguments.
Unset Strict Implicit.
Unset Printing Implicit Defensive.
Import GRing.Theory.
Local Open Scope ring_scope.
Local Open Scope complex_scope.

Section Levels.
Variables (disp : nat -> C -> op) (h : hin) (val : nat -> R) (loops : seq R) (B : arr) (ks : keys) (A : op).
Hypothesis D : displaces disp.
Hypothesis F : inductor_free h ks.
Hypothesis EA : hamiltonian disp h val loops B ks = Ok A.
Hypothesis St : still loops B ks.
Let dA : dim A = total h. Proof. by have [] := hamiltonian_ok D.1 EA. Qed.

(** A level that is alone at its energy is its own reversal, up to a phase. *)
Theorem C95_real z v : lone A z v ->
  exists2 c : C, c^* * c = 1 & forall I, (I < dim A)%N -> rev_state h v I = c * v I.
Proof.
move=> L; rewrite dA; apply: (lone_rev dA L).
by apply: (ham_reversed D F EA); rewrite (still_ham _ _ _ St).
Qed.

(** Without gate charges it is even or odd. *)
Theorem C95_parity z v : uncharged h -> lone A z v -> exists p, of_parity h p v.
Proof.
move=> U L; apply: (lone_mir dA L).
by apply: (ham_mirrored D F EA); rewrite uncharged_same // (still_ham _ _ _ St).
Qed.

(** Matrix elements between levels of the same parity vanish for branch charges, branch
    fluxes and the sine of a junction, and between levels of different parity for the
    cosine. *)
Theorem C95_elements p v w : uncharged h -> of_parity h p v ->
  (of_parity h p w ->
   [/\ forall i, (i < hn h)%N -> inner v (opQ h i) w = 0,
       forall e X, coupling_op h (Some Capacitive) e = Ok X -> inner v X w = 0,
       forall k X, List.In k (k_ind ks) -> coupling_op h (Some Inductive_) k.1.1 = Ok X -> inner v X w = 0 &
       forall k, List.In k (k_jj ks) -> inner v (jj_sin (jj_exp disp h (ext_flux loops B k.1.2) k.2)) w = 0]) /\
  (of_parity h (~~ p) w ->
   forall k, List.In k (k_jj ks) -> inner v (jj_cos (jj_exp disp h (ext_flux loops B k.1.2) k.2)) w = 0).
Proof.
move=> U pv; have sq : -1 * (psign p * psign p) = -1 by rewrite /psign; case: (p); rewrite ?(mulr1, mulN1r, opprK).
split=> pw.
  split=> [i hi|e X E|k X hk E|k hk].
  - exact: (inner_parity (mirQ U hi) pv pw sq).
  - exact: (inner_parity (mir_cap U E) pv pw sq).
  - have [c Ec cz] := F hk; exact: (inner_parity (mir_flux U E Ec cz) pv pw sq).
  by apply: (inner_parity _ pv pw sq); apply: mir_sin; [exact: mir_exp | apply: expi_real; exact: (St.2 k hk)].
move=> k hk; apply: (inner_parity (sg := 1) _ pv pw).
  by apply: mir_cos; [exact: mir_exp | apply: expi_real; exact: (St.2 k hk)].
by rewrite /psign; case: (p); rewrite ?(mul1r, mulr1).
Qed.
End Levels.
Print Assumptions C95_real.
Print Assumptions C95_parity.
Print Assumptions C95_elements.

Section Rates.
Variables (disp : nat -> C -> op) (s : store) (x : circ) (H : op) (ev : eigres).
Hypothesis D : displaces disp.
Hypothesis Rg : regular disp s x.
Hypothesis F : inductor_free (hof x) (mkKeys (c_keys_ind (x_c x)) (c_keys_jj (x_c x))).
Hypothesis St : still [seq lvalue s l | l <- c_loops (x_c x)] (x_B x) (mkKeys (c_keys_ind (x_c x)) (c_keys_jj (x_c x))).
Hypothesis EH : (hamil s x).2 = Ok H.
Let Y := put_eig (hamil s x).1 ev.
Variables (E : env) (q : quality) (m n : Z) (tot : bool) (w1 w2 : R) (v w : cvec) (r : R).
Hypothesis Lv : levels Y m n w1 w2 v w.

(** Flux noise does not dephase levels that are alone at their energies, at zero flux or
    at half a flux quantum across junctions, whatever the gate charges. *)
Theorem C95_flux K z1 z2 : low_frequency E K -> lone H z1 v -> lone H z2 w ->
  dec_rate E s q Y (Some DFlux) m n tot = Ok (Some r) -> r = 0.
Proof. exact: (flux_none D Rg F St EH Lv). Qed.

(** The derivative of the frequency by the flux is zero there. *)
Theorem C95_slope l p z1 z2 : lone H z1 v -> lone H z2 w ->
  partial_omega_mn s Y (CLoop l) m n None = Ok p -> p = 0.
Proof.
move=> L1 L2; have [_ _ E3 E4] := Lv; have [Rv dH] := ham_self D Rg F St EH.
move=> Ep; have [P [EP ->]] := omega_mn_value E3 E4 Ep; have RP := loop_self D Rg F St EP.
have a1 := mean_rev dH L1 Rv RP; have a2 := mean_rev dH L2 Rv RP.
rewrite /slope -!innerE; by move: a1 a2; case: (inner v _ v) (inner w _ w) => a b [a' b']; rewrite /= => -> ->; rewrite subrr.
Qed.

(** Without gate charges, neither does charge noise. *)
Hypothesis U : uncharged (hof x).
Theorem C95_charge K z1 z2 : low_frequency E K -> lone H z1 v -> lone H z2 w ->
  dec_rate E s q Y (Some DCharge) m n tot = Ok (Some r) -> r = 0.
Proof. exact: (charge_none D Rg F St EH Lv U). Qed.

(** Capacitive and inductive losses, and quasiparticle losses without flux, do not connect
    levels of the same parity. *)
Theorem C95_forbidden p : of_parity (hof x) p v -> of_parity (hof x) p w ->
  Rlt 0 (Noise.T E) -> w1 <> w2 -> Rle (thermal_ratio (Rabs (w2 - w1)) (Noise.T E)) (IZR 709) ->
  [/\ dec_rate E s q Y (Some DCap) m n tot = Ok (Some r) -> r = 0,
      dec_rate E s q Y (Some DInd) m n tot = Ok (Some r) -> r = 0 &
      unbiased [seq lvalue s l | l <- c_loops (x_c x)] -> dec_rate E s q Y (Some DQp) m n tot = Ok (Some r) -> r = 0].
Proof.
move=> pv pw HT Nw Hc; split.
- exact: (cap_none Rg EH Lv U pv pw HT Nw Hc).
- exact: (ind_none Rg F EH Lv U pv pw HT Nw Hc).
move=> ub; exact: (qp_none D Rg EH Lv pv pw HT Nw Hc ub).
Qed.
End Rates.
Print Assumptions C95_flux.
Print Assumptions C95_slope.
Print Assumptions C95_charge.
Print Assumptions C95_forbidden.

(** Half a flux quantum through a loop closed by a junction. *)
Example C95_half w : still [:: PI] (fun _ _ => 1) (mkKeys [::] [:: (Z0, Zpos xH, 0%N, 0%N, w)]).
Proof.
split=> k //= [<-|[]] /=; rewrite /ext_flux big_ord1 /= mulr1; exact: sin_PI.
Qed.

(** A junction of 3 rad/s with 1 F and three charge states: the state (1, 0, -1) is alone
    at its energy, and odd. *)
Lemma island_charge optim s fd lobj els c st0 st croot lroot X V D0 eigL tries fuel sv order draw m ng :
  constructed optim s fd lobj els c st0 st croot lroot X V D0 eigL tries fuel sv order draw ->
  existsb (is_jj s) els -> existsb (is_ind s) els = false -> hcharge (one_h optim c st m ng) 0.
Proof.
move=> [EG EI [HC HL] HA Ht] jj ni.
have [cE [lE [wE kE]]] := o_mats _ _ _ _ _ _ EG.
rewrite jj in wE; rewrite /junc_without_ind jj ni /= in kE.
have l0 : c_L c 0%N 0%N = 0 by rewrite lE; exact: no_ind0.
have w1 : rows (c_W c) 0%N 0%N = 1 by rewrite wE.
have [[n1 tm] om w cI] := island1 EI HC HL HA Ht (ltac:(by rewrite wE)) kE w1 l0.
have [_ [om' _] _ _ _] : let st' := finish_modes optim st in
  [/\ t_n st' = 1%N /\ t_n0 st' = t_n0 st, t_om st' 0%N = t_om st 0%N /\ t_S st' = t_S st,
      t_cI st' 0%N 0%N = t_cI st 0%N 0%N, t_lT st' 0%N 0%N = t_lT st 0%N 0%N & t_wT st' 0%N 0%N = t_wT st 0%N 0%N].
  by apply: finish1 => //; right; split=> //; rewrite w; apply/eqP; rewrite oner_eq0.
by rewrite /hcharge /is_charge /= om' om.
Qed.

Definition odd3 (i : nat) : C := if i == 0%N then 1 else if i == 2%N then -1 else 0.
Lemma charging_even c : charging c 0 (Rminus (INR 0) (centre 3)) = charging c 0 (Rminus (INR 2) (centre 3)).
Proof. by rewrite /charging /centre; congr (Rdiv (Rmult _ _) _); rewrite /Rsqr /=; lra. Qed.
Lemma charging_mid c : charging c 0 (Rminus (INR 1) (centre 3)) = R0.
Proof.
have -> : Rminus (INR 1) (centre 3) = R0 by rewrite /centre /=; lra.
by rewrite /charging Rminus_0_r /Rsqr Rmult_0_l Rmult_0_r /Rdiv Rmult_0_l.
Qed.
Example C95_case disp draw B : exponential disp -> exists c st0 st A,
  [/\ constructed false one_s "junctions" (fun=> mkL nil nil) [:: 0%N] c st0 st eye zero2 eye eye (fun=> 0) (fun=> 0) 1 2 sv1 in_order draw,
      one_ham false one_s c st disp 3 (fun=> 0) [::] B = Ok A,
      lone A (charging 1 0 (Rminus (INR 0) (centre 3))) odd3 & of_parity (one_h false c st 3 (fun=> 0)) false odd3].
Proof.
move=> ex; have [c [st0 [st [K _]]]] := C90_island_case draw (fun=> 0) B ex.
have [hn1 [A EA [dA eA]]] := C90_island 3 (fun=> 0) [::] B ex K isT erefl.
have ch := island_charge 3 (fun=> 0) K isT erefl.
exists c, st0, st, A.
have cv : edge_cap one_s [:: 0%N] = R1 by rewrite /edge_cap /= /cap_of /=; exact: Rplus_0_r.
set z := charging _ _ _; set t := (Rdiv 3 2)%:C : C.
have e1 : expi (ext_flux [::] B 0) = 1 by rewrite /ext_flux big_ord0 /expi cos_0 sin_0.
have e2 : (expi (ext_flux [::] B 0))^* = 1 by rewrite e1; exact: cj1.
have E a b : (a < 3)%N -> (b < 3)%N -> ent A a b =
  (if a == b then (charging 1 0 (Rminus (INR a) (centre 3)))%:C else 0) - t * (if a == b.+1 then 1 else if b == a.+1 then 1 else 0).
  move=> ha hb; rewrite eA // /island cv.
  have -> : part_list (is_jj one_s) one_s [:: 0%N] (ext_flux [::] B) = [:: (IZR 3, ext_flux [::] B 0%N)] by [].
  by rewrite big_seq1; cbn [fst snd]; rewrite e2 e1.
have t3 : Rdiv 3 2 <> R0 by lra.
have t0 : t <> 0 by move=> [e]; exact: t3 e.
have S3 (f : nat -> C) : \sum_(j < 3) f j = f 0%N + f 1%N + f 2%N by rewrite !big_ord_recl big_ord0 addr0 addrA.
have E00 : ent A 0 0 = z%:C by rewrite E // [X in _ - t * X]/(0 : C) mulr0 subr0.
have E01 : ent A 0 1 = - t by rewrite E // [X in _ - t * X]/(1 : C) mulr1 sub0r.
have E02 : ent A 0 2 = 0 by rewrite E // [X in _ - t * X]/(0 : C) mulr0 subr0.
have E10 : ent A 1 0 = - t by rewrite E // [X in _ - t * X]/(1 : C) mulr1 sub0r.
have E11 : ent A 1 1 = 0 by rewrite E // [X in _ - t * X]/(0 : C) mulr0 subr0 /= charging_mid.
have E12 : ent A 1 2 = - t by rewrite E // [X in _ - t * X]/(1 : C) mulr1 sub0r.
have E20 : ent A 2 0 = 0 by rewrite E // [X in _ - t * X]/(0 : C) mulr0 subr0.
have E21 : ent A 2 1 = - t by rewrite E // [X in _ - t * X]/(1 : C) mulr1 sub0r.
have E22 : ent A 2 2 = z%:C by rewrite E // [X in _ - t * X]/(0 : C) mulr0 subr0 -charging_even.
have R0' (w : nat -> C) : \sum_(j < 3) ent A 0 j * w j = z%:C * w 0%N - t * w 1%N.
  by rewrite (S3 (fun j => ent A 0 j * w j)) E00 E01 E02 mul0r addr0 mulNr.
have R1' (w : nat -> C) : \sum_(j < 3) ent A 1 j * w j = - t * (w 0%N + w 2%N).
  by rewrite (S3 (fun j => ent A 1 j * w j)) E10 E11 E12 mul0r addr0 mulrDr.
have R2' (w : nat -> C) : \sum_(j < 3) ent A 2 j * w j = z%:C * w 2%N - t * w 1%N.
  by rewrite (S3 (fun j => ent A 2 j * w j)) E20 E21 E22 mul0r add0r mulNr addrC.
split=> //.
- split.
    split; last by exists 0%N; rewrite ?dA //; apply/eqP; rewrite oner_eq0.
    rewrite dA => -[|[|[|//]]] _; rewrite ?R0' ?R1' ?R2' /odd3 /= ?(mulr0, subr0, mulrN1) //.
    by rewrite subrr mulr0.
  move=> w [Hw _]; rewrite dA in Hw *.
  have w1 : w 1%N = 0.
    have := Hw 0%N isT; rewrite R0' => /eqP; rewrite subr_eq addrC -subr_eq subrr eq_sym mulf_eq0 => /orP [/eqP //|/eqP //].
  have w2 : w 2%N = - w 0%N.
    have := Hw 1%N isT; rewrite R1' w1 mulr0 => /eqP; rewrite mulf_eq0 oppr_eq0 => /orP [/eqP //|].
    by rewrite addrC addr_eq0 => /eqP.
  by exists (w 0%N); move=> [|[|[|//]]] _; rewrite /odd3 /= ?(mulr1, mulr0, mulrN1).
move=> I; rewrite hn1 big_ord_recl big_ord0 muln1 => hI.
have hI3 : (I < 3)%N by move: hI; rewrite /hm /=.
rewrite /mir_state /par /mir hn1 /parity /mirror ch.
have -> : hm (one_h false c st 3 (fun=> 0)) 0 = 3%N by [].
rewrite !modn_small // !mul1r.
by case: I hI hI3 => [|[|[|I]]] // _ _; rewrite /odd3 /= ?mulr0 ?mulr1 ?mulN1r ?opprK.
Qed.
