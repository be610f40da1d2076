(** P_OneNode.v -- C90: the Hamiltonian of a circuit of one node from its elements. *)
From Coq Require Import Reals ZArith Lia Lra String List.
From Verif.Model Require Import Base Units Edge Elements LCWB Accuracy HamConst.
From Verif.Spec Require Import GraphSpec CircuitSpec.
From Verif.Proofs Require Import AccProofs LCWBProofs OneNode.
From mathcomp Require Import all_ssreflect all_algebra.
From mathcomp Require Import complex ring zify.
From Verif.Numerics Require Import RStruct Bridge.
From Verif.Model Require Import FluxDist Op Transform Ham.
From Verif.Spec Require Import OpSpec TransSpec SymmetrySpec OneNodeSpec.
From Verif.Proofs Require Import OpProofs HamProofs HamProofs2 HamProofs5 HamProofs6 ExpProofs2 ChargeShiftProofs TransProofs PartsProofs OneNodeTrans OneNodeHam.

Set Implicit Arguments.
Unset Strict Implicit.
Unset Printing Implicit Defensive.
Import GRing.Theory.
Local Open Scope ring_scope.
Local Open Scope complex_scope.

Lemma finish1 optim st : t_n st = 1%N -> (t_m st = 0%N \/ t_m st = 1%N /\ t_wT st 0%N 0%N <> 0) ->
  let st' := finish_modes optim st in
  [/\ t_n st' = 1%N /\ t_n0 st' = t_n0 st, t_om st' 0%N = t_om st 0%N /\ t_S st' = t_S st,
      t_cI st' 0%N 0%N = t_cI st 0%N 0%N, t_lT st' 0%N 0%N = t_lT st 0%N 0%N & t_wT st' 0%N 0%N = t_wT st 0%N 0%N].
Proof.
move=> n1 H; rewrite /finish_modes; case: ifP => //= /andP [m0 _].
case: H => [z|[m1 /eqP w]]; first by rewrite z in m0.
have u : uncoupled st = [::] by rewrite /uncoupled n1 m1 /= (negbTE w).
have k : kept_modes st = [:: 0%N] by rewrite /kept_modes u n1.
by rewrite /remove_uncoupled u k /= n1.
Qed.

Lemma no_ind0 s els : existsb (is_ind s) els = false -> edge_invind s els = R0.
Proof.
rewrite /edge_invind; elim: els => [//|x els IH] /=; case i: (is_ind s x) => //= /IH ->.
by move: i; rewrite /is_ind /invind_of; case: (ekind s x) => // _; rewrite Rplus_0_l.
Qed.
Lemma no_keys s p els : existsb p els = false ->
  List.filter (fun bo : nat * nat => p (snd bo)) (CircuitSpec.enum (List.filter (inductive_el s) els)) = nil.
Proof.
move=> H; have none : forall x, List.In x (List.filter (inductive_el s) els) -> p x = false.
  move=> x /List.filter_In [hx _]; case E: (p x) => //.
  have e : existsb p els by apply/existsb_exists; exists x.
  by rewrite H in e.
rewrite /CircuitSpec.enum; move: (List.filter (inductive_el s) els) none => l; move: (List.length l) => k.
move: 0%N k; elim: l => [|x l IH] i [|k] //= none; rewrite none; [apply: IH => y hy; apply: none; by right|by left].
Qed.

Section OneNode.
Variables (optim : bool) (s : store) (fd : string) (lobj : nat -> lrec) (els : seq nat) (c : cst).
Let d : seq (edge * seq nat) := [:: ((Z0, Zpos xH), els)].
Variables (st0 st : tst) (croot lroot X U : arr) (D0 eigL : vec).
Variables (tries fuel : nat) (sv : svd_fun) (order : seq R -> seq nat) (draw : nat -> nat -> seq vec).
Variables (disp : nat -> C -> op) (m : nat) (ng : nat -> R) (loops : seq R) (B : arr).

(** What construction computes for the circuit with elements [els] from node 1 to
    ground, with matrix roots and a singular value decomposition as numpy returns them. *)
Definition constructed : Prop :=
  [/\ get_LCWB optim s fd (Zpos xH) lobj d = Ok c,
      t_init 1 (size (c_W c)) (c_njwi c) (c_C c) (c_L c) (rows (c_W c)) = Ok st0,
      root_of (toM 1 1 (c_C c)) (toM 1 1 croot) /\ root_of (toM 1 1 (c_L c)) (toM 1 1 lroot),
      svd_of (toM 1 1 lroot *m invmx (toM 1 1 croot)) (toM 1 1 X) (toM 1 1 U) (toV 1 D0) &
      transform_hamil croot D0 U eigL tries fuel sv order draw st0 = Some (Ok st)].
Definition one_h : hin := mkH (finish_modes optim st) [:: m] ng (c_C c).
Definition one_ham : res op := hamiltonian disp one_h (evalue s) loops B (mkKeys (c_keys_ind c) (c_keys_jj c)).


Lemma half_C x : (Rdiv x 2)%:C = 2%:R^-1 * x%:C :> C.
Proof.
have two : 2%:R != 0 :> C by rewrite Num.Theory.pnatr_eq0.
apply: (mulfI two); rewrite mulrA divff // mul1r mulr_natl mulr2n -cRD; congr (_%:C).
exact: half_sum.
Qed.

Lemma one_exists : constructed -> (forall k a, dim (disp k a) = k) -> hn one_h = 1%N -> t_n0 (finish_modes optim st) = 1%N ->
  exists2 A, one_ham = Ok A & dim A = m.
Proof.
move=> [EG _ _ _ _] D n1 n0; have [A EA] : exists A, one_ham = Ok A.
  apply: hamiltonian_total => //; first by rewrite n1.
  rewrite /= => k; have [-> _] := o_keys _ _ _ _ _ _ EG => /List.in_map_iff [[b el] [<- _]] /=; right.
  by split=> //; rewrite n0 /isnode; lia.
exists A => //; have [-> _] := hamiltonian_ok D EA.
by rewrite /total n1 big_ord_recl big_ord0 muln1 /hm.
Qed.

(** Junctions and no inductor: (2e)^2/(2C) (n - ng)^2 - sum E_J cos(phi + phase), with C
    the sum of the capacitances. *)
Theorem C90_island : exponential disp -> constructed ->
  existsb (is_jj s) els -> existsb (is_ind s) els = false ->
  hn one_h = 1%N /\ exists2 A, one_ham = Ok A & dim A = m /\ forall a b, (a < m)%N -> (b < m)%N ->
    ent A a b = island (edge_cap s els) (ng 0%N) (part_list (is_jj s) s els (ext_flux loops B)) m a b.
Proof.
move=> /exp_disp_dims D K jj ni; have [EG EI [HC HL] HA Ht] := K.
have [cE [lE [wE kE]]] := o_mats _ _ _ _ _ _ EG; have [kiE kjE] := o_keys _ _ _ _ _ _ EG.
rewrite jj in wE; rewrite /junc_without_ind jj ni /= in kE.
have l0 : c_L c 0%N 0%N = 0 by rewrite lE; exact: no_ind0.
have w1 : rows (c_W c) 0%N 0%N = 1 by rewrite wE.
have [[n1 tm] om w cI] := island1 EI HC HL HA Ht (ltac:(by rewrite wE)) kE w1 l0.
have [_ n01 _ _] := frame1 EI HC HL HA Ht.
have [[n1' n0'] [om' _] cI' _ w'] : let st' := finish_modes optim st in
  [/\ t_n st' = 1%N /\ t_n0 st' = t_n0 st, t_om st' 0%N = t_om st 0%N /\ t_S st' = t_S st,
      t_cI st' 0%N 0%N = t_cI st 0%N 0%N, t_lT st' 0%N 0%N = t_lT st 0%N 0%N & t_wT st' 0%N 0%N = t_wT st 0%N 0%N].
  by apply: finish1 => //; right; split=> //; rewrite w; apply/eqP; rewrite oner_eq0.
have hn1 : hn one_h = 1%N by [].
split=> //; have [A EA dA] := one_exists K D hn1 (etrans n0' n01); exists A => //; split=> // a b ha hb.
have ch : hcharge one_h 0 by rewrite /hcharge /is_charge /= om' om.
rewrite (hamiltonian_entry _ _ EA) LC1 // ch kiE kjE no_keys //= big_nil addr0 /island; congr (_ - _).
- rewrite QQ1 // cI' cI cE.
  have -> : ent (omul (charge_op_isolated one_h 0) (charge_op_isolated one_h 0)) a b =
     if a == b then (charge_unit%:C * (Rminus (charge_at m a) (ng 0%N))%:C) ^+ 2 else 0.
    have ha' : (a < hm one_h 0)%N by rewrite /hm.
    rewrite /= dimQ (bigD1 (Ordinal ha')) //= big1 ?addr0.
      by rewrite !Qdiag // eqxx; case: eqP => [->|_]; rewrite ?mulr0 // expr2.
    by move=> i ne; rewrite [X in X * _]Qdiag // eq_sym -val_eqE /= in ne *; rewrite (negbTE ne) mul0r.
  have c0 : edge_cap s els <> R0.
    by move=> z; have := c_pos EI HC; rewrite cE z; exact: Rlt_irrefl.
  case: eqP => _; last by rewrite mulr0.
  rewrite expr2 -!cRM; congr (_%:C); rewrite -[(edge_cap s els)^-1]RinvE.
  exact: (charge_sq _ (charge_at m a) (ng 0%N) c0).
- rewrite /part_list !big_map; apply: eq_bigr => -[i el] _ /=; rewrite /jjent opExp1 // /exp_iso ch /= w' w !d_entry half_C.
  case: Rlt_dec => [n|n1'']; first by exfalso; exact: (Rlt_asym _ _ n Rlt_0_1).
  case: Rlt_dec => [n2|n]; last by exfalso; exact: (n Rlt_0_1).
  rewrite /= -mulrA mulrCA; congr (_ * (_ * _)).
  case: (eqVneq a b.+1) => [e|_].
    by rewrite mulr1 e (negbTE (ltac:(lia) : b != b.+2)) mulr0 cj0 addr0.
  by rewrite mulr0 add0r; case: eqP => _; rewrite ?mulr1 // mulr0 cj0.
Qed.

(** At least one inductor: 1/sqrt(L C) a+ a with 1/L the sum of the inverse inductances,
    the terms of the external fluxes in the inductors, and the junctions as displacements.
    The mode's flux is the node's flux or its opposite. *)
Theorem C90_oscillator : exponential disp -> constructed -> (1 < m)%N ->
  Rlt 0 (edge_invind s els) -> eigL 0%N = edge_invind s els ->
  (existsb (is_jj s) els -> Rle acc_har (Rmult (Rdiv (Rmult 2 PI) Phi0) (zero_point (edge_cap s els) (edge_invind s els)))) ->
  hn one_h = 1%N /\ exists2 A, one_ham = Ok A & dim A = m /\ exists2 sg, sg = R1 \/ sg = Ropp R1 & forall a b, (a < m)%N -> (b < m)%N ->
    ent A a b = oscillator_of disp sg (edge_cap s els) (edge_invind s els)
      (part_list (is_ind s) s els (ext_flux loops B)) (part_list (is_jj s) s els (ext_flux loops B)) m a b.
Proof.
move=> /exp_disp_dims D K m1 lp eL big; have [EG EI [HC HL] HA Ht] := K.
have [cE [lE [wE kE]]] := o_mats _ _ _ _ _ _ EG; have [kiE kjE] := o_keys _ _ _ _ _ _ EG.
have cp := c_pos EI HC; rewrite cE in cp.
have [] := osc1 EI HC HL HA Ht; rewrite ?lE ?cE //.
set sg := sign_of _ => [[n1 n01 tm]] [om om0] fE wT.
have zE : phi_zp (Rinv (edge_cap s els)) (edge_invind s els) =
   Rmult (Rdiv (Rmult 2 PI) Phi0) (zero_point (edge_cap s els) (edge_invind s els)).
  rewrite /phi_zp /zero_point /impedance; congr (Rmult _ (sqrt (Rmult _ (sqrt _)))); rewrite /Rdiv; exact: Rmult_comm.
have sg1 : sg = R1 \/ sg = Ropp R1 by rewrite /sg /sign_of; case: Rlt_dec; [right|left].
have pw : existsb (is_jj s) els -> Rmult (phi_zp (t_cI st 0%N 0%N) (t_lT st 0%N 0%N)) (t_wT st 0%N 0%N) =
    Rmult sg (phi_zp (Rinv (edge_cap s els)) (edge_invind s els)).
  move=> jj; rewrite jj in wE; apply: wT; rewrite ?wE //.
  by apply/Rle_not_lt; rewrite zE; exact: big.
have fin : t_m st = 0%N \/ t_m st = 1%N /\ t_wT st 0%N 0%N <> 0.
  case jj: (existsb (is_jj s) els); rewrite tm wE jj; [right|by left]; split=> // z.
  have := pw jj; rewrite z Rmult_0_r; have := phi_zp_pos _ _ (Rinv_0_lt_compat _ cp) lp.
  by case: sg1 => -> ?; lra.
have [[n1' n0'] [om' S'] cI' lT' w'] := finish1 optim n1 fin.
have hn1 : hn one_h = 1%N by [].
split=> //; have [A EA dA] := one_exists K D hn1 (etrans n0' n01); exists A => //; split=> //; exists sg => // a b ha hb.
have ch : hcharge one_h 0 = false by rewrite /hcharge /is_charge /= om'; apply/negbTE/eqP.
have m1' : (m == 1%N) = false by lia.
rewrite (hamiltonian_entry _ _ EA) LC1 // ch kiE kjE /oscillator_of; congr (_ + _ - _).
- rewrite N1 // /num_op_isolated ch /= om' om /=; case: eqP => _; last by rewrite mulr0.
  by rewrite -cRM freq_eq //; congr (_%:C); exact: Rmult_comm.
- rewrite /part_list !big_map; apply: eq_bigr => -[i el] _ /=; rewrite cpl1 ?n0' //= Phi1 // /flux_op_isolated ch /hm /= m1' S'.
  have pos : position a b = (if b == a.+1 then (sqrt (INR b))%:C else 0) + (if a == b.+1 then (sqrt (INR a))%:C else 0)^*.
    rewrite /position; case: (eqVneq b a.+1) => [->|_].
      by rewrite (negbTE (ltac:(lia) : a != a.+2)) cj0 addr0.
    by rewrite add0r; case: eqP => _; rewrite ?cjR ?cj0.
  rewrite [ent (oscale _ _) _ _]/= -pos !mulrA -!cRM; congr (_%:C * _).
  rewrite /himp /= cI' lT' -mulrA; transitivity (Rmult (ind_coef (evalue s el) (ext_flux loops B i)) (Rmult sg (f_zp (impedance (Rinv (edge_cap s els)) (edge_invind s els))))).
    by rewrite -fE.
  exact: ind_eq.
- rewrite /part_list /= !big_map; case jj: (existsb (is_jj s) els); last first.
    have e := no_keys s jj.
    have e' : [seq bo <- CircuitSpec.enum (List.filter (inductive_el s) els) | is_jj s bo.2] = [::] by exact: e.
    by rewrite e e' !big_nil.
  apply: eq_bigr => -[i el] _ /=; rewrite /jjent opExp1 // /exp_iso ch /hm /= m1' /alpha.
  by rewrite /hphi_zp /= cI' lT' w' -zE -pw.
Qed.
End OneNode.
Print Assumptions C90_island.
Print Assumptions C90_oscillator.

(** The two computations end: a junction with a capacitance of 1 F, and an inductor of 1 H
    with a capacitance of 1 F. *)
Definition one_s : store :=
  mkStore (fun i => if i == 0%N then KJJ else if i == 1%N then KInd else KCap)
          (fun i => if i == 0%N then IZR 3 else R1) (fun=> false) (fun=> true)
          (fun=> 2)%N (fun=> nil) (fun=> R0) (fun=> false) (fun=> true).
Definition sv1 : svd_fun := fun _ _ _ => [:: 1].
Definition in_order : seq R -> seq nat := fun l => iota 0 (size l).
Definition zero2 : arr := fun _ _ => 0.
Lemma one_run i : exists c, get_LCWB false one_s "junctions" (Zpos xH) (fun=> mkL nil nil) [:: ((Z0, Zpos xH), [:: i])] = Ok c.
Proof.
refine (run_edges_total false one_s "junctions" 1%N [:: ((Z0, Zpos xH), [:: i])] (cst0 (fun=> mkL nil nil)) _ _).
- by move=> e els [[<- _]|[]]; split; [split|split; [split|]].
- by move=> e els _ [el [_ [K Z]]]; move: K Z; rewrite /=; case: el => [//|el] _ z; move: z; rewrite /=; lra.
Qed.
Lemma inv_some (A : arr) : A 0%N 0%N <> 0 -> exists B, inv 1 A = Ok B.
Proof. by move=> /eqP a; apply: inv_unit; rewrite toM1 unitmxE det_scalar1 unitfE. Qed.
Lemma round1 : round01 1 = 1.
Proof. by apply: round01_id; right; left. Qed.

(** The transformation of a circuit with one junction returns. *)
Lemma charge_total C L W st0 draw : C 0%N 0%N = 1 -> W 0%N 0%N = 1 -> t_init 1 1 1 C L W = Ok st0 ->
  exists st, transform_hamil eye (fun=> 0) eye (fun=> 0) 1 2 sv1 in_order draw st0 = Some (Ok st).
Proof.
move=> c1 w1; rewrite /t_init; case: inv => [cI|//] [<-]; rewrite /transform_hamil /trans1 /=.
have mx : rmax 1 (fun=> 0) == 0 by rewrite /= eqxx.
have e0 : eye 0%N 0%N <> 0 by apply/eqP; rewrite /eye /= oner_eq0.
have [cri Ei] := inv_some e0; rewrite Ei; have := inv1 Ei; rewrite {1}/eye /= mul1r => cri1.
rewrite /sing_locs /scale_of mx; set s1 := mmul _ _ _.
have s11 : s1 0%N 0%N = 1 by rewrite /s1 !mmul1 cri1 /tr /eye /dg /= sqrt_1 !mulr1.
have s10 : s1 0%N 0%N <> 0 by rewrite s11; apply/eqP; rewrite oner_eq0.
have [s1i E1] := inv_some s10; rewrite E1 /=; set st1 := set_omega _.
have ch : is_charge st1 0 by rewrite /is_charge /st1 /set_omega /= /zero_diag /= Rmult_0_r sqrt_0.
have cm : charge_modes st1 = [:: 0%N] by rewrite /charge_modes /= ch.
have sel : kept_columns sv1 1 1 (tr W) = [:: 0%N].
  rewrite /kept_columns; have -> : nzcols 1 1 (tr W) = [:: 0%N].
    by rewrite /nzcols /= ifT //; apply/forallPn; exists ord0; rewrite /tr /= w1 oner_eq0.
  rewrite /sv1 /where_big /=; rewrite ifT //; apply/RltbP; rewrite Rabs_R1 /Rounding.tol; lra.
have wE : w_charge sv1 s1 st1 = [:: fun j => mmul 1 W s1 0%N (nth 0%N [:: 0%N] j)].
  by rewrite /w_charge cm /= sel.
have EA : exists s2 r2, [/\ attempt2 2 sv1 in_order s1 (draw 0%N) st1 = Some (Ok (s2, r2)) & s2 0%N 0%N = 1].
  set w := (fun j => mmul 1 W s1 0%N (nth 0%N [:: 0%N] j)) in wE *.
  rewrite /attempt2 cm wE [basis_loop]lock /= -lock /=.
  have w0 : w 0%N = 1 by rewrite /w /= mmul1 w1 s11 mulr1.
  have vn : vnorm 1 w = 1 by rewrite /vnorm w0 Rplus_0_l Rmult_1_r sqrt_1.
  set e := gs_resid 1 (fun k => w k / (Rplus (vnorm 1 w) gs_reg)) [::].
  have e0' : Rlt acc_gs (Rabs (e 0%N)).
    have -> : e 0%N = Rdiv R1 (Rplus R1 gs_reg) by rewrite /e /gs_resid big_nil subr0 w0 vn -RinvE.
    rewrite Rabs_pos_eq.
      apply: (Rmult_lt_reg_r (Rplus R1 gs_reg)); first by rewrite /gs_reg; lra.
      rewrite /Rdiv Rmult_assoc Rinv_l /acc_gs /gs_reg; lra.
    by apply: Rlt_le; apply: Rdiv_lt_0_compat; rewrite /gs_reg; lra.
  have IR : independent_rows in_order 1 [:: w] = ([:: 0%N], [:: fun k => e k / vnorm 1 e]).
    rewrite /independent_rows /in_order /= /gs_step [nth _ _ _]/= -/e ifT //.
    by have : any_big 1 e by rewrite /=; case: Rlt_dec.
  rewrite IR /=.
  have [fi Ef] : exists fi, inv 1 (fun i => nth (fun=> 0) [:: w] i) = Ok fi.
    by apply: (@inv_some (fun i => nth (fun=> 0) [:: w] i)); rewrite /= w0; apply/eqP; rewrite oner_eq0.
  have f1 : fi 0%N 0%N = 1 by have := inv1 Ef; rewrite /= w0 mul1r.
  rewrite Ef; have [r2 Er] : exists r2, inv 1 (tr (block_low 1 1 fi)) = Ok r2.
    by apply: inv_some; rewrite /tr /block_low /= f1; apply/eqP; rewrite oner_eq0.
  by rewrite Er; exists (block_low 1 1 fi), r2.
have [s2 [r2 [-> s21]]] := EA.
have gs : gs_successful st1 s2.
  rewrite /gs_successful /= ch /= /round_zero_one ch /= mmul1 s21 mulr1 mmul1 w1 s11 mulr1 round1.
  by rewrite Rabs_R1 eqxx orbT.
rewrite gs; set st3 := set_wT _ _.
have ch3 : is_charge st3 0 by exact: ch.
rewrite /trans3 -[t_n st3]/1%N /= /scale3 ch3 /=.
have [r3 E3] : exists r3, inv 1 (tr (dg (fun k => if k == 0%N then 1 else 1))) = Ok r3.
  by apply: inv_some; rewrite /tr /dg /=; apply/eqP; rewrite oner_eq0.
by rewrite E3; eexists.
Qed.
Lemma osc_total C L W st0 draw : t_init 1 0 0 C L W = Ok st0 ->
  exists st, transform_hamil eye (fun=> 1) eye (fun=> 1) 1 1 sv1 in_order draw st0 = Some (Ok st).
Proof.
rewrite /t_init; case: inv => [cI|//] [<-]; rewrite /transform_hamil /trans1 [t_n _]/=.
have e0 : eye 0%N 0%N <> 0 by apply/eqP; rewrite /eye /= oner_eq0.
have [cri Ei] := inv_some e0; rewrite Ei; have := inv1 Ei; rewrite {1}/eye /= mul1r => cri1.
set s1 := mmul _ _ _.
have s11 : s1 0%N 0%N = 1.
  rewrite /s1 !mmul1 cri1 /tr /eye /dg /= !mul1r /scale_of; case: ifP => _; first exact: sqrt_1.
  by case: ifP => _; exact: sqrt_1.
have s10 : s1 0%N 0%N <> 0 by rewrite s11; apply/eqP; rewrite oner_eq0.
have [s1i E1] := inv_some s10; rewrite E1; set st1 := set_omega _; rewrite -/st1 (_ : t_m st1 == 0%N) //.
have S1 : t_S st1 0%N 0%N = 1 by rewrite /st1 /= mmul1 /eye /= mul1r.
have v1 : (scale3 st1 0).2 = 1.
  rewrite /scale3; case: ifP => // _; rewrite /= -[RHS](divr1 1); congr (_ / _).
  by rewrite [mmul _ _ _ _ _]S1 Rabs_R1.
rewrite /trans3 [t_n st1]/= /scales3; case: (scale3 st1 0) v1 => st3 x /= ->.
have [r3 E3] : exists r3, inv 1 (tr (dg (fun k => if k == 0%N then 1 else 1))) = Ok r3.
  by apply: inv_some; rewrite /tr /dg /=; apply/eqP; rewrite oner_eq0.
by rewrite E3; eexists.
Qed.

Lemma eye_root A : A 0%N 0%N = 1 -> root_of (toM 1 1 A) (toM 1 1 eye).
Proof. by move=> a; split; rewrite !toM1 /eye /= ?tr_scalar_mx // -scalar_mxM mulr1 a. Qed.

(** A junction of 3 rad/s with 1 F: -3/2 between charge 0 and charge -1, no external flux. *)
Example C90_island_case disp draw ng B : exponential disp -> exists c st0 st,
  constructed false one_s "junctions" (fun=> mkL nil nil) [:: 0%N] c st0 st eye zero2 eye eye (fun=> 0) (fun=> 0) 1 2 sv1 in_order draw /\
  exists2 A, one_ham false one_s c st disp 3 ng [::] B = Ok A & dim A = 3%N /\ ent A 1 0 = - (Rdiv 3 2)%:C.
Proof.
move=> ex; have [c Ec] := one_run 0; exists c.
have [cE [lE [wE kE]]] := o_mats _ _ _ _ _ _ Ec.
have c1 : c_C c 0%N 0%N = 1 by rewrite cE /edge_cap /= /cap_of /=; exact: Rplus_0_r.
have l0 : c_L c 0%N 0%N = 0 by rewrite lE /edge_invind /= /invind_of /=; exact: Rplus_0_r.
rewrite /= in wE kE; have c0 : c_C c 0%N 0%N <> 0 by rewrite c1; apply/eqP; rewrite oner_eq0.
have [ci Ei] := inv_some c0.
have [st0 EI] : exists st0, t_init 1 (size (c_W c)) (c_njwi c) (c_C c) (c_L c) (rows (c_W c)) = Ok st0.
  by rewrite /t_init Ei; eexists.
have w1 : rows (c_W c) 0%N 0%N = 1 by rewrite wE.
have EI' := EI; rewrite {1}wE kE in EI'.
have [st Et] := charge_total draw c1 w1 EI'; exists st0, st.
have K : constructed false one_s "junctions" (fun=> mkL nil nil) [:: 0%N] c st0 st eye zero2 eye eye (fun=> 0) (fun=> 0) 1 2 sv1 in_order draw.
  split=> //.
  - split; first exact: eye_root.
    by split; rewrite !toM1 /zero2 ?tr_scalar_mx // -scalar_mxM mulr0 l0.
  - split; rewrite ?toM1 /eye /= ?tr_scalar_mx -?scalar_mxM ?mulr1 //.
      have -> : diag_mx (toV 1 (fun=> 0)) = 0%:M :> 'M[R]_1 by apply/matrixP => i j; rewrite !mxE !ord1 eqxx.
      by rewrite /zero2 invmx_scalar -!scalar_mxM mul0r mulr0 mul0r.
    by move=> i; rewrite mxE; exact: Rle_refl.
split=> //; have [_ [A EA [dA eA]]] := C90_island 3 ng [::] B ex K isT erefl.
exists A => //; split=> //; rewrite eA // /island /part_list /= big_seq1 sub0r; congr (- _).
by rewrite (_ : ext_flux _ _ _ = 0) ?/expi ?cos_0 ?sin_0 ?mulr1 // /ext_flux big_ord0.
Qed.

(** An inductor of 1 H with 1 F: 1 rad/s between the photon states. *)
Example C90_oscillator_case disp draw ng B : exponential disp -> exists c st0 st,
  constructed false one_s "junctions" (fun=> mkL nil nil) [:: 1%N] c st0 st eye eye eye eye (fun=> 1) (fun=> 1) 1 1 sv1 in_order draw /\
  exists2 A, one_ham false one_s c st disp 3 ng [::] B = Ok A & dim A = 3%N /\ ent A 2 2 = 2%:C /\ ent A 0 1 = 0.
Proof.
move=> ex; have [c Ec] := one_run 1; exists c.
have [cE [lE [wE kE]]] := o_mats _ _ _ _ _ _ Ec.
have cv : edge_cap one_s [:: 1%N] = R1 by rewrite /edge_cap /= /cap_of /=; exact: Rplus_0_r.
have lv : edge_invind one_s [:: 1%N] = R1 by rewrite /edge_invind /= /invind_of /= Rinv_1; exact: Rplus_0_r.
have c1 : c_C c 0%N 0%N = 1 by rewrite cE cv.
have l1 : c_L c 0%N 0%N = 1 by rewrite lE lv.
rewrite /= in wE kE; have c0 : c_C c 0%N 0%N <> 0 by rewrite c1; apply/eqP; rewrite oner_eq0.
have [ci Ei] := inv_some c0.
have [st0 EI] : exists st0, t_init 1 (size (c_W c)) (c_njwi c) (c_C c) (c_L c) (rows (c_W c)) = Ok st0.
  by rewrite /t_init Ei; eexists.
have EI' := EI; rewrite {1}wE kE in EI'.
have [st Et] := osc_total draw EI'; exists st0, st.
have K : constructed false one_s "junctions" (fun=> mkL nil nil) [:: 1%N] c st0 st eye eye eye eye (fun=> 1) (fun=> 1) 1 1 sv1 in_order draw.
  split=> //.
  - by split; apply: eye_root.
  - split; rewrite ?toM1 /eye /= ?tr_scalar_mx -?scalar_mxM ?mulr1 //.
      have -> : diag_mx (toV 1 (fun=> 1)) = 1%:M :> 'M[R]_1 by apply/matrixP => i j; rewrite !mxE !ord1 eqxx.
      by rewrite invmx_scalar invr1 -!scalar_mxM !mulr1.
    by move=> i; rewrite mxE; exact: Rle_0_1.
split=> //; have [] := C90_oscillator ng [::] B ex K (m := 3%N); rewrite ?lv //; first exact: Rlt_0_1.
move=> _ [A EA [dA [sg _ eA]]]; exists A => //; split=> //; split.
- rewrite eA // /oscillator_of /part_list /= cv !big_seq1 !big_nil subr0 /position /= mulr0 addr0.
  by rewrite Rinv_1 Rmult_1_l sqrt_1 Rinv_1 Rmult_1_r.
- rewrite eA // /oscillator_of /part_list /= cv !big_seq1 !big_nil subr0 add0r /= (_ : ext_flux _ _ _ = R0); last by rewrite /ext_flux big_ord0.
  by rewrite Rmult_0_l /Rdiv !Rmult_0_l mul0r.
Qed.
