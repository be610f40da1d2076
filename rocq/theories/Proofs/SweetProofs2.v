(** SweetProofs2.v -- operators under reversal of phases and charges; rates. *)
From Coq Require Import Reals ZArith String Lia.
From Verif.Model Require Import Base Units Noise Edge Elements LCWB HamConst PartialConst Thermal RateConst.
From Verif.Spec Require Import ThermalSpec.
From mathcomp Require Import all_ssreflect all_algebra.
From mathcomp Require Import complex ring.
From Verif.Numerics Require Import RStruct Bridge.
From Verif.Model Require Import Transform Op Ham Diag CircuitSM Partial DecRate.
From Verif.Spec Require Import OpSpec GradSpec EigSpec DecSpec SymmetrySpec SweetSpec.
From Verif.Proofs Require Import OpProofs HamProofs HamProofs2 HamProofs5 HamProofs6 SMProofs MemProofs GradProofs PerturbProofs
  RateGradProofs2 NgProofs DecProofs DecProofs2 DecProofs3 RelaxProofs HalfProofs SymmetryProofs SymmetryProofs2 SymmetryProofs3 SweetProofs.

Set Implicit Arguments.
Unset Strict Implicit.
Unset Printing Implicit Defensive.
Import GRing.Theory.
Local Open Scope ring_scope.
Local Open Scope complex_scope.

Section Ops.
Variable h : hin.
Hypothesis U : uncharged h.
Let same : minus_charge h = h. Proof. exact: uncharged_same. Qed.
Let cg := hcharge h.
Notation dims := (hm h).

Lemma mirQ i : (i < hn h)%N -> mir2 h (-1) (opQ h i) (opQ h i).
Proof.
move=> hi; have R := Q_rel (par1_sq cg) (@mir1_lt cg dims) (@mir1K cg dims) (h := h) (h' := minus_charge h) erefl (frefl _) erefl erefl
  (fun k _ => mQ h k) hi.
by split; [have := mir_of R; rewrite {1}same | case: R].
Qed.
Lemma mir_cap e A : coupling_op h (Some Capacitive) e = Ok A -> mir2 h (-1) A A.
Proof.
move=> E; have [_ [_ _ d _ _]] := couplingP E; split=> //; apply: mir_of; split=> // a b L L'.
have E' : coupling_op (minus_charge h) (Some Capacitive) e = Ok A by rewrite same.
exact: (charge_rel (par1_sq cg) (@mir1_lt cg dims) (@mir1K cg dims) (h := h) (h' := minus_charge h) erefl (frefl _) erefl erefl
  (fun k _ => mQ h k) erefl L L' E E').
Qed.
Lemma mir_flux e k A : coupling_op h (Some Inductive_) e = Ok A -> coupling_coef h Inductive_ e = Ok k ->
  (forall i, (i < hn h)%N -> hcharge h i -> k i = 0) -> mir2 h (-1) A A.
Proof.
move=> E Ek kz; have [_ [_ _ d _ _]] := couplingP E; split=> //; apply: mir_of; split=> // a b L L'.
have := flux_rel (par1_sq cg) (@mir1_lt cg dims) (@mir1K cg dims) (h := h) (h' := minus_charge h) erefl (frefl _) erefl erefl
  (fun k _ => @mF h k) erefl L L' Ek kz.
by rewrite /cpl same E mulN1r.
Qed.
Lemma mir2_scale sg (x : R) A : mir2 h sg A A -> mir2 h sg (oscale x%:C A) (oscale x%:C A).
Proof.
move=> [[d E] dA]; split; [split=> // I J hI hJ; rewrite !e_scale E //|by []].
by move: (par h I) (par h J) (ent A I J) => a b c; ring.
Qed.
Lemma mir2_add sg A B : mir2 h sg A A -> mir2 h sg B B -> mir2 h sg (oadd A B) (oadd A B).
Proof.
move=> [[d E] dA] [[d2 E2] dB]; split; [split=> // I J hI hJ; rewrite !e_add E // E2|by []].
- by move: (par h I) (par h J) (ent A I J) (ent B I J) => a b c e; ring.
- by rewrite dB -dA.
by rewrite dB -dA.
Qed.
Lemma racc_mir (K : Type) sg (f : K -> res op) ks a P :
  (forall k A, List.In k ks -> f k = Ok A -> mir2 h sg A A) ->
  (if a is Some A then mir2 h sg A A else True) ->
  foldl (racc f) (Ok a) ks = Ok P -> if P is Some A then mir2 h sg A A else True.
Proof.
elim: ks a => [|k ks IH] a H r; first by move=> [<-].
rewrite /=; case E: (f k) => [A|e]; last by elim: ks {IH H} => //=.
apply: IH => [j B hj|]; first by apply: H; right.
have rA := H _ _ (or_introl erefl) E; case: a r => [a|] //= ra; exact: mir2_add.
Qed.

(** The half-angle sine without flux. *)
Variable disp : nat -> C -> op.
Hypothesis D : displaces disp.
Lemma mRoot i k : lrel false (fun k : nat => hm h k) (par1 cg) (mir1 cg dims) k 1
  (oadj (root_iso disp h i k)) (root_iso disp h i k).
Proof.
have dk : dim (root_iso disp h i k) = hm h k.
  by rewrite /root_iso; case: ifP => // _; case: eqP => [-> //|_]; exact: D.1.
split=> // a b ha hb; rewrite mul1r /par1 /mir1 /root_iso -/cg.
case: (cg k).
  rewrite !mul1r /cc e_adj !e_diag [b == a]eq_sym.
  have -> : ((hm h k).-1 - a == (hm h k).-1 - b)%N = (a == b).
    apply/eqP/eqP => [/(congr1 (subn (hm h k).-1))|-> //].
    by rewrite !subKn //; [case: (hm h k) hb|case: (hm h k) ha].
  by case: ifP => _; rewrite ?cj0 ?cj1.
case: eqP => [m1|_]; first by move: ha hb; rewrite m1; case: a b => [|//] [|//] _ _; rewrite /cc e_adj e_diag eqxx cj1 !mulr1.
rewrite /alpha; have -> : 'i * (hphi_zp h k * t_wT (h_st h) i k)%:C / 2%:R = 'i * (hphi_zp h k * t_wT (h_st h) i k / 2%:R)%:C :> C.
  by rewrite (rmorphM _ _ (2%:R)^-1) fmorphV rmorph_nat mulrA.
have [E1 _ E3] := D.2 (hm h k) (hphi_zp h k * t_wT (h_st h) i k / 2%:R).
rewrite /cc e_adj -E1 // E3 // mulrA -[_ * _ * (_ * _)]mulrACA.
by rewrite -!expr2 -!exprM mulnC exprM sqrrN expr1n expr1n mulnC exprM sqrrN expr1n expr1n !mul1r.
Qed.
Lemma mir_root w : mir2 h 1 (oadj (opRoot disp h w)) (opRoot disp h w).
Proof.
have := @grel_T false (hn h) dims (par1 cg) (mir1 cg dims) (@mir1_lt cg dims) (fun=> 1)
  (fun k => oadj (root_iso disp h w k)) (root_iso disp h w).
rewrite big1 // => H; have [d1 d2 E] := H (fun k hk => mRoot w k).
have [e1 e2] := T_adj (root_iso disp h w) (hn h).
have R : grel false (hn h) dims (par1 cg) (mir1 cg dims) 1 (oadj (opRoot disp h w)) (opRoot disp h w).
  split; [by rewrite [dim _]e1 d1|by []|move=> d d' L L'; rewrite E //; congr (_ * (_ * cc _ _))].
  rewrite e2 //; rewrite e1 d1; by apply: posn_lt.
by split; [exact: mir_of R | case: R].
Qed.
Lemma mir_exp w : mir2 h 1 (oadj (opExp disp h w)) (opExp disp h w).
Proof. by have := mExp h D w; rewrite same => R; split; [exact: mir_of R | case: R]. Qed.

Lemma mir_swap E : mir2 h 1 (oadj E) E -> forall I J, (I < total h)%N -> (J < total h)%N ->
  [/\ ent E (mir h I) (mir h J) = par h I * par h J * (ent E J I)^* &
      (ent E (mir h J) (mir h I))^* = par h I * par h J * ent E I J].
Proof.
move=> [[d H] dE] I J hI hJ; rewrite dE in H; split.
  by rewrite H // mul1r e_adj.
by rewrite H // mul1r e_adj !(cjM, cjK) !par_real // [par h J * _]mulrC.
Qed.
Lemma mir_sin E z : mir2 h 1 (oadj E) E -> z^* = z -> mir2 h (-1) (jj_sin (oscale z E)) (jj_sin (oscale z E)).
Proof.
move=> H zr; have dE : dim E = total h by have [[d _] dA] := H; rewrite d dA.
split=> //; split=> // I J; rewrite [dim _]dE => hI hJ; have [E1 E2] := mir_swap H hI hJ.
rewrite /jj_sin !(e_scale, e_sub, e_adj) !cjM zr E1 E2.
by move: (par h I) (par h J) (ent E I J) ((ent E J I)^*) ((_ * 'i)^-1) => x y a b t; ring.
Qed.
Lemma mir_cos E z : mir2 h 1 (oadj E) E -> z^* = z -> mir2 h 1 (jj_cos (oscale z E)) (jj_cos (oscale z E)).
Proof.
move=> H zr; have dE : dim E = total h by have [[d _] dA] := H; rewrite d dA.
split=> //; split=> // I J; rewrite [dim _]dE => hI hJ; have [E1 E2] := mir_swap H hI hJ.
rewrite /jj_cos !(e_scale, e_add, e_adj) !cjM zr E1 E2.
by move: (par h I) (par h J) (ent E I J) ((ent E J I)^*) (2%:R^-1) => x y a b t; ring.
Qed.
End Ops.

Lemma expi_real (x : R) : sin x = 0 -> (expi x)^* = expi x.
Proof. by move=> s0; rewrite -expi_opp expi_still. Qed.

Lemma mod0 : modulus2 0 = 0.
Proof. by change (0 ^+ 2 + 0 ^+ 2 = 0 :> R); rewrite expr0n addr0. Qed.

Section Session.
Variables (disp : nat -> C -> op) (s : store) (x : circ).
Hypothesis D : displaces disp.
Hypothesis Rg : regular disp s x.
Let ks := mkKeys (c_keys_ind (x_c x)) (c_keys_jj (x_c x)).
Hypothesis F : inductor_free (hof x) ks.
Hypothesis St : still (loop_vals s x) (x_B x) ks.
Let h := hof x.
Let X := (hamil s x).1.
Variables (H : op) (ev : eigres).
Hypothesis EH : (hamil s x).2 = Ok H.
Let Y := put_eig X ev.

Lemma ham_is : hamiltonian disp h (evalue s) (loop_vals s x) (x_B x) ks = Ok H.
Proof. by have [E _] := hamilE s (rg_good Rg); rewrite -EH E. Qed.
Lemma ham_self : reversed h 1 H H /\ dim H = total h.
Proof.
split; last by have [] := hamiltonian_ok D.1 ham_is.
by apply: (ham_reversed D F ham_is); rewrite (still_ham _ _ _ St) ham_is.
Qed.
Lemma ham_mself : uncharged h -> mirrored h 1 H H.
Proof.
move=> U; apply: (ham_mirrored D F ham_is); by rewrite uncharged_same // (still_ham _ _ _ St) ham_is.
Qed.

Lemma loop_self l P : partial_H s Y (CLoop l) None = Ok (Some P) -> rev2 h (-1) P P.
Proof.
have [M [E FM]] := filledP Rg; rewrite /Y /X E /partial_H -[loop_index (put_eig (put_mem _ _ _) _) _]/(loop_index x l).
case: loop_index => [j|//]; rewrite -[x_c _]/(x_c x) -[x_mem _]/M -[x_B _]/(x_B x).
have [|Q [Q' [E1 E2 r]]] := @racc_rev h _ (-1) (fun k : edge * nat * nat => let '(_, el, b) := k in
    rscale (loop_coef (x_B x b j) (evalue s el)) (fetch (M_ind M) el b))
  (fun k : edge * nat * nat => let '(_, el, b) := k in
    rscale (loop_coef (x_B x b j) (evalue s el)) (fetch (M_ind M) el b)) (c_keys_ind (x_c x)) None None _ I.
  move=> [[e el] b] hk; have [A EA EM] := fl_ind FM hk.
  rewrite /fetch EM /=; eexists; eexists; split; try by [].
  apply: rev2_scale => //; have [c Ec cz] := F (k := (e, el, b)) hk; exact: flux_rev EA Ec cz.
have eQ : Q' = Q by move: E2; rewrite E1 => -[].
rewrite eQ in r; rewrite E1.
have [|V [V' [E3 E4 r2]]] := @racc_rev h _ (-1) (fun k : edge * nat * nat * nat => let '(_, el, b, _) := k in
    rscale (x_B x b j * evalue s el) (fetch (M_sin M) el b))
  (fun k : edge * nat * nat * nat => let '(_, el, b, _) := k in
    rscale (x_B x b j * evalue s el) (fetch (M_sin M) el b)) (c_keys_jj (x_c x)) Q Q _ r.
  move=> [[[e el] b] w] hk; have [_ EM _] := fl_jj FM hk.
  rewrite /fetch EM /=; eexists; eexists; split; try by [].
  apply: rev2_scale => //; have := sin_rev (expi (ext_flux (loop_vals s x) (x_B x) b)) (exp_self h D w).
  by rewrite expi_real //; exact: (St.2 (e, el, b, w) hk).
have eV : V' = V by move: E4; rewrite E3 => -[].
by rewrite E3 => -[eP]; move: r2; rewrite eV eP.
Qed.

Lemma ng_self i P : uncharged h -> partial_H_ng Y i = Ok (Some P) -> mir2 h (-1) P P.
Proof.
move=> U; have G := rg_good Rg; have [E0 [M [E1 [[SQ _ _ _] _]]]] := hamilE s G.
rewrite /Y /X E1 /partial_H_ng -[x_st _]/(x_st x) -[x_n _]/(x_n x); case: ifP => // _.
have Fr : fresh_ops disp x.
  by case: (g_ops G) => // m0; have [H'] := rg_ham Rg; rewrite E0 /ham_of /hamiltonian /= m0.
set f := (Z in racc Z) => EP.
apply: (@racc_mir h _ (-1) f (iota 0 (x_n x)) None (Some P) _ I EP).
move=> j A hj; have {}hj : (j < x_n x)%N by have /inP := hj; rewrite mem_iota.
rewrite /f -[x_mem _]/M SQ (fo_Q Fr) -map_comp (nth_map 0%N) ?size_iota // nth_iota // add0n => -[<-].
by apply: mir2_scale; apply: mirQ.
Qed.

Section Rates.
Variables (E : env) (q : quality) (m n : Z) (tot : bool) (w1 w2 : R) (v w : cvec) (r : R).
Hypothesis Lv : levels Y m n w1 w2 v w.

Lemma flux_none K z1 z2 : low_frequency E K -> lone H z1 v -> lone H z2 w ->
  dec_rate E s q Y (Some DFlux) m n tot = Ok (Some r) -> r = 0.
Proof.
move=> lf Lv1 Lv2 Hr; have [P [HP ->]] := flux_value lf Hr Lv.
have [Rv dH] := ham_self.
rewrite (eq_big_In (G := fun=> 0)); first by rewrite big1_eq.
move=> l hl; have RP := loop_self (HP _ hl).
rewrite /slope -!innerE (_ : complex.Re _ = 0); first by rewrite Rmult_0_l [Rabs _]Rabs_R0 [LHS]mul0r.
have a1 := mean_rev dH Lv1 Rv RP; have a2 := mean_rev dH Lv2 Rv RP.
by move: a1 a2; case: (inner v _ v) (inner w _ w) => a b [a' b']; rewrite /= => -> ->; rewrite subrr.
Qed.

Hypothesis U : uncharged h.
Lemma charge_none K z1 z2 : low_frequency E K -> lone H z1 v -> lone H z2 w ->
  dec_rate E s q Y (Some DCharge) m n tot = Ok (Some r) -> r = 0.
Proof.
move=> lf Lv1 Lv2 Hr; have [P [A [HP ->]]] := charge_value lf Hr Lv.
have [_ dH] := ham_self; have Mm := ham_mself U.
have [p1 Hp1] := lone_mir dH Lv1 Mm; have [p2 Hp2] := lone_mir dH Lv2 Mm.
have sq p : -1 * (psign p * psign p) = -1 by rewrite /psign; case: p; rewrite ?(mulr1, mulN1r, opprK).
rewrite big_seq_cond big1 // => i /andP [hi ch]; rewrite mem_iota add0n in hi.
have [EP _] := HP i hi ch; have MP := ng_self U EP.
rewrite -!innerE (inner_parity MP Hp1 Hp1 (sq _)) (inner_parity MP Hp2 Hp2 (sq _)) subrr.
by rewrite mod0 [sqrt _]sqrt_0 Rmult_0_l [Rabs _]Rabs_R0 [LHS]mul0r.
Qed.

Variable p : bool.
Hypothesis Pv : of_parity h p v.
Hypothesis Pw : of_parity h p w.
Hypothesis HT : Rlt 0 (Noise.T E).
Hypothesis Nw : w1 <> w2.
Hypothesis Hcut : Rle (thermal_ratio (abs_diff w2 w1) (Noise.T E)) (IZR 709).
Let sq : -1 * (psign p * psign p) = -1. Proof. by rewrite /psign; case: (p); rewrite ?(mulr1, mulN1r, opprK). Qed.
Lemma vecs_nz : size (e_vecs (x_eig Y)) <> 0%N.
Proof.
case: Lv => _ _ + _; rewrite /evec /py_nth /np_row /py_index => + S; rewrite S.
case: Z.leb_spec => H0; first by case: Z.ltb_spec => // H1; exfalso; rewrite /= in H1; lia.
by case: Z.leb_spec => // H1; exfalso; rewrite /= in H1; lia.
Qed.
Let Hh : hamil s x = (X, Ok H). Proof. by rewrite [LHS]surjective_pairing EH. Qed.

Lemma cap_none : dec_rate E s q Y (Some DCap) m n tot = Ok (Some r) -> r = 0.
Proof.
move=> Hr; have [M [Eh FL S Fr]] := hamil_filled (rg_good Rg) (rg_keys Rg) Hh.
have Fx : fresh_ops disp Y.
  rewrite /Y Eh; case: S => [[e1 e2 e3 e4] [e5 e6]].
  by case: Fr => F1 F2 F3 F4 F5 F6 F7 F8; split=> //=; rewrite ?e1 ?e2 ?e3 ?e4 ?e5 ?e6.
have [A [HA ->]] := cap_value HT Fx Hr Lv vecs_nz Nw Hcut.
rewrite (eq_big_In (G := fun=> 0)); first by rewrite big1_eq mulr0.
move=> [e c] hc; cbn [fst snd]; case Eq: (q_cap q c) => [Q|//].
have EA : coupling_op h (Some Capacitive) e = Ok (A e).
  by rewrite -(HA e c hc) ?Eq // /h /Y Eh.
by rewrite -innerE (inner_parity (mir_cap U EA) Pv Pw sq) mod0 mulr0.
Qed.
Lemma ind_none : dec_rate E s q Y (Some DInd) m n tot = Ok (Some r) -> r = 0.
Proof.
move=> Hr; have [A [HA ->]] := ind_value HT (rg_good Rg) (rg_keys Rg) Hh Hr Lv vecs_nz Nw Hcut.
rewrite (eq_big_In (G := fun=> 0)); first by rewrite big1_eq mulr0.
move=> k hk; case: q_ind => [Q|//]; have EA := HA _ hk; have [c Ec cz] := F hk.
by rewrite -innerE (inner_parity (mir_flux U EA Ec cz) Pv Pw sq) mod0 mulr0.
Qed.
Lemma qp_none : unbiased (loop_vals s x) -> dec_rate E s q Y (Some DQp) m n tot = Ok (Some r) -> r = 0.
Proof.
move=> ub Hr; rewrite (qp_value HT (rg_good Rg) (rg_keys Rg) Hh Hr Lv vecs_nz Nw Hcut).
rewrite (eq_big_In (G := fun=> 0)); first by rewrite big1_eq mulr0.
move=> k hk; case: q_jj => [Q|//].
have -> : ext_flux (loop_vals s x) (x_B x) k.1.2 = 0.
  by rewrite /ext_flux big1 // => i _; rewrite (ub _ (mem_nth 0 (ltn_ord i))) mul0r.
rewrite -innerE (inner_parity (p := p) (q := p) (h := h) (sg := -1)) ?mod0 ?mulr0 //.
rewrite /jj_root; apply: mir_sin; first exact: mir_root.
have -> : halfR 0 = 0 by rewrite /halfR /Rdiv Rmult_0_l.
by apply: expi_real; exact: sin_0.
Qed.
End Rates.
End Session.
