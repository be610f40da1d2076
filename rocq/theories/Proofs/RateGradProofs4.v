(** RateGradProofs4.v -- derivatives of the dephasing rates of a regular circuit. *)
From Coq Require Import Reals ZArith String Lra.
From Verif.Spec Require Import ThermalSpec.
From Verif.Proofs Require Import ThermalProofs CDeriv.
From Verif.Model Require Import Base Units Noise Edge Elements LCWB HamConst PartialConst Thermal RateConst.
Lemma charge_amp_pos A : (0 < A)%R -> (0 < charge_amp A)%R.
Proof. intros H. unfold charge_amp. apply Rmult_lt_0_compat; [lra|]. unfold e_charge. lra. Qed.
Lemma charge_amp_0 : charge_amp 0 = 0%R.
Proof. unfold charge_amp. ring. Qed.
From mathcomp Require Import all_ssreflect all_algebra.
From mathcomp Require Import complex.
From Verif.Numerics Require Import RStruct Bridge.
From Verif.Model Require Import Transform Op Ham Diag CircuitSM Partial DecRate TorchRates.
From Verif.Spec Require Import OpSpec GradSpec PerturbSpec DecSpec RateGradSpec.
From Verif.Proofs Require Import OpProofs HamProofs HamProofs2 SMProofs MemProofs GradProofs PerturbProofs PerturbProofs2
  NgProofs SecondOrder RateGradProofs RateGradProofs2 RateGradProofs3 DecProofs DecProofs2 DecProofs3.
From Verif.Properties Require Import P_Ng.

Set Implicit Arguments.
Unset Strict Implicit.
Unset Printing Implicit Defensive.
Import GRing.Theory.
Local Open Scope ring_scope.
Local Open Scope complex_scope.

Lemma cos_mem_filled disp s x M l : filled disp s x M ->
  cos_mem (put_eig (put_mem x M (x_LC x)) l) = [seq (k.1.1.2, k.1.2) | k <- c_keys_jj (x_c x)].
Proof.
move=> F; rewrite /cos_mem -[x_mem _]/M -[x_c (put_eig _ _)]/(x_c x).
have : forall k, List.In k (c_keys_jj (x_c x)) -> exists X, M_cos M k.1.1.2 k.1.2 = Some X.
  by move=> [[[e el] b] w] Hin; have [-> _ _] := fl_jj F Hin; eexists.
elim: (c_keys_jj (x_c x)) => //= k ks IH Hl.
have [X ->] := Hl k (or_introl erefl); rewrite /= IH // => j hj; apply: Hl; by right.
Qed.

Lemma amp_deriv (a : R) s c el : has_derivative (fun t => Rmult a (evalue (changed s c t) el)) (comp_value s c)
  (match c with CEl el0 => if el0 == el then a else R0 | CLoop _ => R0 end).
Proof.
case: c => [el'|l]; last exact: (hd_const (Rmult a (evalue s el))).
case: eqP => [->|Nel].
  have H := hd_scal a _ _ _ (hd_id (comp_value s (CEl el))); rewrite Rmult_1_r in H.
  by apply: hd_ext H => u /=; rewrite Nat.eqb_refl.
apply: hd_ext (hd_const (Rmult a (evalue s el)) _) => u /=; case: Nat.eqb_spec => // Eel; by case: Nel.
Qed.

Lemma slope_abs N v w P : dim P = N -> hermitian N (ent P) ->
  sqrt (modulus2 (braket v P v - braket w P w)) = Rabs (slope v w P).
Proof.
move=> dP hP.
have I u : complex.Im (braket u P u) = 0.
  by rewrite (braket_dot _ _ dP); apply: conj_real; apply: dot_herm.
rewrite /slope; set z := braket v P v - braket w P w.
have -> : z = (complex.Re z)%:C.
  have : complex.Im z = 0 by rewrite /z; move: (I v) (I w); case: (braket v P v) (braket w P w) => a b [a' b'] /= -> ->; rewrite subrr.
  by case: z => a b /= ->.
by rewrite modulus_real -sqrt_Rsqr_abs.
Qed.
Lemma abs_abs a b : Rabs (Rmult (Rabs a) b) = Rabs (Rmult a b).
Proof. by rewrite !Rabs_mult Rabs_Rabsolu. Qed.

Section Rates.
Variables (disp : nat -> C -> op) (E : env) (q : quality) (s : store) (x : circ) (c : LCWB.comp).
Hypothesis dims : forall m a, dim (disp m a) = m.
Hypothesis Rg : regular disp s x.
Hypothesis kind : match c with CLoop l => l \in c_loops (x_c x) | CEl el => ekind s el = KJJ end.
Variables (e : R -> eigres) (m n : nat) (total : bool) (rate : R -> R) (g : R).
Let N := HamProofs.total (hof x).
Let t0 := comp_value s c.
Let xt := at_value s x c e.
Let zm := Z.of_nat m.
Let zn := Z.of_nat n.
Let vec k t := nth (fun=> 0) (e_vecs (e t)) k.
Variables (eps : R) (corr : op -> option op -> R).
Hypothesis rule : slopes_follow s x c e m n eps corr.
Let kf : R := if log_factor E is Some k then k else 0.

Let Rt t : regular disp (changed s c t) x.
Proof. by apply: regular_store Rg _; apply: changed_kind. Qed.
Let kind' : match c with CLoop _ => True | CEl el => ekind s el = KJJ end.
Proof. by move: kind; case: (c). Qed.
Let xcE t : x_c (xt t) = x_c x.
Proof. by rewrite /xt /at_value; have [M [-> _]] := filledP (Rt t). Qed.
Let at0 : changed s c t0 = s. Proof. exact: changed_same. Qed.

Lemma evecs_near : near t0 (fun t => evec (xt t) zm = Ok (vec m t) /\ evec (xt t) zn = Ok (vec n t)).
Proof. by apply: near_mono (sf_vecs rule) => t [h1 h2]; rewrite /evec !py_nthE. Qed.
Definition opt_op (r : res (option op)) : option op := if r is Ok P then P else None.
Let sl P := slope (vec m t0) (vec n t0) P.

Definition flux_corr (l : nat) : R :=
  sign (sl (some_op (partial_H s (xt t0) (CLoop l) None))) * kf *
  (a_loop q l * corr (some_op (partial_H s (xt t0) (CLoop l) None)) (opt_op (partial_squared_H_phi s (xt t0) l c))).
Definition cc_corr (k : nat * nat) : R :=
  sign (sl (some_op (partial_H s (xt t0) (CEl k.1) (Some k.2)))) * kf *
  (a_jj q k.1 * evalue s k.1 *
   corr (some_op (partial_H s (xt t0) (CEl k.1) (Some k.2))) (opt_op (partial_squared_H_EJ (xt t0) k.1 k.2 c))).
Definition charge_corr (i : nat) : R :=
  if ~~ is_charge (x_st x) i then 0 else
  if isl x i is Some a then sign (sl (some_op (partial_H_ng (xt t0) i))) * kf *
    (charge_amp a.2 * corr (some_op (partial_H_ng (xt t0) i)) None) else 0.

Lemma flux_rate_deriv :
  near t0 (fun t => dec_rate E (changed s c t) q (xt t) (Some DFlux) zm zn total = Ok (Some (rate t))) ->
  partial_flux_dec E s q (xt t0) c zm zn eps = Ok (Some g) ->
  (forall l, List.In l (c_loops (x_c x)) -> a_loop q l = 0 \/
     Rlt 0 (a_loop q l) /\ partial_omega_mn s (xt t0) (CLoop l) zm zn None <> Ok 0) ->
  has_derivative rate t0 (g + \sum_(l <- c_loops (x_c x)) flux_corr l).
Proof.
move=> Hr; rewrite /partial_flux_dec xcE => Hg Hc.
apply: (@sum_rule _ (fun t => flux_rate E (changed s c t) q (xt t) zm zn) _ flux_corr _ _ _ _ _ Hg) => [|l hl Hf].
  apply: near_mono Hr => t; rewrite /dec_rate xcE; case: ifP => // _.
  by case: efreq => [w1|] //; case: efreq => [w2|] //; case: evec => [v|] //; case: evec => [w|].
have nv := evecs_near.
pose G t := reported_grad (changed s c t) x (CLoop l) None.
have HG : near t0 (fun t => exists P, G t = Ok (Some P) /\
    forall K, log_factor E = Some K ->
    rate_val (flux_rate E (changed s c t) q (xt t) zm zn l) =
    Rabs (slope (vec m t) (vec n t) P * a_loop q l) * K).
  apply: near_mono (near_and nv Hf) => t [[E1 E2]]; rewrite /flux_rate.
  case Ep: partial_omega_mn => [p|z] //; cbn [bind] => _.
  have [P [EP ->]] := omega_mn_value E1 E2 Ep; exists P; split=> // K EK.
  by rewrite /dephasing EK.
have [P0 [EP0 _]] := near_at HG.
rewrite /flux_dec_term; case Ep: partial_omega_mn => [p|z] //; cbn [bind].
have [v1 v2] := near_at nv.
have [P1 [EP1 EP1']] := omega_mn_value v1 v2 Ep.
have EG : G t0 = Ok (Some P1) by rewrite /G at0; move: EP1; rewrite /xt /at_value at0.
rewrite /partial_squared_omega_mn_phi EP1; cbn [bind].
case E2: partial_squared_H_phi => [P2|z] //; cbn [bind].
case E3: partial_squared_omega => [p2|z] //; cbn [bind].
rewrite /partial_dephasing_rate; case EK: log_factor => [K|//] _.
rewrite [X in Rplus X _]/rate_val EP1'.
have [r [r0 Hr']] := HG.
apply: (hd_near (fun t => Rabs (slope (vec m t) (vec n t) (some_op (G t)) * a_loop q l) * K) _ _ _ _ r0).
  by move=> t /Hr' [P [-> /(_ _ EK) <-]].
have -> : slope (nth (fun=> 0) (e_vecs (e t0)) m) (nth (fun=> 0) (e_vecs (e t0)) n) P1 =
          slope (vec m t0) (vec n t0) (some_op (G t0)) by rewrite EG.
have E2' : partial_squared_H_phi s (hamil s x).1 l c = Ok P2 by move: E2; rewrite /xt /at_value at0.
have -> : flux_corr l = sign (slope (vec m t0) (vec n t0) (some_op (G t0))) * K * (a_loop q l * corr P1 P2).
  by rewrite /flux_corr EP1 E2 /kf EK EG.
apply: (@term_rule (fun t => slope (vec m t) (vec n t) (some_op (G t))) (fun=> a_loop q l) t0 0 K p2 _ _ (hd_const _ _)).
- apply: (sf_slope rule) EG E3.
  + by apply: near_mono HG => t [P [EP _]]; exists P.
  + by move=> t P EP; exact: (loop_ok dims (Rt t) EP).
  + by apply: (phi2_ok dims Rg kind' E2').
  + by move=> i j; apply: (flux_deriv Rg kind) => //; apply: NgProofs.inP.
- have [Hz|[Ha Hs]] := Hc l hl; [right; split=> // u | left; split=> // Hz].
  by apply: Hs; rewrite Ep EP1'; congr Ok; apply: etrans Hz; rewrite EG.
Qed.

Lemma cos_keys t : cos_mem (xt t) = [seq (k.1.1.2, k.1.2) | k <- c_keys_jj (x_c x)].
Proof. by rewrite /xt /at_value; have [M [-> F]] := filledP (Rt t); apply: cos_mem_filled F. Qed.

Lemma cc_rate_deriv :
  near t0 (fun t => dec_rate E (changed s c t) q (xt t) (Some DCC) zm zn total = Ok (Some (rate t))) ->
  partial_cc_dec E s q (xt t0) c zm zn eps = Ok (Some g) ->
  (forall e' el b w, List.In (e', el, b, w) (c_keys_jj (x_c x)) -> a_jj q el = 0 \/
     Rlt 0 (a_jj q el * evalue s el) /\ partial_omega_mn s (xt t0) (CEl el) zm zn (Some b) <> Ok 0) ->
  has_derivative rate t0 (g + \sum_(k <- cos_mem (xt t0)) cc_corr k).
Proof.
move=> Hr; rewrite /partial_cc_dec cos_keys => Hg Hc.
apply: (@sum_rule _ (fun t => cc_rate E (changed s c t) q (xt t) zm zn) _ cc_corr _ _ _ _ _ Hg) => [|k hk Hf].
  apply: near_mono Hr => t; rewrite /dec_rate cos_keys; case: ifP => // _.
  by case: efreq => [w1|] //; case: efreq => [w2|] //; case: evec => [v|] //; case: evec => [w|].
have [[[[e' el] b] w] hin Ek] := In_map hk; subst k => /=; clear hk.
have nv := evecs_near.
pose G t := reported_grad (changed s c t) x (CEl el) (Some b).
pose A t := a_jj q el * evalue (changed s c t) el.
have HG : near t0 (fun t => exists P, G t = Ok (Some P) /\
    forall K, log_factor E = Some K ->
    rate_val (cc_rate E (changed s c t) q (xt t) zm zn (el, b)) =
    Rabs (slope (vec m t) (vec n t) P * A t) * K).
  apply: near_mono (near_and nv Hf) => t [[E1 E2]]; rewrite /cc_rate /=.
  case Ep: partial_omega_mn => [p|z] //; cbn [bind] => _.
  have [P [EP ->]] := omega_mn_value E1 E2 Ep; exists P; split=> // K EK.
  by rewrite /dephasing EK.
have [P0 [EP0 _]] := near_at HG.
rewrite /cc_dec_term -[(el, b).1]/el -[(el, b).2]/b; case Ep: partial_omega_mn => [p|z] //; cbn [bind].
have [v1 v2] := near_at nv.
have [P1 [EP1 EP1']] := omega_mn_value v1 v2 Ep.
have EG : G t0 = Ok (Some P1) by rewrite /G at0; move: EP1; rewrite /xt /at_value at0.
rewrite /partial_squared_omega_mn_EJ -[(el, b).1]/el -[(el, b).2]/b EP1; cbn [bind].
case E2: partial_squared_H_EJ => [P2|z] //; cbn [bind].
case E3: partial_squared_omega => [p2|z] //; cbn [bind].
rewrite /partial_dephasing_rate; case EK: log_factor => [K|//] _.
rewrite [X in Rplus X _]/rate_val EP1'.
have [r [r0 Hr']] := HG.
apply: (hd_near (fun t => Rabs (slope (vec m t) (vec n t) (some_op (G t)) * A t) * K) _ _ _ _ r0).
  by move=> t /Hr' [P [-> /(_ _ EK) <-]].
have -> : slope (nth (fun=> 0) (e_vecs (e t0)) m) (nth (fun=> 0) (e_vecs (e t0)) n) P1 =
          slope (vec m t0) (vec n t0) (some_op (G t0)) by rewrite EG.
have E2' : partial_squared_H_EJ (hamil s x).1 el b c = Ok P2 by move: E2; rewrite /xt /at_value at0.
have Ej : ekind s el = KJJ := rg_jj Rg hin.
have -> : cc_corr (el, b) = sign (slope (vec m t0) (vec n t0) (some_op (G t0))) * K * (A t0 * corr P1 P2).
  by rewrite /cc_corr -[(el, b).1]/el -[(el, b).2]/b EP1 E2 /kf EK EG /A at0.
pose dA : R := match c with CEl el0 => if el0 == el then a_jj q el else 0 | CLoop _ => 0 end.
have EA0 : A t0 = a_jj q el * evalue s el by rewrite /A at0.
apply: (hd_eq _ _ _ _ (@term_rule (fun t => slope (vec m t) (vec n t) (some_op (G t))) A t0 dA K p2 (corr P1 P2) _ _ _));
  last by rewrite EA0.
- apply: (sf_slope rule) EG E3.
  + by apply: near_mono HG => t [P [EP _]]; exists P.
  + by move=> t P EP; apply: (jj_ok dims (Rt t) _ EP); rewrite changed_kind.
  + by apply: (EJ2_ok dims Rg hin E2').
  + by move=> i j; apply: (cc_deriv Rg kind _ _ hin).
- exact: amp_deriv.
- have [Hz|[Ha Hs]] := Hc e' el b w hin; [right; split=> [u|] | left; split=> [|Hz]].
  + by rewrite /A Hz mul0r.
  + by rewrite /dA; case: (c) => [el'|//]; case: eqP; rewrite // Hz.
  + by rewrite /A at0.
  + by apply: Hs; rewrite Ep EP1'; congr Ok; apply: etrans Hz; rewrite EG.
Qed.

Lemma charge_rate_deriv :
  near t0 (fun t => dec_rate E (changed s c t) q (xt t) (Some DCharge) zm zn total = Ok (Some (rate t))) ->
  partial_charge_dec E s (xt t0) c zm zn eps = Ok (Some g) ->
  (forall i ng A, (i < x_n x)%N -> is_charge (x_st x) i -> isl x i = Some (ng, A) -> A = 0 \/
     Rlt 0 A /\ partial_omega_ng (xt t0) i zm zn <> Ok 0) ->
  has_derivative rate t0 (g + \sum_(i <- iota 0 (x_n x)) charge_corr i).
Proof.
move=> Hr; have En t : x_n (xt t) = x_n x by rewrite /xt /at_value; have [M [-> _]] := filledP (Rt t).
have Est t : x_st (xt t) = x_st x by rewrite /xt /at_value; have [M [-> _]] := filledP (Rt t).
have Ei t i : isl (xt t) i = isl x i by rewrite /xt /at_value; have [M [-> _]] := filledP (Rt t).
rewrite /partial_charge_dec En => Hg Hc.
have nv := evecs_near.
apply: (@sum_rule _ (fun t => charge_rate E (xt t) (vec m t) (vec n t)) _ charge_corr _ _ _ _ _ Hg) => [|i hi Hf].
  apply: near_mono (near_and nv Hr) => t [[E1 E2]]; rewrite /dec_rate En E1 E2; case: ifP => // _.
  by case: efreq => [w1|] //; case: efreq => [w2|] //.
have hi' : (i < x_n x)%N by move: (NgProofs.inP hi); rewrite mem_iota.
rewrite /charge_dec_term Est.
case ch: (is_charge (x_st x) i) => /= Ed; last first.
  rewrite /charge_corr ch; apply: (hd_eq _ _ 0); last exact: (esym (addr0 (0 : R))).
  by apply: hd_ext (hd_const 0 t0) => t; rewrite /charge_rate Est ch.
have HG : exists P A ng, [/\ partial_H_ng (hamil s x).1 i = Ok (Some P), isl x i = Some (ng, A) &
   forall K, log_factor E = Some K -> near t0 (fun t => rate_val (charge_rate E (xt t) (vec m t) (vec n t) i) =
    Rabs (slope (vec m t) (vec n t) P * charge_amp A) * K)].
  have ngE t : partial_H_ng (xt t) i = partial_H_ng (hamil s x).1 i.
    by rewrite -(ng_const (changed s c t) i Rg).
  have Ef := near_at Hf; move: Ef; rewrite /charge_rate Est ch /= ngE Ei.
  case EP: partial_H_ng => [[P|]|z] //; cbn [bind inner0]; case EI: (isl x i) => [[ng A]|] // _.
  exists P, A, ng; split=> // K EK; apply: near_mono Hf => t _.
  rewrite /charge_rate Est ch /= ngE EP Ei EI; cbn [bind inner0].
  have [dP _] := ng_ok Rg EP.
  by rewrite /dephasing EK /= /cabs abs2E !innerE (slope_abs _ _ dP (ok_herm (ng_ok Rg EP))) abs_abs.
move: Ed; have [P [A [ng [EP EI HG']]]] := HG; rewrite Ei EI.
have EP' : partial_H_ng (xt t0) i = Ok (Some P) by rewrite -EP /xt /at_value at0.
have [v1 v2] := near_at nv.
have [sv _] := near_at (sf_vecs rule).
have N0 : (size (e_vecs (x_eig (xt t0))) == 0%N) = false by rewrite -[x_eig _]/(e t0); case: (size _) sv.
have Ep : partial_omega_ng (xt t0) i zm zn = Ok (slope (vec m t0) (vec n t0) P).
  rewrite /partial_omega_ng Est ch /= /evecs_at N0 v1 v2; cbn [bind].
  by rewrite EP'; cbn [bind inner0]; rewrite !innerE.
rewrite Ep; cbn [bind]; rewrite /partial_squared_omega_mn_ng Est ch EP'; cbn [bind negb].
have -> : partial_squared_H_ng s (xt t0) i c = Ok None.
  by rewrite /partial_squared_H_ng Est ch /=; move: kind; case: (c) => [el ->|].
cbn [bind]; case E3: partial_squared_omega => [p2|z] //; cbn [bind].
rewrite /partial_dephasing_rate; case EK: log_factor => [K|//] _.
have Esl : sl (some_op (Ok (Some P))) = slope (vec m t0) (vec n t0) P by [].
have -> : charge_corr i = sign (slope (vec m t0) (vec n t0) P) * K * (charge_amp A * corr P None).
  by rewrite /charge_corr ch /= EI EP' Esl /kf EK.
rewrite [X in Rplus X _]/rate_val.
have [r [r0 Hr']] := HG' K EK.
apply: (hd_near (fun t => Rabs (slope (vec m t) (vec n t) P * charge_amp A) * K) _ _ _ _ r0).
  by move=> t /Hr' <-.
apply: (@term_rule (fun t => slope (vec m t) (vec n t) P) (fun=> charge_amp A) t0 0 K p2 _ _ (hd_const _ _)).
- apply: ((sf_slope rule) (fun=> Ok (Some P))) erefl E3.
  + by exists 1; split=> [|t _]; [exact: Rlt_0_1 | exists P].
  + by move=> t P' [<-]; apply: (ng_ok Rg EP).
  + by [].
  + by move=> a b; apply: cd_const.
- have [Hz|[Ha Hs]] := Hc i ng A hi' ch EI; [right; split=> // u | left; split=> [|Hz]].
  + by rewrite Hz; apply: charge_amp_0.
  + exact: charge_amp_pos.
  + by apply: Hs; rewrite Ep; congr Ok; exact: Hz.
Qed.
End Rates.
