(** P_RateGrad.v -- C68: gradients of the dephasing rates with respect to loops and
    junctions. *)
From Coq Require Import Reals ZArith String Lra.
From Verif.Spec Require Import ThermalSpec.
From Verif.Model Require Import Base Noise Thermal.
From Verif.Proofs Require Import ThermalProofs CDeriv.
Lemma hd_chain f l t d g : has_derivative f t d -> has_derivative l (f t) g ->
  has_derivative (fun u => l (f u)) t (Rmult g d).
Proof. rewrite !has_derivative_iff. intros H1 H2. exact (derivable_pt_lim_comp f l t d g H1 H2). Qed.
Lemma sign_zero k a : Rmult (Rmult (Thermal.sign 0) k) a = 0%R.
Proof. rewrite (proj2 (proj2 (ThermalProofs.sign_spec 0)) eq_refl). ring. Qed.
Lemma far_quot y h p : (h <> 0)%R -> (Rabs (y / h - p) < Rabs p / 4)%R -> (3 * Rabs p / 4 * Rabs h < Rabs y)%R.
Proof.
  intros Hh H. assert (A : (0 < Rabs h)%R) by (apply Rabs_pos_lt; exact Hh).
  assert (B := Rabs_triang_inv p (y / h)). rewrite (Rabs_minus_sym p) in B.
  assert (C : (3 * Rabs p / 4 < Rabs (y / h))%R) by lra.
  unfold Rdiv in C. rewrite Rabs_mult, Rabs_inv in C.
  apply Rmult_lt_compat_r with (r := Rabs h) in C; [|exact A].
  replace (Rabs y * / Rabs h * Rabs h)%R with (Rabs y) in C by (field; lra). exact C.
Qed.
Lemma no_slope k f p t : has_derivative f t p -> f t = 0%R -> p <> 0%R -> (0 < k)%R ->
  forall d, ~ has_derivative (fun u => Rmult (Rabs (f u)) k) t d.
Proof.
  intros H1 H0 Hp Hk d H2.
  set (a := Rabs p). assert (Ha : (0 < a)%R) by (apply Rabs_pos_lt; exact Hp).
  destruct (H1 (a / 4)%R ltac:(lra)) as [d1 [P1 Q1]].
  assert (Hka : (0 < k * a)%R) by (apply Rmult_lt_0_compat; assumption).
  destruct (H2 (k * a / 4)%R ltac:(lra)) as [d2 [P2 Q2]].
  set (h := (Rmin d1 d2 / 2)%R).
  assert (Hm : (0 < Rmin d1 d2)%R) by (apply Rmin_pos; assumption).
  assert (M1 := Rmin_l d1 d2). assert (M2 := Rmin_r d1 d2).
  assert (Hh : (0 < h)%R) by (unfold h; lra).
  assert (S1 : forall u, u <> 0%R -> (Rabs u = h)%R -> (3 * a / 4 * h < Rabs (f (t + u)))%R).
  { intros u Hu Eu. rewrite <- Eu. apply (far_quot _ u p Hu). fold a.
    replace (f (t + u))%R with (f (t + u) - f t)%R by (rewrite H0; ring). apply Q1; [exact Hu|]. rewrite Eu. unfold h. lra. }
  assert (E1 : Rabs h = h) by (apply Rabs_pos_eq; lra).
  assert (E2 : Rabs (- h) = h) by (rewrite Rabs_Ropp; exact E1).
  assert (T1 := S1 h ltac:(lra) E1). assert (T2 := S1 (- h)%R ltac:(lra) E2).
  assert (U1 := Q2 h ltac:(lra) ltac:(rewrite E1; unfold h; lra)).
  assert (U2 := Q2 (- h)%R ltac:(lra) ltac:(rewrite E2; unfold h; lra)).
  simpl in U1, U2. rewrite H0, Rabs_R0, Rmult_0_l, Rminus_0_r in U1, U2.
  apply Rabs_def2 in U1. apply Rabs_def2 in U2.
  assert (V1 : (k * a / 4 * 3 < Rabs (f (t + h)) * k / h)%R).
  { apply Rmult_lt_reg_r with h; [exact Hh|]. replace (Rabs (f (t + h)) * k / h * h)%R with (Rabs (f (t + h)) * k)%R by (field; lra).
    replace (k * a / 4 * 3 * h)%R with (3 * a / 4 * h * k)%R by (unfold Rdiv; ring). apply Rmult_lt_compat_r; assumption. }
  assert (V2 : (Rabs (f (t + - h)) * k / - h < - (k * a / 4 * 3))%R).
  { apply Rmult_lt_reg_r with h; [exact Hh|]. replace (Rabs (f (t + - h)) * k / - h * h)%R with (- (Rabs (f (t + - h)) * k))%R by (field; lra).
    replace (- (k * a / 4 * 3) * h)%R with (- (3 * a / 4 * h * k))%R by (unfold Rdiv; ring).
    apply Ropp_lt_contravar. apply Rmult_lt_compat_r; assumption. }
  lra.
Qed.
Lemma no_slope_amp sl t p2 : has_derivative sl t p2 -> sl t = 0%R -> p2 <> 0%R ->
  forall a k dr, (0 < a)%R -> (0 < k)%R -> ~ has_derivative (fun y => Rmult (Rabs (Rmult (sl y) a)) k) t dr.
Proof.
  intros Hs s0 p0 a k dr a0 k0 H.
  apply (no_slope (Rmult a k) sl p2 t Hs s0 p0 (Rmult_lt_0_compat _ _ a0 k0) dr).
  apply (hd_ext (fun y => Rmult (Rabs (Rmult (sl y) a)) k)); [|exact H].
  intros y. rewrite Rabs_mult, (Rabs_pos_eq a); [ring|lra].
Qed.
Lemma case_up : Rdiv (Rmult 2 1) (Rplus 1 (Ropp (Ropp 1))) = 1%R.
Proof. field. Qed.
Lemma case_down : Rdiv (Rmult 2 1) (Rplus (Ropp 1) (Ropp 1)) = Ropp 1.
Proof. field. Qed.
Lemma plus_zero a b : b = 0%R -> Rplus a b = a.
Proof. intros ->. ring. Qed.
Lemma mult_zero a b k : Rmult (Rmult a k) (Rmult b 0) = 0%R.
Proof. ring. Qed.
Lemma half_norm t : (cos (t / 2) * cos (t / 2) + sin (t / 2) * sin (t / 2) = 1)%R.
Proof. assert (H := sin2_cos2 (t / 2)). unfold Rsqr in H. lra. Qed.
From Verif.Model Require Import Base Units Noise Edge Elements LCWB HamConst PartialConst Thermal RateConst.
From mathcomp Require Import all_ssreflect all_algebra.
From mathcomp Require Import complex.
From Verif.Numerics Require Import RStruct Bridge.
From Verif.Model Require Import Transform Op Ham Diag CircuitSM Partial DecRate TorchRates.
From Verif.Spec Require Import OpSpec SessionSpec GradSpec PerturbSpec DecSpec RateGradSpec.
From Verif.Proofs Require Import OpProofs HamProofs HamProofs2 SMProofs MemProofs GradProofs PerturbProofs PerturbProofs2
  SecondOrder RateGradProofs RateGradProofs2 RateGradProofs3 RateGradProofs4 RateGradProofs5 DecProofs DecProofs2 DecProofs3.
From Verif.Properties Require Import P_Perturb.

Set Implicit Arguments.
Unset Strict Implicit.
Unset Printing Implicit Defensive.
Import GRing.Theory.
Local Open Scope ring_scope.
Local Open Scope complex_scope.

(** *** The second derivative of an eigenfrequency *)
Section Formula.
Variables (s : store) (x : circ) (c : LCWB.comp) (A : op).
Let vs := e_vecs (x_eig x).
Let fr n := nth 0 (e_freqs (x_eig x)) n.
Let vec n := nth (fun=> 0) vs n.
Let N := dim A.
Hypothesis grad : partial_H s x c None = Ok (Some A).
Hypothesis sizes : size (e_freqs (x_eig x)) = size vs.
Hypothesis onb : orthonormal N vs.

Theorem C68_formula P P2 m n eps g : sized N P -> sized N P2 -> hermitian N (opt_entry P) ->
  (m < size vs)%N -> (n < size vs)%N ->
  partial_squared_omega s x c P P2 (Z.of_nat m) (Z.of_nat n) eps = Ok g ->
  g = second_order N (size vs) vec fr eps (opt_entry P) (opt_entry P2) (ent A) m -
      second_order N (size vs) vec fr eps (opt_entry P) (opt_entry P2) (ent A) n.
Proof. exact: squared_formula. Qed.
End Formula.
Print Assumptions C68_formula.

(** With fewer eigenvectors the terms of the others are missing. *)
Definition missing (N K K' : nat) (vec : nat -> nat -> C) (fr : nat -> R) (eps : R) (G P : nat -> nat -> C)
    (m : nat) : R :=
  \sum_(K <= k < K') Rmult 2 (complex.Re (sandwich N (vec m) G (vec k) * sandwich N (vec k) P (vec m)))
     / (fr m - fr k + eps).
Theorem C68_truncated N K K' vec fr eps G G2 P m : (m < K)%N -> (K <= K')%N ->
  second_order N K' vec fr eps G G2 P m =
  second_order N K vec fr eps G G2 P m + missing N K K' vec fr eps G P m.
Proof.
move=> hm hK; rewrite /second_order /missing -addrA; congr (_ + _).
rewrite -(big_mkord (fun k => k != m) (fun k =>
  Rmult 2 (complex.Re (sandwich N (vec m) G (vec k) * sandwich N (vec k) P (vec m))) / (fr m - fr k + eps))).
rewrite (big_cat_nat _ _ _ (leq0n K) hK) /= big_mkord; congr (_ + _).
rewrite big_nat_cond [RHS]big_nat_cond; apply: eq_bigl => k.
rewrite andbT; case H: (K <= k < K')%N => //=; move/andP: H => [h1 _].
by apply/eqP => E; move: h1; rewrite E leqNgt hm.
Qed.
Print Assumptions C68_truncated.

Section Session.
Variables (disp : nat -> C -> op) (optim : bool) (o : oracle) (s0 : store) (lobj : nat -> lrec) (fd : string).
Variables (d : seq (edge * seq nat)) (x0 : circ) (u : ustate) (cs : seq call) (tr : seq (world * res unit)).
Hypothesis dims : forall m a, dim (disp m a) = m.
Hypothesis built_ok : construct optim o s0 lobj fd d = Some (Ok x0).
Hypothesis session : run disp optim (mkW s0 u x0) cs = Some tr.
Hypothesis updates : updates_ok optim (mkW s0 u x0) cs tr.
Let s := w_s (final (mkW s0 u x0) tr).
Let x := w_x (final (mkW s0 u x0) tr).
Variable H0 : op.
Hypothesis formed : (hamil s x).2 = Ok H0.
Variables (E : env) (q : quality) (c : LCWB.comp).
Hypothesis kind : match c with CLoop l => l \in c_loops (x_c x) | CEl el => ekind s el = KJJ end.
Let R1 : regular disp s x.
Proof. by apply: (session_regular built_ok session updates); exists H0. Qed.
Let N := dim H0.
Let dN : N = HamProofs.total (hof x).
Proof. by have [EH _] := hamilE s (rg_good R1); move: formed; rewrite EH => /(hamiltonian_ok dims) []. Qed.
Let t0 := comp_value s c.
Let h := ham_family s x c.
Variables (e : R -> eigres) (m n : nat) (total : bool) (rate : R -> R) (g : R).
Let xt := at_value s x c e.
Let zm := Z.of_nat m.
Let zn := Z.of_nat n.
Hypothesis track_m : tracked N h t0 e m.
Hypothesis track_n : tracked N h t0 e n.

(** The rates that dec_rate reports near the value of the component, and the
    reported gradient. *)
Definition rate_near (dt : dec_type) : Prop :=
  near t0 (fun t => dec_rate E (changed s c t) q (xt t) (Some dt) zm zn total = Ok (Some (rate t))).
(** No term of the rate has a kink: its noise is switched off, or its slope is not 0. *)
Definition no_kink_flux : Prop := forall l, List.In l (c_loops (x_c x)) -> a_loop q l = 0 \/
  Rlt 0 (a_loop q l) /\ partial_omega_mn s (xt t0) (CLoop l) zm zn None <> Ok 0.
Definition no_kink_cc : Prop := forall e' el b w, List.In (e', el, b, w) (c_keys_jj (x_c x)) -> a_jj q el = 0 \/
  Rlt 0 (a_jj q el * evalue s el) /\ partial_omega_mn s (xt t0) (CEl el) zm zn (Some b) <> Ok 0.
Definition no_kink_charge : Prop := forall i ng A, (i < x_n x)%N -> is_charge (x_st x) i -> isl x i = Some (ng, A) ->
  A = 0 \/ Rlt 0 A /\ partial_omega_ng (xt t0) i zm zn <> Ok 0.

Section Complete.
Hypothesis all_levels : complete N (h t0) (e t0).
Hypothesis hm : (m < N)%N.
Hypothesis hn : (n < N)%N.
Let rule : slopes_follow s x c e m n 0 (fun _ _ => 0).
Proof.
move: all_levels track_m track_n hm hn; rewrite dN => al tm tn h1 h2.
exact: (follow_complete dims R1 kind tm tn h1 h2 al).
Qed.

(** With all levels computed the gradients are the derivatives of the rates. *)
Theorem C68_flux : rate_near DFlux -> partial_flux_dec E s q (xt t0) c zm zn 0 = Ok (Some g) -> no_kink_flux ->
  has_derivative rate t0 g.
Proof.
move=> Hr Hg Hc; apply: hd_eq (flux_rate_deriv dims R1 kind rule Hr Hg Hc) _.
by apply: plus_zero; apply: big1_seq => l _; apply: mult_zero.
Qed.
Theorem C68_cc : rate_near DCC -> partial_cc_dec E s q (xt t0) c zm zn 0 = Ok (Some g) -> no_kink_cc ->
  has_derivative rate t0 g.
Proof.
move=> Hr Hg Hc; apply: hd_eq (cc_rate_deriv dims R1 kind rule Hr Hg Hc) _.
by apply: plus_zero; apply: big1_seq => l _; apply: mult_zero.
Qed.
Theorem C68_charge : rate_near DCharge -> partial_charge_dec E s (xt t0) c zm zn 0 = Ok (Some g) -> no_kink_charge ->
  has_derivative rate t0 g.
Proof.
move=> Hr Hg Hc; have H := charge_rate_deriv R1 kind rule Hr Hg Hc.
apply: hd_eq H _.
apply: plus_zero; apply: big1_seq => i _; rewrite /charge_corr; case: ifP => // _; case: isl => [a|//].
exact: mult_zero.
Qed.
End Complete.

(** The code itself, with the first K levels and [eps] in the denominators: the
    derivative is the reported one plus exactly the terms it leaves out. *)
Section First.
Variables (full : eigres) (K : nat) (eps kf : R).
Hypothesis all_levels : complete N (h t0) full.
Hypothesis stored : e t0 = first_levels K full.
Hypothesis K1 : (1 < K)%N.
Hypothesis KN : (K <= N)%N.
Hypothesis hm : (m < K)%N.
Hypothesis hn : (n < K)%N.
Hypothesis simple_m : simple_level N full m.
Hypothesis simple_n : simple_level N full n.
Hypothesis low : low_frequency E kf.
Let vec k := nth (fun=> 0) (e_vecs full) k.
Let fr k := nth 0 (e_freqs full) k.
(** The terms left out of the difference of the two levels. *)
Definition rest (A P0 : op) (P2 : option op) : R :=
  left_out N K vec fr eps (ent P0) (opt_entry P2) (ent A) m - left_out N K vec fr eps (ent P0) (opt_entry P2) (ent A) n.
Let A := some_op (partial_H s (xt t0) c None).
Let rule : slopes_follow s x c e m n eps (rest A).
Proof.
rewrite /rest; move: all_levels track_m track_n KN simple_m simple_n; rewrite dN => al tm tn kn h1 h2.
exact: (follow_first dims R1 kind eps al stored K1 kn tm tn hm hn h1 h2).
Qed.
Let kfE : (if log_factor E is Some k then k else 0) = kf.
Proof. by case: low => H ->; rewrite (log_factorP E H). Qed.
Let slopeE P : slope (nth (fun=> 0) (e_vecs (e t0)) m) (nth (fun=> 0) (e_vecs (e t0)) n) P = slope (vec m) (vec n) P.
Proof. by rewrite stored /= !nth_take. Qed.

Theorem C68_flux_levels : rate_near DFlux -> partial_flux_dec E s q (xt t0) c zm zn eps = Ok (Some g) -> no_kink_flux ->
  exists (P : nat -> op) (P2 : nat -> option op),
    (forall l, List.In l (c_loops (x_c x)) -> partial_H s (xt t0) (CLoop l) None = Ok (Some (P l)) /\
       partial_squared_H_phi s (xt t0) l c = Ok (P2 l)) /\
    has_derivative rate t0 (g + \sum_(l <- c_loops (x_c x))
      sign (slope (vec m) (vec n) (P l)) * kf * (a_loop q l * rest A (P l) (P2 l))).
Proof.
move=> Hr Hg Hc; exists (fun l => some_op (partial_H s (xt t0) (CLoop l) None)),
  (fun l => opt_op (partial_squared_H_phi s (xt t0) l c)); split.
  move=> l hl; have xcE : x_c (xt t0) = x_c x by rewrite /xt /at_value /t0 changed_same; have [M [-> _]] := filledP R1.
  have [H _] := fold_val Hg; have := H l; rewrite xcE => /(_ hl); rewrite /flux_dec_term /partial_squared_omega_mn_phi.
  rewrite {1}/partial_omega_mn; case: evec => [v|//]; cbn [bind]; case: evec => [w|//]; cbn [bind].
  case: (partial_H s (xt t0) (CLoop l) None) => [[P|]|] //; cbn [bind inner0].
  by case: partial_squared_H_phi.
apply: hd_eq (flux_rate_deriv dims R1 kind rule Hr Hg Hc) _.
by congr Rplus; apply: eq_bigr => l _; rewrite /flux_corr kfE slopeE.
Qed.
Theorem C68_cc_levels : rate_near DCC -> partial_cc_dec E s q (xt t0) c zm zn eps = Ok (Some g) -> no_kink_cc ->
  exists (P : nat -> nat -> op) (P2 : nat -> nat -> option op),
    (forall e' el b w, List.In (e', el, b, w) (c_keys_jj (x_c x)) ->
       partial_H s (xt t0) (CEl el) (Some b) = Ok (Some (P el b)) /\
       partial_squared_H_EJ (xt t0) el b c = Ok (P2 el b)) /\
    has_derivative rate t0 (g + \sum_(k <- c_keys_jj (x_c x))
      sign (slope (vec m) (vec n) (P k.1.1.2 k.1.2)) * kf *
      (a_jj q k.1.1.2 * evalue s k.1.1.2 * rest A (P k.1.1.2 k.1.2) (P2 k.1.1.2 k.1.2))).
Proof.
move=> Hr Hg Hc; exists (fun el b => some_op (partial_H s (xt t0) (CEl el) (Some b))),
  (fun el b => opt_op (partial_squared_H_EJ (xt t0) el b c)).
have kE : cos_mem (xt t0) = [seq (k.1.1.2, k.1.2) | k <- c_keys_jj (x_c x)].
  by rewrite /xt /at_value /t0 changed_same; have [M [-> F]] := filledP R1; apply: cos_mem_filled F.
split.
  move=> e' el b w hl.
  have [H _] := fold_val Hg; have := H (el, b); rewrite kE.
  have hk := List.in_map (fun k : edge * nat * nat * nat => (k.1.1.2, k.1.2)) _ _ hl.
  move=> /(_ hk); rewrite /cc_dec_term /partial_squared_omega_mn_EJ.
  rewrite {1}/partial_omega_mn; case: evec => [v|//]; cbn [bind]; case: evec => [v'|//]; cbn [bind].
  case: (partial_H s (xt t0) (CEl el) (Some b)) => [[P|]|] //; cbn [bind inner0].
  by case: partial_squared_H_EJ.
apply: hd_eq (cc_rate_deriv dims R1 kind rule Hr Hg Hc) _.
congr Rplus; rewrite -/t0 -/xt kE big_map; apply: eq_bigr => k _; by rewrite /cc_corr kfE slopeE.
Qed.
Theorem C68_charge_levels : rate_near DCharge -> partial_charge_dec E s (xt t0) c zm zn eps = Ok (Some g) ->
  no_kink_charge ->
  exists (P : nat -> op) (amp : nat -> R),
    (forall i, (i < x_n x)%N -> is_charge (x_st x) i -> partial_H_ng (xt t0) i = Ok (Some (P i)) /\
       exists ng, isl x i = Some (ng, amp i)) /\
    has_derivative rate t0 (g + \sum_(i < x_n x | is_charge (x_st x) i)
      sign (slope (vec m) (vec n) (P i)) * kf * (charge_amp (amp i) * rest A (P i) None)).
Proof.
move=> Hr Hg Hc; exists (fun i => some_op (partial_H_ng (xt t0) i)),
  (fun i => if isl x i is Some a then a.2 else 0).
have [En Est Ei] : [/\ x_n (xt t0) = x_n x, x_st (xt t0) = x_st x & forall i, isl (xt t0) i = isl x i].
  by rewrite /xt /at_value /t0 changed_same; have [M [-> F]] := filledP R1.
have ok i : (i < x_n x)%N -> is_charge (x_st x) i -> partial_H_ng (xt t0) i = Ok (Some (some_op (partial_H_ng (xt t0) i))) /\
       exists ng, isl x i = Some (ng, (if isl x i is Some a then a.2 else 0)).
  move=> hi ch; have [H _] := fold_val Hg; have := H i; rewrite En.
  have hin : List.In i (iota 0 (x_n x)) by apply/FluxProofs2.InP; rewrite mem_iota.
  move=> /(_ hin); rewrite /charge_dec_term Est ch /= Ei /partial_omega_ng Est ch /=.
  case: evecs_at => [v|//]; cbn [bind]; case: evecs_at => [v'|//]; cbn [bind].
  case: partial_H_ng => [[P|]|] //; cbn [bind inner0].
  case: partial_squared_omega_mn_ng => [p2|] //; cbn [bind].
  by case: isl => [[ng a]|] // _; split=> //; exists ng.
split=> //.
have H := charge_rate_deriv R1 kind rule Hr Hg Hc.
apply: hd_eq H _.
congr Rplus; rewrite -[x_n x]subn0 -/(index_iota 0 (x_n x)) big_mkord subn0 [RHS]big_mkcond.
apply: eq_bigr => i _; rewrite /charge_corr; case ch: (is_charge _ _) => //=.
by have [_ [ng ->]] := ok i (ltn_ord i) ch; rewrite kfE slopeE.
Qed.
End First.
End Session.
Print Assumptions C68_flux.
Print Assumptions C68_cc.
Print Assumptions C68_charge.
Print Assumptions C68_flux_levels.
Print Assumptions C68_cc_levels.
Print Assumptions C68_charge_levels.

(** At a sweet spot, where the frequency does not depend on the flux of a loop, the
    term of the loop is 0 while the rate has a kink there. *)
Theorem C68_sweet_spot E s q x c m n eps l p2 :
  partial_omega_mn s x (CLoop l) m n None = Ok 0 ->
  partial_squared_omega_mn_phi s x c m n eps l = Ok p2 ->
  Rlt 0 (omega_low E * t_exp E) ->
  flux_dec_term E s q x c m n eps l = Ok (Some 0) /\
  forall sl t, has_derivative sl t p2 -> sl t = 0 -> p2 <> 0 -> forall a k dr, Rlt 0 a -> Rlt 0 k ->
    ~ has_derivative (fun y => Rabs (sl y * a) * k) t dr.
Proof.
move=> E1 E2 HE; split.
  rewrite /flux_dec_term E1; cbn [bind]; rewrite E2; cbn [bind].
  rewrite /partial_dephasing_rate (log_factorP E HE); congr (Ok (Some _)).
  exact: sign_zero.
by move=> sl t H1 H2 H3 a k dr; exact: (no_slope_amp sl t p2 H1 H2 H3 a k dr).
Qed.
Print Assumptions C68_sweet_spot.

(** Backward pass: each entry is the derivative of a function of the rate. *)
Theorem C68_backward f gout ks out c0 : dec_backward f gout ks = Ok out ->
  size out = size ks /\ forall i dl, (i < size ks)%N -> nth None out i = Some dl ->
    exists p, f (nth c0 ks i) = Ok (Some p) /\
      forall rate L t, has_derivative rate t p -> has_derivative L (rate t) gout ->
        has_derivative (fun y => L (rate y)) t dl.
Proof.
elim: ks out => [|k ks IH] out /=; first by case=> <-.
case Ef: (f k) => [dk|//]; cbn [bind]; case Er: dec_backward => [r|//]; cbn [bind] => -[<-] /=.
have [Es Hr] := IH _ Er; split; first by rewrite Es.
move=> [|i] dl /= hi; last exact: Hr.
by case: dk Ef => [p|//] Ef [<-]; exists p; split=> // rate L t H1 H2; apply: hd_chain.
Qed.
Print Assumptions C68_backward.

(** Case: the rotating two-level Hamiltonian of P_Perturb.  Its two levels are
    tracked by their eigenvectors, and <v|sx|v> = sin t has slope 1 at 0. *)
Definition rot_u (t : R) (i : nat) : C := (match i with O => - hsin t | _ => hcos t end)%:C.
Definition rot_e (t : R) : eigres := mkE [:: 1; -1] [:: rot_v t; rot_u t].
Lemma dot2 u v : dot 2 u v = (u 0%N)^* * v 0%N + (u 1%N)^* * v 1%N.
Proof. by rewrite /dot 2!big_ord_recl big_ord0 addr0. Qed.
Lemma sandwich2 u (G : nat -> nat -> C) v : sandwich 2 u G v =
  ((u 0%N)^* * G 0%N 0%N * v 0%N + (u 0%N)^* * G 0%N 1%N * v 1%N) +
  ((u 1%N)^* * G 1%N 0%N * v 0%N + (u 1%N)^* * G 1%N 1%N * v 1%N).
Proof.
rewrite /sandwich big_ord_recl [X in _ + X]big_ord_recl big_ord0 addr0.
by rewrite !(big_ord_recl 1) !(big_ord_recl 0) !big_ord0 !addr0.
Qed.
Example C68_rotating :
  [/\ complete 2 (rot_h 0) (rot_e 0), tracked 2 rot_h 0 rot_e 0,
      second_order 2 2 (fun k => nth (fun=> 0) (e_vecs (rot_e 0)) k) (fun k => nth 0 (e_freqs (rot_e 0)) k) 0
        rot_P (fun _ _ => 0) rot_P 0 = 1 &
      second_order 2 2 (fun k => nth (fun=> 0) (e_vecs (rot_e 0)) k) (fun k => nth 0 (e_freqs (rot_e 0)) k) 0
        rot_P (fun _ _ => 0) rot_P 1 = -1].
Proof.
have [B Hh _ E1 _] := C49_rotating.
have V0 : rot_v 0 0%N = 1 by rewrite /rot_v hcos0.
have V1 : rot_v 0 1%N = 0 by rewrite /rot_v hsin0.
have U0 : rot_u 0 0%N = 0 by rewrite /rot_u hsin0 oppr0.
have U1 : rot_u 0 1%N = 1 by rewrite /rot_u hcos0.
have P01 : rot_P 0 1 = 1 by []. have P10 : rot_P 1 0 = 1 by [].
have P00 : rot_P 0 0 = 0 by []. have P11 : rot_P 1 1 = 0 by [].
pose simp := (V0, V1, U0, U1, P00, P01, P10, P11, conjc0, conjc1, mul0r, mulr0, mulr1, mul1r, addr0, add0r).
split.
- split=> //.
  + by move=> [|[|//]] [|[|//]] _ _; rewrite dot2 -?[nth _ _ 0]/(rot_v 0) -?[nth _ _ 1]/(rot_u 0) !simp.
  + move=> [|[|//]] _ i hi; rewrite -?[nth _ _ 0]/(rot_v 0) -?[nth _ _ 1]/(rot_u 0).
      have [d' [d0 H]] := br_eigen B; have := H 0; rewrite Rminus_0_r Rabs_R0 => /(_ d0 i hi) -> //.
    have Eu j : (j < 2)%N -> rot_u 0 j = if j == 1%N then 1 else 0 by case: j => [|[|//]] _; rewrite ?U0 ?U1.
    by rewrite (apply_ext (rot_h 0) i Eu) Eu // E1.
- exists rot_v, (fun=> 1), rot_dv, 0; split=> //.
  + exists 1; split=> [|t _]; first exact: Rlt_0_1.
    rewrite dot2 /rot_v !conjc_real -!rmorphM -rmorphD /=; congr (_%:C); exact: half_norm.
  + exists 1; split=> [|t _]; first exact: Rlt_0_1.
    by split=> //; exists 1; split=> [|i _]; rewrite ?conjc1 ?mulr1 ?mul1r.
- rewrite /second_order big_mkcond 2!big_ord_recl big_ord0.
  change (complex.Re (sandwich 2 (rot_v 0) (fun _ _ => 0) (rot_v 0)) + (0 +
    (Rmult 2 (complex.Re (sandwich 2 (rot_v 0) rot_P (rot_u 0) * sandwich 2 (rot_u 0) rot_P (rot_v 0)))
       / (1 - -1 + 0) + 0)) = 1 :> R).
  by rewrite !sandwich2 !simp -RinvE; exact: case_up.
- rewrite /second_order big_mkcond 2!big_ord_recl big_ord0.
  change (complex.Re (sandwich 2 (rot_u 0) (fun _ _ => 0) (rot_u 0)) +
    (Rmult 2 (complex.Re (sandwich 2 (rot_u 0) rot_P (rot_v 0) * sandwich 2 (rot_v 0) rot_P (rot_u 0)))
       / (-1 - 1 + 0) + (0 + 0)) = -1 :> R).
  by rewrite !sandwich2 !simp -RinvE; exact: case_down.
Qed.
