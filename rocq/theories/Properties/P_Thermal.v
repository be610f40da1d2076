(** C45, C46, C47: thermal factors, dephasing rates and their gradient. *)
From Coq Require Import Lra.
From Verif.Model Require Import Base Units Noise Thermal.
From Verif.Spec Require Import ThermalSpec.
From Verif.Proofs Require Import ThermalProofs.
Open Scope R_scope.

(** ** C45 *)
(** Below the threshold the factors are those of a Bose bath: twice the occupation
    number plus one for the way down, twice the occupation number for the way up. *)
Theorem C45_bose E omega : T E <> 0 -> omega <> 0 -> thermal_ratio omega (T E) <= 709 ->
  thermal E omega = Some (emission omega (T E), absorption omega (T E)).
Proof. intros HT Ho Ha. exact (thermalE E omega HT Ha Ho). Qed.
Print Assumptions C45_bose.

Theorem C45_balance E omega down up : T E <> 0 -> thermal_ratio omega (T E) <= 709 ->
  thermal E omega = Some (down, up) -> up = down * exp (- thermal_ratio omega (T E)).
Proof.
  intros HT Ha Hth. destruct (Req_dec omega 0) as [-> | Ho].
  - unfold thermal in Hth. destruct (Req_EM_T (T E) 0) as [e |_]; [contradiction|]. cbv zeta in Hth.
    rewrite ratioE in Hth. rewrite (proj2 (ratio_zero 0 _ HT) eq_refl) in Hth.
    destruct (Rlt_dec 709 0); [lra|]. destruct (Req_EM_T 0 0); [discriminate | congruence].
  - rewrite (C45_bose _ _ HT Ho Ha) in Hth. injection Hth as <- <-.
    unfold emission, absorption, occupation. rewrite exp_Ropp.
    assert (N : thermal_ratio omega (T E) <> 0) by (intro Q; apply (proj1 (ratio_zero omega _ HT)) in Q; contradiction).
    pose proof (exp_neq1 _ N). pose proof (exp_pos (thermal_ratio omega (T E))).
    field. split; lra.
Qed.
Print Assumptions C45_balance.

(** The rate for both directions is the sum, 2 coth of half the ratio. *)
Theorem C45_total E omega m n : T E <> 0 -> omega <> 0 -> thermal_ratio omega (T E) <= 709 ->
  exists down up, thermal E omega = Some (down, up) /\
    temp_factor true m n (down, up) = down + up /\
    temp_factor true m n (down, up) = 2 * coth (thermal_ratio omega (T E) / 2).
Proof.
  intros HT Ho Ha. exists (emission omega (T E)), (absorption omega (T E)).
  split; [apply C45_bose; assumption|]. split; [reflexivity|].
  unfold temp_factor. cbn [fst snd]. apply total_coth.
  intro Q. apply (proj1 (ratio_zero omega _ HT)) in Q. contradiction.
Qed.
Print Assumptions C45_total.

(** One direction: down if the first state has the larger index, up otherwise. *)
Theorem C45_direction m n down up :
  ((n < m)%Z -> temp_factor false m n (down, up) = down) /\
  ((m <= n)%Z -> temp_factor false m n (down, up) = up).
Proof.
  unfold temp_factor. cbn [fst snd]. destruct (Z.ltb_spec n m); split; intros; auto; exfalso;
    [apply (Z.lt_irrefl n); eapply Z.lt_le_trans; eauto | apply (Z.lt_irrefl n); eapply Z.lt_le_trans; eauto].
Qed.
Print Assumptions C45_direction.

Theorem C45_nonneg E omega down up : 0 < T E -> 0 < omega -> thermal E omega = Some (down, up) ->
  0 <= up /\ 2 <= down /\ up < down.
Proof.
  intros HT Ho Hth. assert (N : T E <> 0) by lra.
  destruct (Rle_or_lt (thermal_ratio omega (T E)) 709) as [Ha | Ha].
  - rewrite (C45_bose _ _ N) in Hth by (auto; lra). injection Hth as <- <-.
    pose proof (occupation_pos _ _ Ho HT). unfold emission, absorption. lra.
  - rewrite (thermal_cold _ _ Ha N) in Hth. injection Hth as <- <-. lra.
Qed.
Print Assumptions C45_nonneg.

(** Beyond the threshold each factor, and their sum, is within 1e-300 of the exact
    one. *)
Theorem C45_cutoff E omega : T E <> 0 -> 709 < thermal_ratio omega (T E) ->
  exists down up, thermal E omega = Some (down, up) /\
    Rabs (down - emission omega (T E)) < / 10 ^ 300 /\
    Rabs (up - absorption omega (T E)) < / 10 ^ 300 /\
    Rabs (down + up - 2 * coth (thermal_ratio omega (T E) / 2)) < / 10 ^ 300.
Proof.
  intros HT Ha. exists 2, 0. split; [apply thermal_cold; assumption|].
  pose proof (cold_occupation _ _ Ha) as [B1 B2].
  rewrite <- total_coth by lra. unfold emission, absorption.
  assert (P : 4 * / (3 * 10 ^ 303) <= / 10 ^ 300).
  { replace (10 ^ 303) with (1000 * 10 ^ 300) by (change 303%nat with (3 + 300)%nat; rewrite pow_add; lra).
    assert (Q : 0 < 10 ^ 300) by (apply pow_lt; lra). revert Q. generalize (10 ^ 300). intros t Q.
    apply Rmult_le_reg_r with (3 * (1000 * t)); [lra|].
    rewrite Rmult_assoc, Rinv_l by lra. replace (/ t * (3 * (1000 * t))) with 3000 by (field; lra). lra. }
  revert B1 B2 P. generalize (occupation omega (T E)) (/ (3 * 10 ^ 303)) (/ 10 ^ 300). intros o a b B1 B2 P.
  split; [| split]; apply Rabs_def1; lra.
Qed.
Print Assumptions C45_cutoff.

(** Equal frequencies have no finite factor; at zero temperature only the way down
    is left. *)
Theorem C45_limits E omega : (T E <> 0 -> thermal E 0 = None) /\
  (T E = 0 -> 0 < omega -> thermal E omega = Some (2, 0)).
Proof.
  split.
  - intros HT. unfold thermal. destruct (Req_EM_T (T E) 0) as [e |_]; [contradiction|]. cbv zeta.
    rewrite ratioE, (proj2 (ratio_zero 0 _ HT) eq_refl).
    destruct (Rlt_dec 709 0); [lra|]. destruct (Req_EM_T 0 0); [reflexivity | congruence].
  - intros HT Ho. unfold thermal. destruct (Req_EM_T (T E) 0); [|contradiction].
    destruct (Rlt_dec 0 omega); [reflexivity | contradiction].
Qed.
Print Assumptions C45_limits.

(** set_temp accepts negative temperatures; then every factor is negative. *)
Theorem C45_nonneg_refuted E E1 temp omega : temp < 0 -> 0 < omega -> set_temp temp E = (E1, Ok tt) ->
  exists down up, thermal E1 omega = Some (down, up) /\ down < 0 /\ up < 0 /\
    forall total m n, temp_factor total m n (down, up) < 0.
Proof.
  intros Ht Ho. unfold set_temp. intros [= <-]. set (E1 := mkEnv _ _ _ _).
  assert (R0 : thermal_ratio omega temp < 0).
  { assert (H := ratio_pos omega (- temp) Ho ltac:(lra)). rewrite <- ratioE in *.
    pose proof kB_pos. replace (hbar * omega / (k_B * temp)) with (- (hbar * omega / (k_B * - temp))) by (field; split; lra).
    lra. }
  exists (emission omega temp), (absorption omega temp).
  assert (X : exp (thermal_ratio omega temp) < 1) by (rewrite <- exp_0; apply exp_increasing, R0).
  pose proof (exp_pos (thermal_ratio omega temp)) as Y.
  assert (O : occupation omega temp < -1).
  { unfold occupation. set (z := exp _) in *.
    replace (/ (z - 1)) with (- / (1 - z)) by (field; lra).
    assert (1 < / (1 - z)); [| lra]. rewrite <- Rinv_1. apply Rinv_lt_contravar; lra. }
  assert (D : emission omega temp < 0 /\ absorption omega temp < 0) by (unfold emission, absorption; lra).
  split; [apply (C45_bose E1); simpl; lra|]. destruct D as [D1 D2]. repeat split; auto.
  intros total m n. unfold temp_factor. cbn [fst snd]. destruct total; [lra|]. destruct (n <? m)%Z; auto.
Qed.
Print Assumptions C45_nonneg_refuted.

(** At the frequency with occupation number 1/2: 3 down, 1 up, 4 in total. *)
Example C45_case : let E := env_init in let omega := ln 3 * (k_B * T E) / hbar in
  thermal E omega = Some (3, 1) /\ temp_factor true 1 0 (3, 1) = 4 /\
  temp_factor false 1 0 (3, 1) = 3 /\ temp_factor false 0 1 (3, 1) = 1.
Proof.
  intros E omega. pose proof hbar_pos as Hh. pose proof kB_pos as Hk.
  assert (HT : T E = 0.015) by reflexivity.
  assert (Ra : thermal_ratio omega (T E) = ln 3).
  { rewrite <- ratioE. unfold omega. rewrite HT. field. split; lra. }
  assert (L : 0 < ln 3) by (rewrite <- ln_1; apply ln_increasing; lra).
  assert (L2 : ln 3 < 3) by (rewrite <- (ln_exp 3) at 2; apply ln_increasing; [lra|]; pose proof (exp_ineq1 3); lra).
  split; [|unfold temp_factor; simpl; repeat split; lra].
  rewrite C45_bose; rewrite ?Ra; try lra.
  - unfold emission, absorption, occupation. rewrite Ra, exp_ln by lra. f_equal. f_equal; field.
  - intros Q. assert (Z : thermal_ratio omega (T E) = 0) by (apply ratio_zero; lra). lra.
Qed.

(** ** C46 *)
Theorem C46_value E A slope : 0 < omega_low E * t_exp E ->
  dephasing E A slope = Some (Rabs A * Rabs slope * sqrt (2 * Rabs (ln (omega_low E * t_exp E)))).
Proof.
  intros H. unfold dephasing. rewrite (log_factorP E H), Rabs_mult. f_equal. ring.
Qed.
Print Assumptions C46_value.

Theorem C46_nonneg E A slope r : dephasing E A slope = Some r -> 0 <= r.
Proof.
  unfold dephasing. destruct (log_factor E) as [k|] eqn:L; [|discriminate]. intros [= <-].
  apply Rmult_le_pos; [apply Rabs_pos | apply (log_factor_zero E k L)].
Qed.
Print Assumptions C46_nonneg.

Theorem C46_linear E A slope r a b : dephasing E A slope = Some r ->
  dephasing E (a * A) (b * slope) = Some (Rabs a * Rabs b * r).
Proof.
  unfold dephasing. destruct (log_factor E) as [k|]; [|discriminate]. intros [= <-].
  rewrite !Rabs_mult. f_equal. ring.
Qed.
Print Assumptions C46_linear.

Theorem C46_zero E A slope r : dephasing E A slope = Some r ->
  (r = 0 <-> A = 0 \/ slope = 0 \/ omega_low E * t_exp E = 1).
Proof.
  unfold dephasing. destruct (log_factor E) as [k|] eqn:L; [|discriminate]. intros [= <-].
  destruct (log_factor_zero E k L) as [_ Z]. split.
  - intros H. apply Rmult_integral in H as [H | H]; [| right; right; apply Z, H].
    destruct (Req_dec (slope * A) 0) as [Q | Q]; [| apply Rabs_no_R0 in Q; contradiction].
    apply Rmult_integral in Q as [Q | Q]; auto.
  - intros [-> | [-> | H]].
    + rewrite Rmult_0_r, Rabs_R0. ring.
    + rewrite Rmult_0_l, Rabs_R0. ring.
    + apply Z in H. rewrite H. ring.
Qed.
Print Assumptions C46_zero.

(** No rate where the logarithm is not a number. *)
Theorem C46_undefined E A slope : dephasing E A slope = None <-> omega_low E * t_exp E <= 0.
Proof.
  unfold dephasing, log_factor. destruct (Rlt_dec 0 (omega_low E * t_exp E)) as [H|H].
  - split; [discriminate|lra].
  - split; [lra|reflexivity].
Qed.
Print Assumptions C46_undefined.

Example C46_case : dephasing (mkEnv 1 (exp 2) 1 1) 3 (-5) = Some 30 /\
  dephasing (mkEnv 1 2 1 (/ 2)) 3 (-5) = Some 0 /\ dephasing (mkEnv 1 (-2) 1 1) 3 (-5) = None.
Proof.
  split; [|split].
  - rewrite C46_value; simpl; [|pose proof (exp_pos 2); lra]. f_equal.
    rewrite Rmult_1_r, ln_exp, !(Rabs_right 2), (Rabs_right 3), (Rabs_left (-5)) by lra.
    replace (2 * 2) with (2 ^ 2) by ring. rewrite sqrt_pow2 by lra. ring.
  - assert (H : exists r, dephasing (mkEnv 1 2 1 (/ 2)) 3 (-5) = Some r).
    { eexists. apply C46_value. simpl. lra. }
    destruct H as [r H]. rewrite H. f_equal. apply (C46_zero _ _ _ _ H). right. right. simpl. lra.
  - apply C46_undefined. simpl. lra.
Qed.

(** ** C47 *)
(** The parameter is the argument of the functions: [A] the noise amplitude,
    [slope] the derivative of the transition frequency, [rate] the dephasing
    rate. *)
Section Gradient.
  Variables (E : env) (A slope rate : R -> R) (x dA d2 : R).
  Hypothesis amp : has_derivative A x dA.
  Hypothesis curv : has_derivative slope x d2.
  Hypothesis rates : forall y, dephasing E (A y) (slope y) = Some (rate y).

  Let k := sqrt (2 * Rabs (ln (omega_low E * t_exp E))).
  Lemma env_ok : 0 < omega_low E * t_exp E.
  Proof.
    destruct (Rlt_or_le 0 (omega_low E * t_exp E)) as [H|H]; auto.
    apply (proj2 (C46_undefined E (A 0) (slope 0))) in H. rewrite rates in H. discriminate.
  Qed.
  Lemma rate_fun y : rate y = Rabs (slope y * A y) * k.
  Proof.
    pose proof (rates y) as H. unfold dephasing in H. rewrite (log_factorP E env_ok) in H.
    injection H as H. rewrite <- H. reflexivity.
  Qed.
  Lemma rate_has l : has_derivative (fun y => Rabs (slope y * A y) * k) x l -> has_derivative rate x l.
  Proof.
    intros H eps He. destruct (H eps He) as [d [Hd K]]. exists d. split; auto.
    intros h N Hh. rewrite !rate_fun. apply K; auto.
  Qed.
  Lemma rate_has' l : has_derivative rate x l -> has_derivative (fun y => Rabs (slope y * A y) * k) x l.
  Proof.
    intros H eps He. destruct (H eps He) as [d [Hd K]]. exists d. split; auto.
    intros h N Hh. rewrite <- !rate_fun. apply K; auto.
  Qed.
  Lemma code_value : partial_dephasing_rate E (A x) dA (slope x) d2 =
    Some (sign (slope x) * k * (dA * slope x + A x * d2)).
  Proof. unfold partial_dephasing_rate. rewrite (log_factorP E env_ok). reflexivity. Qed.

  Theorem C47_gradient : 0 < A x -> slope x <> 0 ->
    exists g, partial_dephasing_rate E (A x) dA (slope x) d2 = Some g /\ has_derivative rate x g.
  Proof.
    intros HA Hs. eexists. split; [apply code_value|]. apply rate_has.
    pose proof (rate_derivative slope A x d2 dA k curv amp) as H.
    rewrite sign_mult, (proj1 (sign_spec (A x)) HA), Rmult_1_r in H.
    replace (dA * slope x + A x * d2) with (d2 * A x + slope x * dA) by ring.
    apply H. apply Rmult_integral_contrapositive_currified; lra.
  Qed.

  (** With a negative amplitude it is the negative of the derivative. *)
  Theorem C47_negative : A x < 0 -> slope x <> 0 ->
    exists g, partial_dephasing_rate E (A x) dA (slope x) d2 = Some g /\ has_derivative rate x (- g).
  Proof.
    intros HA Hs. eexists. split; [apply code_value|]. apply rate_has.
    pose proof (rate_derivative slope A x d2 dA k curv amp) as H.
    rewrite sign_mult, (proj1 (proj2 (sign_spec (A x))) HA) in H.
    replace (- (sign (slope x) * k * (dA * slope x + A x * d2)))
      with (sign (slope x) * -1 * k * (d2 * A x + slope x * dA)) by ring.
    apply H. apply Rmult_integral_contrapositive_currified; lra.
  Qed.

  Theorem C47_negative_refuted g : A x < 0 -> slope x <> 0 ->
    partial_dephasing_rate E (A x) dA (slope x) d2 = Some g -> g <> 0 -> ~ has_derivative rate x g.
  Proof.
    intros HA Hs Hg N H. destruct (C47_negative HA Hs) as [g' [E1 H1]].
    assert (g' = g) by congruence. subst g'. pose proof (has_derivative_unique _ _ _ _ H H1). lra.
  Qed.

  (** Where the slope or the amplitude vanishes but changes there is no derivative;
      the code reports 0 for the slope. *)
  Theorem C47_corner : omega_low E * t_exp E <> 1 -> slope x = 0 -> d2 <> 0 -> A x <> 0 ->
    partial_dephasing_rate E (A x) dA (slope x) d2 = Some 0 /\ forall l, ~ has_derivative rate x l.
  Proof.
    intros N1 Hs Nd NA. split.
    - rewrite code_value. rewrite (proj2 (proj2 (sign_spec (slope x))) Hs). f_equal. ring.
    - intros l H. apply rate_has' in H. revert H. apply corner with d2 dA; auto.
      intros Q. apply N1. apply (log_factor_zero E k (log_factorP E env_ok)). exact Q.
  Qed.
End Gradient.
Print Assumptions C47_gradient.
Print Assumptions C47_negative.
Print Assumptions C47_negative_refuted.
Print Assumptions C47_corner.

(** Amplitude 2 and -2, slope 3 + 5(y - 1) at y = 1. *)
Example C47_case : let E := mkEnv 1 (exp 2) 1 1 in
  let slope := fun y => 3 + 5 * (y - 1) in
  partial_dephasing_rate E 2 0 3 5 = Some 20 /\ partial_dephasing_rate E (-2) 0 3 5 = Some (-20) /\
  has_derivative (fun y => Rabs 2 * Rabs (slope y) * 2) 1 20 /\
  has_derivative (fun y => Rabs (-2) * Rabs (slope y) * 2) 1 20.
Proof.
  intros E slope.
  assert (K : sqrt (2 * Rabs (ln (omega_low E * t_exp E))) = 2).
  { simpl. rewrite Rmult_1_r, ln_exp, Rabs_right by lra. replace (2 * 2) with (2 ^ 2) by ring. apply sqrt_pow2. lra. }
  assert (P : 0 < omega_low E * t_exp E) by (simpl; pose proof (exp_pos 2); lra).
  assert (S : has_derivative slope 1 5).
  { intros eps He. exists 1. split; [lra|]. intros h N _. unfold slope.
    replace ((3 + 5 * (1 + h - 1) - (3 + 5 * (1 - 1))) / h - 5) with 0 by (field; auto). rewrite Rabs_R0. auto. }
  assert (Q : forall a, has_derivative (fun _ => a) 1 0).
  { intros a eps He. exists 1. split; [lra|]. intros h N _.
    replace ((a - a) / h - 0) with 0 by (field; auto). rewrite Rabs_R0. auto. }
  assert (V : forall a, partial_dephasing_rate E a 0 3 5 = Some (10 * a)).
  { intros a. unfold partial_dephasing_rate. rewrite (log_factorP E P), K.
    rewrite (proj1 (sign_spec 3)) by lra. f_equal. ring. }
  assert (D : forall a y, dephasing E a (slope y) = Some (Rabs a * Rabs (slope y) * 2)).
  { intros a y. rewrite C46_value by exact P. rewrite K. reflexivity. }
  assert (S1 : slope 1 = 3) by (unfold slope; lra).
  rewrite !V. split; [f_equal; lra|]. split; [f_equal; lra|]. split.
  - destruct (C47_gradient E (fun _ => 2) slope _ 1 0 5 (Q 2) S (D 2)) as [g [Hg H]]; [lra | lra |].
    rewrite S1, V in Hg. injection Hg as <-. replace 20 with (10 * 2) by lra. exact H.
  - destruct (C47_negative E (fun _ => -2) slope _ 1 0 5 (Q (-2)) S (D (-2))) as [g [Hg H]]; [lra | lra |].
    rewrite S1, V in Hg. injection Hg as <-. replace 20 with (- (10 * -2)) by lra. exact H.
Qed.
