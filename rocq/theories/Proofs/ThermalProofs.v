(** ThermalProofs.v -- facts about the thermal factors and dephasing. *)
From Coq Require Import Reals ZArith Lra Lia.
From Verif.Model Require Import Base Units Noise Thermal.
From Verif.Spec Require Import ThermalSpec.
Open Scope R_scope.

Lemma hbar_pos : 0 < hbar. Proof. unfold hbar; lra. Qed.
Lemma kB_pos : 0 < k_B. Proof. unfold k_B; lra. Qed.

Lemma ratioE omega temp : hbar * omega / (k_B * temp) = thermal_ratio omega temp.
Proof. reflexivity. Qed.

Lemma ratio_pos omega temp : 0 < omega -> 0 < temp -> 0 < thermal_ratio omega temp.
Proof.
  intros Ho Ht. rewrite <- ratioE. unfold Rdiv.
  pose proof hbar_pos. pose proof kB_pos.
  apply Rmult_lt_0_compat; [apply Rmult_lt_0_compat; assumption|].
  apply Rinv_0_lt_compat, Rmult_lt_0_compat; assumption.
Qed.

Lemma ratio_zero omega temp : temp <> 0 -> thermal_ratio omega temp = 0 <-> omega = 0.
Proof.
  intros Ht. rewrite <- ratioE. pose proof hbar_pos. pose proof kB_pos. split.
  - intros Hz. unfold Rdiv in Hz. apply Rmult_integral in Hz. destruct Hz as [Hz | Hz].
    + apply Rmult_integral in Hz. destruct Hz; [lra | assumption].
    + exfalso. revert Hz. apply Rinv_neq_0_compat, Rmult_integral_contrapositive_currified; lra.
  - intros ->. unfold Rdiv. ring.
Qed.

(** 1 + 1/tanh(a/2) = 2 e^a / (e^a - 1) *)
Lemma down_exp a : a <> 0 -> 1 + 1 / tanh (a / 2) = 2 * exp a / (exp a - 1).
Proof.
  intros Ha. unfold tanh, sinh, cosh.
  assert (E2 : exp a = exp (a / 2) * exp (a / 2)) by (rewrite <- exp_plus; f_equal; lra).
  rewrite exp_Ropp. pose proof (exp_pos (a / 2)) as P.
  assert (N : exp (a / 2) <> 1) by (intro Q; rewrite <- exp_0 in Q; apply exp_inv in Q; lra).
  assert (N2 : exp (a / 2) * exp (a / 2) - 1 <> 0).
  { intro Q. assert (Q' : (exp (a / 2) - 1) * (exp (a / 2) + 1) = 0) by (ring_simplify; ring_simplify in Q; lra).
    apply Rmult_integral in Q'. destruct Q'; lra. }
  rewrite E2. revert P N N2. generalize (exp (a / 2)). intros x P N N2. field.
  repeat split; try lra; intro Q; try (apply N2; lra); nra.
Qed.

Lemma exp_gt1 a : 0 < a -> 1 < exp a.
Proof. intros H. rewrite <- exp_0. apply exp_increasing, H. Qed.

Lemma exp_neq1 a : a <> 0 -> exp a - 1 <> 0.
Proof. intros H Q. apply H, exp_inv. rewrite exp_0. lra. Qed.

Lemma thermalE E omega : T E <> 0 -> thermal_ratio omega (T E) <= 709 -> omega <> 0 ->
  thermal E omega = Some (emission omega (T E), absorption omega (T E)).
Proof.
  intros HT Ha Ho. unfold thermal. destruct (Req_EM_T (T E) 0) as [e | _]; [contradiction|].
  cbv zeta. rewrite ratioE. destruct (Rlt_dec 709 _) as [l | _]; [lra|].
  destruct (Req_EM_T _ 0) as [e | N]; [apply (proj1 (ratio_zero omega _ HT)) in e; contradiction|].
  unfold emission, absorption, occupation. rewrite (down_exp _ N), exp_Ropp.
  pose proof (exp_neq1 _ N). pose proof (exp_pos (thermal_ratio omega (T E))).
  f_equal. f_equal; field; lra.
Qed.

Lemma thermal_cold E omega : 709 < thermal_ratio omega (T E) -> T E <> 0 -> thermal E omega = Some (2, 0).
Proof.
  intros Ha HT. unfold thermal. destruct (Req_EM_T (T E) 0) as [e | _]; [contradiction|].
  cbv zeta. rewrite ratioE. destruct (Rlt_dec 709 _) as [_ | N]; [reflexivity | contradiction].
Qed.

Lemma occupation_pos omega temp : 0 < omega -> 0 < temp -> 0 < occupation omega temp.
Proof.
  intros Ho Ht. unfold occupation. apply Rinv_0_lt_compat.
  pose proof (exp_gt1 _ (ratio_pos _ _ Ho Ht)). lra.
Qed.

Lemma exp1_lower : 2.69 < exp 1.
Proof.
  replace (exp 1) with (exp (/ 64) ^ 64).
  - assert (H : 1 + / 64 < exp (/ 64)) by (apply exp_ineq1; lra).
    apply Rlt_le_trans with ((1 + / 64) ^ 64).
    + replace (1 + / 64) with (65 / 64) by field. unfold Rdiv. rewrite Rpow_mult_distr, pow_inv.
      apply Rmult_lt_reg_r with (64 ^ 64); [apply pow_lt; lra|].
      rewrite (Rmult_assoc (65 ^ 64)), Rinv_l by (apply pow_nonzero; lra). lra.
    + apply pow_incr. lra.
  - rewrite <- Rpower_pow by apply exp_pos. unfold Rpower. rewrite ln_exp. f_equal. simpl INR. field.
Qed.

Lemma exp_709 : 4 * 10 ^ 303 < exp 709.
Proof.
  replace (exp 709) with (exp 1 ^ 709).
  - apply Rlt_le_trans with (2.69 ^ 709); [| apply pow_incr; pose proof exp1_lower; lra].
    replace 2.69 with (IZR 269 * / IZR 100) by lra. rewrite Rpow_mult_distr, pow_inv.
    apply Rmult_lt_reg_r with (IZR 100 ^ 709); [apply pow_lt; lra|].
    rewrite (Rmult_assoc (269 ^ 709)), Rinv_l by (apply pow_nonzero; lra). rewrite Rmult_1_r.
    rewrite !pow_IZR, <- !mult_IZR. apply IZR_lt. vm_compute. reflexivity.
  - rewrite <- Rpower_pow by apply exp_pos. unfold Rpower. rewrite ln_exp. f_equal.
    rewrite INR_IZR_INZ. simpl. lra.
Qed.

(** Beyond the threshold the occupation is below 1e-303. *)
Lemma cold_occupation omega temp : 709 < thermal_ratio omega temp ->
  0 < occupation omega temp < / (3 * 10 ^ 303).
Proof.
  intros H. unfold occupation.
  assert (L : exp 709 < exp (thermal_ratio omega temp)) by (apply exp_increasing, H).
  pose proof exp_709 as B.
  assert (P : 1 <= 10 ^ 303) by (apply pow_R1_Rle; lra).
  revert B P. generalize (10 ^ 303). intros t B P. split.
  - apply Rinv_0_lt_compat. lra.
  - apply Rinv_lt_contravar; [| lra]. apply Rmult_lt_0_compat; lra.
Qed.

Lemma total_coth omega temp : thermal_ratio omega temp <> 0 ->
  emission omega temp + absorption omega temp = 2 * coth (thermal_ratio omega temp / 2).
Proof.
  intros N. unfold emission, absorption, occupation, coth. set (a := thermal_ratio omega temp) in *. clearbody a.
  assert (E2 : exp a = exp (a / 2) * exp (a / 2)) by (rewrite <- exp_plus; f_equal; lra).
  pose proof (exp_neq1 _ N) as Q. rewrite exp_Ropp. rewrite E2 in *.
  pose proof (exp_pos (a / 2)) as P. revert P Q. generalize (exp (a / 2)). intros x P Q.
  field. repeat split; try lra.
Qed.

(** * Dephasing *)
Lemma log_factorP E : 0 < omega_low E * t_exp E -> log_factor E = Some (sqrt (2 * Rabs (ln (omega_low E * t_exp E)))).
Proof. intros H. unfold log_factor. destruct (Rlt_dec _ _); [reflexivity | contradiction]. Qed.

Lemma log_factor_zero E k : log_factor E = Some k -> 0 <= k /\ (k = 0 <-> omega_low E * t_exp E = 1).
Proof.
  unfold log_factor. destruct (Rlt_dec 0 _) as [P |]; [| discriminate]. intros [= <-].
  split; [apply sqrt_pos|]. split.
  - intros H. apply sqrt_eq_0 in H; [| pose proof (Rabs_pos (ln (omega_low E * t_exp E))); lra].
    assert (L : Rabs (ln (omega_low E * t_exp E)) = 0) by lra.
    destruct (Req_dec (ln (omega_low E * t_exp E)) 0) as [Z | Z]; [| apply Rabs_no_R0 in Z; contradiction].
    rewrite <- ln_1 in Z. apply ln_inv in Z; [assumption | assumption | lra].
  - intros ->. rewrite ln_1, Rabs_R0, Rmult_0_r. apply sqrt_0.
Qed.

Lemma has_derivative_iff f x l : has_derivative f x l <-> derivable_pt_lim f x l.
Proof.
  split.
  - intros H eps He. destruct (H eps He) as [d [Hd Hh]]. exists (mkposreal d Hd). exact Hh.
  - intros H eps He. destruct (H eps He) as [d Hh]. exists d. split; [apply cond_pos | exact Hh].
Qed.

Lemma sign_spec x : (0 < x -> sign x = 1) /\ (x < 0 -> sign x = -1) /\ (x = 0 -> sign x = 0).
Proof. unfold sign. destruct (Rlt_dec 0 x), (Rlt_dec x 0); lra. Qed.

Lemma sign_mult x y : sign (x * y) = sign x * sign y.
Proof.
  destruct (Rtotal_order x 0) as [Hx | [-> | Hx]].
  - rewrite (proj1 (proj2 (sign_spec x)) Hx).
    destruct (Rtotal_order y 0) as [Hy | [-> | Hy]].
    + rewrite (proj1 (proj2 (sign_spec y)) Hy), (proj1 (sign_spec _)); nra.
    + rewrite Rmult_0_r, (proj2 (proj2 (sign_spec 0)) eq_refl). lra.
    + rewrite (proj1 (sign_spec y) Hy), (proj1 (proj2 (sign_spec _))); nra.
  - rewrite Rmult_0_l, (proj2 (proj2 (sign_spec 0)) eq_refl). lra.
  - rewrite (proj1 (sign_spec x) Hx).
    destruct (Rtotal_order y 0) as [Hy | [-> | Hy]].
    + rewrite (proj1 (proj2 (sign_spec y)) Hy), (proj1 (proj2 (sign_spec _))); nra.
    + rewrite Rmult_0_r, (proj2 (proj2 (sign_spec 0)) eq_refl). lra.
    + rewrite (proj1 (sign_spec y) Hy), (proj1 (sign_spec _)); nra.
Qed.

(** |x| has slope sign(x) away from 0. *)
Lemma abs_derivative x : x <> 0 -> derivable_pt_lim Rabs x (sign x).
Proof.
  intros N. destruct (Rdichotomy _ _ N) as [H | H].
  - rewrite (proj1 (proj2 (sign_spec x)) H). apply Rabs_derive_2, H.
  - rewrite (proj1 (sign_spec x)); [apply Rabs_derive_1, H | lra].
Qed.

Lemma rate_derivative f g x f' g' k : has_derivative f x f' -> has_derivative g x g' ->
  f x * g x <> 0 ->
  has_derivative (fun y => Rabs (f y * g y) * k) x (sign (f x * g x) * k * (f' * g x + f x * g')).
Proof.
  rewrite !has_derivative_iff. intros Hf Hg N.
  pose proof (derivable_pt_lim_mult _ _ _ _ _ Hf Hg) as Hm.
  pose proof (derivable_pt_lim_comp _ _ _ _ _ Hm (abs_derivative _ N)) as Hc.
  pose proof (derivable_pt_lim_scal _ k _ _ Hc) as Hs.
  replace (sign (f x * g x) * k * (f' * g x + f x * g'))
    with (k * (sign (f x * g x) * (f' * g x + f x * g'))) by ring.
  intros eps He. destruct (Hs eps He) as [d Hd]. exists d. intros h Hh Hl. specialize (Hd h Hh Hl).
  unfold mult_real_fct, comp, mult_fct in Hd.
  rewrite !(Rmult_comm (Rabs _) k). exact Hd.
Qed.

Lemma has_derivative_unique f x l l' : has_derivative f x l -> has_derivative f x l' -> l = l'.
Proof. rewrite !has_derivative_iff. apply uniqueness_limite. Qed.

(** Where the slope vanishes but changes, the rate has a corner. *)
Lemma corner f g x f' g' k : has_derivative f x f' -> has_derivative g x g' ->
  f x = 0 -> f' * g x <> 0 -> k <> 0 -> forall l, ~ has_derivative (fun y => Rabs (f y * g y) * k) x l.
Proof.
  rewrite !has_derivative_iff. intros Hf Hg F0 N Nk l Hl.
  pose proof (derivable_pt_lim_mult _ _ _ _ _ Hf Hg) as Hm. apply (proj2 (has_derivative_iff _ _ _)) in Hm.
  rewrite F0, Rmult_0_l, Rplus_0_r in Hm. unfold mult_fct in Hm.
  set (p := f' * g x) in *.
  assert (Pp : 0 < Rabs p) by (apply Rabs_pos_lt, N).
  assert (Pk : 0 < Rabs k) by (apply Rabs_pos_lt, Nk).
  set (e := Rabs p / 2).
  assert (Pe : 0 < e) by (unfold e; lra).
  destruct (Hm e Pe) as [d1 [Hd1 H1]].
  destruct (Hl (e * Rabs k)) as [d2 [Hd2 H2]]; [apply Rmult_lt_0_compat; assumption|].
  set (h := Rmin d1 d2 / 2).
  assert (Pm : 0 < Rmin d1 d2) by (apply Rmin_pos; assumption).
  assert (M1 : Rmin d1 d2 <= d1) by apply Rmin_l. assert (M2 : Rmin d1 d2 <= d2) by apply Rmin_r.
  assert (Hh : 0 < h) by (unfold h; lra). assert (Hh1 : h < d1) by (unfold h; lra).
  assert (Hh2 : h < d2) by (unfold h; lra). clearbody h.
  assert (A1 : Rabs h < d1) by (rewrite Rabs_right; lra).
  assert (A1' : Rabs (- h) < d1) by (rewrite Rabs_Ropp; assumption).
  assert (A2 : Rabs h < d2) by (rewrite Rabs_right; lra).
  assert (A2' : Rabs (- h) < d2) by (rewrite Rabs_Ropp; assumption).
  pose proof (H1 h ltac:(lra) A1) as U. pose proof (H1 (- h) ltac:(lra) A1') as V.
  pose proof (H2 h ltac:(lra) A2) as W. pose proof (H2 (- h) ltac:(lra) A2') as Z.
  rewrite F0, Rmult_0_l, Rminus_0_r in *. rewrite Rabs_R0, Rmult_0_l, Rminus_0_r in *.
  set (u := f (x + h) * g (x + h)) in *. set (v := f (x + - h) * g (x + - h)) in *. clearbody u v.
  assert (Bu : e * h < Rabs u).
  { assert (Q : Rabs (u / h - p) * h < e * h) by (apply Rmult_lt_compat_r; assumption).
    rewrite <- (Rabs_right h) in Q at 2 by lra. rewrite <- Rabs_mult in Q.
    replace ((u / h - p) * h) with (u - p * h) in Q by (field; lra).
    pose proof (Rabs_triang_inv (p * h) (p * h - u)) as T1.
    replace (p * h - (p * h - u)) with u in T1 by ring.
    rewrite (Rabs_minus_sym (p * h) u) in T1. rewrite Rabs_mult, (Rabs_right h) in T1 by lra.
    unfold e in *. lra. }
  assert (Bv : e * h < Rabs v).
  { assert (Q : Rabs (v / - h - p) * h < e * h) by (apply Rmult_lt_compat_r; assumption).
    rewrite <- (Rabs_right h) in Q at 2 by lra. rewrite <- Rabs_mult in Q.
    replace ((v / - h - p) * h) with (- (v + p * h)) in Q by (field; lra).
    rewrite Rabs_Ropp in Q.
    pose proof (Rabs_triang_inv (p * h) (p * h + v)) as T1.
    replace (p * h - (p * h + v)) with (- v) in T1 by ring. rewrite Rabs_Ropp in T1.
    rewrite (Rplus_comm (p * h) v) in T1. rewrite Rabs_mult, (Rabs_right h) in T1 by lra.
    unfold e in *. lra. }
  assert (Pa : 0 < / h) by (apply Rinv_0_lt_compat; lra).
  replace (Rabs v * k / - h) with (- (Rabs v * k / h)) in Z by (field; lra).
  assert (S : Rabs (Rabs u * k / h + Rabs v * k / h) < 2 * (e * Rabs k)).
  { replace (Rabs u * k / h + Rabs v * k / h)
      with ((Rabs u * k / h - l) - (- (Rabs v * k / h) - l)) by ring.
    eapply Rle_lt_trans; [apply Rabs_triang|]. rewrite Rabs_Ropp. lra. }
  replace (Rabs u * k / h + Rabs v * k / h) with ((Rabs u + Rabs v) / h * k) in S by (field; lra).
  rewrite Rabs_mult in S. assert (S' : Rabs ((Rabs u + Rabs v) / h) < 2 * e).
  { apply Rmult_lt_reg_r with (Rabs k); lra. }
  rewrite Rabs_right in S'.
  - assert (Q : (Rabs u + Rabs v) / h * h < 2 * e * h) by (apply Rmult_lt_compat_r; assumption).
    replace ((Rabs u + Rabs v) / h * h) with (Rabs u + Rabs v) in Q by (field; lra). lra.
  - apply Rle_ge. unfold Rdiv. apply Rmult_le_pos; [| lra].
    pose proof (Rabs_pos u). pose proof (Rabs_pos v). lra.
Qed.
