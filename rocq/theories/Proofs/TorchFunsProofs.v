(** TorchFunsProofs.v -- special functions and their gradients. *)
From Coq Require Import Reals ZArith Lra.
From Verif.Spec Require Import ThermalSpec BesselSpec.
From Verif.Model Require Import Units Elements Rounding TorchFuns.
From Verif.Proofs Require Import ThermalProofs ElementsProofs CDeriv GradCalc.
Open Scope R_scope.

Lemma maximum_spec a b : t_maximum a b = Rmax a b.
Proof. unfold t_maximum, Rmax. destruct (Rlt_dec b a), (Rle_dec a b); lra. Qed.
Lemma minimum_spec a b : t_minimum a b = Rmin a b.
Proof. unfold t_minimum, Rmin. destruct (Rlt_dec b a), (Rle_dec a b); lra. Qed.

(** Equal near a point. *)
Lemma hd_local f g t d r : 0 < r -> (forall u, Rabs (u - t) < r -> f u = g u) ->
  has_derivative f t d -> has_derivative g t d.
Proof.
  intros Hr H D eps He. destruct (D eps He) as [del [Hd K]].
  exists (Rmin del r). split; [apply Rmin_glb_lt; assumption|].
  intros h Hh Hl. rewrite <- !H.
  - apply K; [exact Hh|]. eapply Rlt_le_trans; [exact Hl|apply Rmin_l].
  - rewrite Rminus_eq_0, Rabs_R0. exact Hr.
  - replace (t + h - t) with h by ring. eapply Rlt_le_trans; [exact Hl|apply Rmin_r].
Qed.
Lemma hd_positive f g t d : 0 < t -> (forall u, 0 < u -> f u = g u) -> has_derivative f t d -> has_derivative g t d.
Proof.
  intros Ht H. apply (hd_local f g t d t Ht). intros u Hu. apply H.
  apply Rabs_def2 in Hu. lra.
Qed.

Lemma max_grad g a b : a <> b ->
  has_derivative (fun u => g * t_maximum u b) a (fst (t_maximum_grad g a b)) /\
  has_derivative (fun u => g * t_maximum a u) b (snd (t_maximum_grad g a b)).
Proof.
  intros N. unfold t_maximum_grad. destruct (Rlt_dec b a) as [L|L]; cbn [fst snd].
  - split.
    + apply (hd_local (fun u => g * u) _ _ _ (a - b)); [lra| |].
      * intros u Hu. apply Rabs_def2 in Hu. unfold t_maximum. destruct (Rlt_dec b u); lra.
      * eapply hd_eq; [apply hd_scal, hd_id|ring].
    + apply (hd_local (fun _ => g * a) _ _ _ (a - b)); [lra| |].
      * intros u Hu. apply Rabs_def2 in Hu. unfold t_maximum. destruct (Rlt_dec u a); lra.
      * eapply hd_eq; [apply hd_const|ring].
  - split.
    + apply (hd_local (fun _ => g * b) _ _ _ (b - a)); [lra| |].
      * intros u Hu. apply Rabs_def2 in Hu. unfold t_maximum. destruct (Rlt_dec b u); lra.
      * apply hd_const.
    + apply (hd_local (fun u => g * u) _ _ _ (b - a)); [lra| |].
      * intros u Hu. apply Rabs_def2 in Hu. unfold t_maximum. destruct (Rlt_dec u a); lra.
      * eapply hd_eq; [apply hd_scal, hd_id|ring].
Qed.
Lemma min_grad g a b : a <> b ->
  has_derivative (fun u => g * t_minimum u b) a (fst (t_minimum_grad g a b)) /\
  has_derivative (fun u => g * t_minimum a u) b (snd (t_minimum_grad g a b)).
Proof.
  intros N. unfold t_minimum_grad. destruct (Rlt_dec b a) as [L|L]; cbn [fst snd].
  - split.
    + apply (hd_local (fun _ => g * b) _ _ _ (a - b)); [lra| |].
      * intros u Hu. apply Rabs_def2 in Hu. unfold t_minimum. destruct (Rlt_dec b u); lra.
      * eapply hd_eq; [apply hd_const|ring].
    + apply (hd_local (fun u => g * u) _ _ _ (a - b)); [lra| |].
      * intros u Hu. apply Rabs_def2 in Hu. unfold t_minimum. destruct (Rlt_dec u a); lra.
      * eapply hd_eq; [apply hd_scal, hd_id|ring].
  - split.
    + apply (hd_local (fun u => g * u) _ _ _ (b - a)); [lra| |].
      * intros u Hu. apply Rabs_def2 in Hu. unfold t_minimum. destruct (Rlt_dec b u); lra.
      * eapply hd_eq; [apply hd_scal, hd_id|ring].
    + apply (hd_local (fun _ => g * a) _ _ _ (b - a)); [lra| |].
      * intros u Hu. apply Rabs_def2 in Hu. unfold t_minimum. destruct (Rlt_dec u a); lra.
      * apply hd_const.
Qed.

Lemma hd_ln f t d : has_derivative f t d -> 0 < f t -> has_derivative (fun u => ln (f u)) t (/ f t * d).
Proof. intros H P. apply hd_comp; [exact H|]. apply has_derivative_iff, derivable_pt_lim_ln, P. Qed.

Section Bessel.
Variables (K0 K1 : R -> R) (kve : nat -> R -> R).
Hypothesis B : bessel K0 K1 kve.

Lemma kve_ratio x : 0 < x -> kve 1%nat x / kve 0%nat x = K1 x / K0 x.
Proof.
  intros P. rewrite (bs_kve0 _ _ _ B x P), (bs_kve1 _ _ _ B x P).
  pose proof (exp_pos x). pose proof (bs_pos0 _ _ _ B x P). field. split; lra.
Qed.
Lemma k0e_hd x : 0 < x -> has_derivative (kve 0%nat) x (kve 0%nat x - kve 1%nat x).
Proof.
  intros P. eapply hd_positive; [exact P|intros u Hu; symmetry; apply (bs_kve0 _ _ _ B u Hu)|].
  eapply hd_eq.
  - apply hd_mul; [apply hd_exp, hd_id|apply (bs_deriv _ _ _ B x P)].
  - rewrite (bs_kve0 _ _ _ B x P), (bs_kve1 _ _ _ B x P). ring.
Qed.
Lemma kve_pos x : 0 < x -> 0 < kve 0%nat x /\ 0 < kve 1%nat x.
Proof.
  intros P. rewrite (bs_kve0 _ _ _ B x P), (bs_kve1 _ _ _ B x P).
  pose proof (exp_pos x). split; apply Rmult_lt_0_compat; auto; [apply B, P|apply B, P].
Qed.
Lemma k0e_grad sk0 g x : (forall u, 0 < u -> sk0 u = exp u * K0 u) -> 0 < x ->
  has_derivative (fun u => g * k0e_forward sk0 u) x (k0e_backward kve g x).
Proof.
  intros Hs P. apply hd_positive with (f := fun u => g * kve 0%nat u); [exact P| |].
  - intros u Hu. unfold k0e_forward. rewrite Hs, (bs_kve0 _ _ _ B u Hu); auto.
  - unfold k0e_backward. apply hd_scal, k0e_hd, P.
Qed.
Lemma log_kv_log n x : 0 < kve n x -> log_kv kve n x = ln (kve n x * exp (- x)).
Proof. intros P. unfold log_kv. rewrite ln_mult, ln_exp; auto using exp_pos. Qed.
Lemma log_k0_spec x : 0 < x -> log_k0_forward kve x = ln (K0 x).
Proof.
  intros P. unfold log_k0_forward. rewrite log_kv_log by apply kve_pos, P. f_equal.
  rewrite (bs_kve0 _ _ _ B x P), Rmult_comm, <- Rmult_assoc, <- exp_plus.
  replace (- x + x) with 0 by ring. rewrite exp_0. ring.
Qed.
Lemma log_k0_hd x : 0 < x -> has_derivative (log_k0_forward kve) x (- (K1 x / K0 x)).
Proof.
  intros P. apply hd_positive with (f := fun u => ln (K0 u)); [exact P| |].
  - intros u Hu. symmetry. apply log_k0_spec, Hu.
  - eapply hd_eq; [apply hd_ln; [apply (bs_deriv _ _ _ B x P)|apply B, P]|].
    pose proof (bs_pos0 _ _ _ B x P). field. lra.
Qed.
Lemma log_k0_slope g x : 0 < x -> log_k0_backward kve g x = g * - (K1 x / K0 x).
Proof.
  intros P. unfold log_k0_backward, log_kv. destruct (kve_pos x P) as [P0 P1].
  replace (ln (kve 1%nat x) - x - (ln (kve 0%nat x) - x)) with (ln (kve 1%nat x) + - ln (kve 0%nat x)) by ring.
  rewrite exp_plus, exp_Ropp, !exp_ln by assumption.
  rewrite <- (kve_ratio x P). unfold Rdiv. ring.
Qed.
Lemma log_k0_grad g x : 0 < x -> has_derivative (fun u => g * log_k0_forward kve u) x (log_k0_backward kve g x).
Proof. intros P. rewrite log_k0_slope by exact P. apply hd_scal, log_k0_hd, P. Qed.
End Bessel.

(** ** Slopes of the default quality factors *)
Lemma half_ratioE w t : 0 < t -> hbar * w / (2 * k_B * t) = half_ratio w t.
Proof. intros Ht. unfold half_ratio, thermal_ratio, hbar, k_B. field. lra. Qed.
Lemma half_ratio_lin w t : half_ratio w t = half_ratio 1 t * w.
Proof. unfold half_ratio, thermal_ratio, Rdiv. ring. Qed.
Lemma half_ratio_pos w t : 0 < w -> 0 < t -> 0 < half_ratio w t.
Proof. intros Hw Ht. unfold half_ratio, thermal_ratio. pos. Qed.
Lemma hd_half w t : has_derivative (fun u => half_ratio u t) w (half_ratio 1 t).
Proof.
  eapply hd_ext; [intros u; symmetry; apply half_ratio_lin|].
  eapply hd_eq; [apply hd_scal, hd_id|ring].
Qed.
Lemma hd_power f t d a : has_derivative f t d -> 0 < f t ->
  has_derivative (fun u => Rpower (f u) a) t (Rpower (f t) a * (a * (/ f t * d))).
Proof. intros H P. unfold Rpower.
  apply (hd_exp (fun u => a * ln (f u))), (hd_scal a (fun u => ln (f u))), (hd_ln f); assumption.
Qed.

Lemma q_cap_slope w : 0 < w -> has_derivative default_q_cap w (default_q_cap w * slope_cap w).
Proof.
  intros Hw. pose proof PI_RGT_0.
  apply hd_positive with (f := fun u => 1e6 * Rpower (2 * PI * 6e9 * / u) 0.7); [exact Hw| |].
  - intros u Hu. unfold default_q_cap. rewrite (Rabs_right u) by lra. reflexivity.
  - eapply hd_eq.
    + apply hd_scal, hd_power; [apply hd_scal, hd_inv; [apply hd_id|lra]|].
      cbv beta. pos.
    + cbv beta. unfold default_q_cap, slope_cap. rewrite (Rabs_right w) by lra.
      fold (Rdiv (2 * PI * 6e9) w). set (y := Rpower _ _). clearbody y. replace 0.7 with (7 / 10) by lra.
      assert (0 < 6e9) by lra. generalize dependent 6e9. intros c Hc. field. repeat split; lra.
Qed.

Lemma log_sinh_hd x : 0 < x -> has_derivative log_sinh x (coth x).
Proof.
  intros P. assert (L : exp (-2 * x) < 1) by (rewrite <- exp_0; apply exp_increasing; lra).
  unfold log_sinh. eapply hd_eq.
  - apply hd_add; [|apply hd_opp, hd_const].
    apply hd_add; [apply hd_id|]. apply hd_ln; [|cbv beta; lra].
    apply hd_add; [apply hd_const|apply hd_opp, hd_exp, hd_scal, hd_id].
  - cbv beta. unfold coth. replace (-2 * x) with (- x + - x) in * by ring. rewrite exp_plus in *.
    assert (Q : exp x * exp (- x) = 1) by (rewrite <- exp_plus, Rplus_opp_r; apply exp_0).
    pose proof (exp_pos x) as Hx. pose proof (exp_pos (- x)) as Hy.
    revert L Q Hx Hy. generalize (exp (- x)) (exp x). intros y z L Q Hz Hy.
    assert (y < z). { apply (Rmult_lt_reg_r y); [lra|]. rewrite Q. exact L. }
    replace (1 - y * y) with (y * (z - y)) by (rewrite <- Q; ring).
    field. split; lra.
Qed.

Section Defaults.
Variables (K0 K1 : R -> R) (kve : nat -> R -> R).
Hypothesis B : bessel K0 K1 kve.

Lemma q_ind_slope w t : 0 < w -> 0 < t ->
  has_derivative (fun u => default_q_ind (kve 0%nat) u t) w
    (default_q_ind (kve 0%nat) w t * slope_ind K0 K1 w t).
Proof.
  intros Hw Ht. pose proof (half_ratio_pos w t Hw Ht) as Pb. unfold default_q_ind at 1. cbv zeta.
  set (a := log_k0 _ _ + log_sinh _).
  apply hd_ext with (f := fun u => 500e6 * exp (a - log_k0 (kve 0%nat) (half_ratio u t) - log_sinh (half_ratio u t))).
  { intros u. rewrite (half_ratioE u t Ht). reflexivity. }
  eapply hd_eq.
  - apply hd_scal, hd_exp. apply hd_add; [apply hd_add; [apply hd_const|apply hd_opp]|apply hd_opp].
    + apply (hd_comp (log_k0_forward kve) (fun u => half_ratio u t)); [apply hd_half|apply (log_k0_hd _ _ _ B _ Pb)].
    + apply (hd_comp log_sinh (fun u => half_ratio u t)); [apply hd_half|apply log_sinh_hd, Pb].
  - cbv beta. unfold default_q_ind. cbv zeta. rewrite half_ratioE by assumption. fold a. unfold slope_ind. cbv zeta.
    rewrite (half_ratio_lin w t) in *. set (h := half_ratio 1 t) in *. set (b := h * w) in *.
    change (log_k0 (kve 0%nat) b) with (log_k0_forward kve b).
    replace (a + - log_k0_forward kve b + - log_sinh b) with (a - log_k0_forward kve b - log_sinh b) by ring.
    set (ee := exp _). pose proof (bs_pos0 _ _ _ B _ Pb).
    assert (Eb : h = b / w) by (unfold b; field; lra). rewrite Eb. field. split; lra.
Qed.

(** The scaled Bessel function in the admittance is computed by K0eSolver. *)
Lemma y_junc_slope delta x w t : 0 < delta -> 0 < w -> 0 < t ->
  has_derivative (fun u => default_y_junc (kve 0%nat) delta x u t) w
    (default_y_junc (kve 0%nat) delta x w t * slope_jj K0 K1 w t).
Proof.
  intros Hd Hw Ht. pose proof (half_ratio_pos w t Hw Ht) as Pb.
  assert (Pc : 0 < 2 * (delta * 1.6e-19) / hbar) by (pose proof hbar_pos; pos).
  unfold default_y_junc at 1. cbv zeta.
  set (c := 2 * (delta * 1.6e-19) / hbar) in *. set (A := sqrt (2 / PI) * _).
  apply hd_ext with (f := fun u => A * (Rpower (c * / u) 1.5 * (sqrt (half_ratio u t) *
     (kve 0%nat (half_ratio u t) * (1 + - exp (-2 * half_ratio u t))))) * (x / 2)).
  { intros u. rewrite (half_ratioE u t Ht). unfold Rdiv. ring. }
  eapply hd_eq.
  - apply hd_mul; [|apply hd_const]. apply hd_scal.
    apply hd_mul; [apply (hd_power (fun u => c * / u)); [apply hd_scal, hd_inv; [apply hd_id|lra]|cbv beta; pos]|].
    apply hd_mul; [apply (hd_comp sqrt (fun u => half_ratio u t)); [apply hd_half|
      apply has_derivative_iff, derivable_pt_lim_sqrt, Pb]|].
    apply hd_mul; [apply (hd_comp (kve 0%nat) (fun u => half_ratio u t)); [apply hd_half|apply (k0e_hd _ _ _ B _ Pb)]|].
    apply hd_add; [apply hd_const|]. apply hd_opp, (hd_exp (fun u => -2 * half_ratio u t)), hd_scal, hd_half.
  - cbv beta. unfold default_y_junc. cbv zeta. rewrite (half_ratioE w t Ht). fold c. fold A.
    unfold slope_jj. cbv zeta. rewrite <- (kve_ratio _ _ _ B _ Pb).
    destruct (kve_pos _ _ _ B _ Pb) as [P0 _].
    assert (Es : sqrt (half_ratio w t) * sqrt (half_ratio w t) = half_ratio w t) by (apply sqrt_sqrt; lra).
    assert (Ps : 0 < sqrt (half_ratio w t)) by (apply sqrt_lt_R0, Pb).
    rewrite (half_ratio_lin w t) in *. set (h := half_ratio 1 t) in *. set (b := h * w) in *.
    assert (Eb : h = b / w) by (unfold b; field; lra).
    unfold coth. 
    assert (L : exp (-2 * b) < 1) by (rewrite <- exp_0; apply exp_increasing; lra).
    replace (-2 * b) with (- b + - b) in * by ring. rewrite exp_plus in *.
    assert (Q : exp b * exp (- b) = 1) by (rewrite <- exp_plus, Rplus_opp_r; apply exp_0).
    pose proof (exp_pos b) as Hx. pose proof (exp_pos (- b)) as Hy.
    revert L Q Hx Hy. generalize (exp (- b)) (exp b). intros y z L Q Hz Hy.
    assert (Y1 : y < z). { apply (Rmult_lt_reg_r y); [lra|]. rewrite Q. exact L. }
    replace (1 - y * y) with (y * (z - y)) by (rewrite <- Q; ring).
    replace (1 + - (y * y)) with (y * (z - y)) by (rewrite <- Q; ring).
    fold (Rdiv c w). replace 1.5 with (3 / 2) by lra. rewrite Eb. clearbody b A c.
    revert P0 Es Ps. generalize (kve 0%nat b) (kve 1%nat b) (sqrt b) (Rpower (c / w) (3 / 2)).
    intros k0 k1 r p P0 Es Ps. rewrite <- Es. field. repeat split; lra.
Qed.
End Defaults.
