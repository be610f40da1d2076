(** P_TorchFuns.v -- C73: functions with their own code in the PyTorch engine, and the
    slopes of the default quality factors. *)
From Coq Require Import Reals ZArith Lra.
From Verif.Spec Require Import ThermalSpec BesselSpec.
From Verif.Model Require Import Base Units Edge Elements LCWB Rounding TorchFuns.
From Verif.Proofs Require Import ThermalProofs ElementsProofs CDeriv GradCalc RoundProofs TorchFunsProofs.
Open Scope R_scope.

(** The gradients of K0eSolver and LogK0Solver are the derivatives of their values. *)
Theorem C73_k0e : forall K0 K1 kve sk0 g x, bessel K0 K1 kve ->
  (forall u, 0 < u -> sk0 u = exp u * K0 u) -> 0 < x ->
  k0e_forward sk0 x = exp x * K0 x /\
  has_derivative (fun u => g * k0e_forward sk0 u) x (k0e_backward kve g x).
Proof. intros K0 K1 kve sk0 g x B Hs P. split; [apply Hs, P|exact (k0e_grad K0 K1 kve B sk0 g x Hs P)]. Qed.
Print Assumptions C73_k0e.
Theorem C73_log_k0 : forall K0 K1 kve g x, bessel K0 K1 kve -> 0 < x ->
  log_k0_forward kve x = ln (K0 x) /\
  has_derivative (fun u => g * log_k0_forward kve u) x (log_k0_backward kve g x).
Proof. intros K0 K1 kve g x B P. split; [apply (log_k0_spec K0 K1 kve B x P)|exact (log_k0_grad K0 K1 kve B g x P)]. Qed.
Print Assumptions C73_log_k0.

(** maximum and minimum, and their gradients where the arguments differ. *)
Theorem C73_extremes : forall a b, t_maximum a b = Rmax a b /\ t_minimum a b = Rmin a b.
Proof. intros a b. split; [apply maximum_spec|apply minimum_spec]. Qed.
Print Assumptions C73_extremes.
Theorem C73_extremes_grad : forall g a b, a <> b ->
  has_derivative (fun u => g * Rmax u b) a (fst (t_maximum_grad g a b)) /\
  has_derivative (fun u => g * Rmax a u) b (snd (t_maximum_grad g a b)) /\
  has_derivative (fun u => g * Rmin u b) a (fst (t_minimum_grad g a b)) /\
  has_derivative (fun u => g * Rmin a u) b (snd (t_minimum_grad g a b)).
Proof.
  intros g a b N. destruct (max_grad g a b N) as [H1 H2], (min_grad g a b N) as [H3 H4].
  repeat split; (eapply hd_ext; [|eassumption]); intros u; cbv beta; first [rewrite maximum_spec|rewrite minimum_spec]; reflexivity.
Qed.
Print Assumptions C73_extremes_grad.

(** Rounding to decimals: one of the nearest multiples, in both engines the same. *)
Theorem C73_round : forall x a, Rabs (t_round x a - x) <= / 2 * / 10 ^ a /\ t_round x 5 = around5 x.
Proof.
  intros x a. split; [|reflexivity]. unfold t_round. set (p := 10 ^ a).
  assert (P : 0 < p) by (apply pow_lt; lra). assert (H := round_even_half (x * p)).
  replace (IZR (round_even (x * p)) / p - x) with ((IZR (round_even (x * p)) - x * p) * / p) by (field; lra).
  rewrite <- Rabs_Ropp, Ropp_mult_distr_l, Ropp_minus_distr, Rabs_mult, (Rabs_right (/ p)) by (left; apply Rinv_0_lt_compat, P).
  apply Rmult_le_compat_r; [left; apply Rinv_0_lt_compat, P|]. lra.
Qed.
Print Assumptions C73_round.

(** Logarithmic slopes of the default quality factors and of the default admittance. *)
Theorem C73_slopes : forall K0 K1 kve delta x w t, bessel K0 K1 kve -> 0 < delta -> 0 < w -> 0 < t ->
  has_derivative default_q_cap w (default_q_cap w * slope_cap w) /\
  has_derivative (fun u => default_q_ind (kve 0%nat) u t) w (default_q_ind (kve 0%nat) w t * slope_ind K0 K1 w t) /\
  has_derivative (fun u => default_y_junc (kve 0%nat) delta x u t) w
    (default_y_junc (kve 0%nat) delta x w t * slope_jj K0 K1 w t).
Proof.
  intros K0 K1 kve delta x w t B Hd Hw Ht.
  exact (conj (q_cap_slope w Hw) (conj (q_ind_slope K0 K1 kve B w t Hw Ht) (y_junc_slope K0 K1 kve B delta x w t Hd Hw Ht))).
Qed.
Print Assumptions C73_slopes.

(** Case: K0 = K1 = exp (-x) meets the premises; the scaled function is then constant
    and its gradient 0. *)
Definition flat_kve (n : nat) (x : R) : R := exp x * exp (- x).
Example C73_case : bessel (fun x => exp (- x)) (fun x => exp (- x)) flat_kve /\
  k0e_backward flat_kve 1 2 = 0 /\ log_k0_backward flat_kve 1 2 = -1.
Proof.
  assert (B : bessel (fun x => exp (- x)) (fun x => exp (- x)) flat_kve).
  { split; intros x P; auto using exp_pos.
    eapply hd_eq; [apply (hd_exp (fun u => - u)), hd_opp, hd_id|ring]. }
  split; [exact B|]. split; [unfold k0e_backward, flat_kve; ring|].
  rewrite (log_k0_slope _ _ _ B) by lra. field. apply Rgt_not_eq, exp_pos.
Qed.

From mathcomp Require Import all_ssreflect all_algebra.
From Verif.Numerics Require Import RStruct.
From Verif.Model Require Import CircuitSM Partial DecRate.
From Verif.Spec Require Import DecSpec RateGradSpec RelaxSpec.
From Verif.Proofs Require Import RelaxProofs.

(** The default quality factors meet the premise of C72. *)
Theorem C73_smooth K0 K1 kve delta xqp aj al s w t dt : bessel K0 K1 kve -> Rlt R0 delta -> Rlt R0 w -> Rlt R0 t ->
  (forall el, evalue s el <> R0) -> thermal_type (Some dt) ->
  smooth s (mkQual (fun=> Some default_q_cap) (fun _ u t => Some (default_q_ind (kve 0%N) u t))
    (fun _ u t => Some (default_y_junc (kve 0%N) delta xqp u t)) aj al) t w dt.
Proof.
move=> B Hd Hw Ht Hv Hty; have [D1 [D2 D3]] := C73_slopes K0 K1 kve delta xqp w t B Hd Hw Ht.
have nr (P : R -> Prop) (p : forall u, P u) : near w P by exists R1; split; [exact: Rlt_0_1|].
case: dt Hty => // _.
- move=> el _ [<-]; split; last by eexists; exact: D1.
  by apply: Rgt_not_eq; apply: (q_cap_pos w); apply: Rgt_not_eq.
- move=> el; right; split; first exact: Hv.
  exists (fun u => default_q_ind (kve 0%N) u t); eexists; split; [exact: nr|exact: D2|].
  apply: Rgt_not_eq; rewrite /default_q_ind; apply: Rmult_lt_0_compat; [lra|exact: exp_pos].
- move=> el; right; exists (fun u => default_y_junc (kve 0%N) delta xqp u t); eexists; split; [exact: nr|exact: D3].
Qed.
Print Assumptions C73_smooth.
