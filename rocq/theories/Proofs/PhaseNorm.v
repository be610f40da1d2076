(** PhaseNorm.v -- normalisation of the wave functions and the operators of a mode in
    the phase representation. *)
From Coq Require Import Reals ZArith Lia Lra.
From Coquelicot Require Import Coquelicot.
From Verif.Model Require Import Base Units Trunc Accuracy HamConst PhaseConst.
From Verif.Spec Require Import HermiteSpec LineSpec.
From Verif.Proofs Require Import PhaseProofs LineProofs.
Open Scope R_scope.

(** sqrt(Z/2) and sqrt(1/(2Z)) with Z = sqrt(cI/lT). *)
Lemma len0_sq cI lT : 0 < cI -> 0 < lT -> len0 cI lT * len0 cI lT = hbar * impedance cI lT.
Proof.
  intros H K. unfold len0, impedance. apply sqrt_sqrt. apply Rmult_le_pos; [left; exact hbar_pos|apply sqrt_pos].
Qed.
Lemma imp_pos cI lT : 0 < cI -> 0 < lT -> 0 < impedance cI lT.
Proof. intros H K. apply sqrt_lt_R0, Rdiv_lt_0_compat; auto. Qed.
Lemma f_zp_len cI lT : 0 < cI -> 0 < lT -> f_zp (impedance cI lT) * sqrt 2 * sqrt hbar = len0 cI lT.
Proof.
  intros H K. assert (Z := imp_pos _ _ H K). unfold f_zp, len0. fold (impedance cI lT). generalize dependent (impedance cI lT).
  intros Z HZ. generalize hbar_pos. generalize hbar. intros h Hh.
  rewrite <- !sqrt_mult_alt by (try apply Rmult_le_pos; lra). f_equal. field.
Qed.
Lemma q_zp_len cI lT : 0 < cI -> 0 < lT -> q_zp (impedance cI lT) * sqrt 2 * len0 cI lT = sqrt hbar.
Proof.
  intros H K. assert (Z := imp_pos _ _ H K). unfold q_zp, len0. fold (impedance cI lT). generalize dependent (impedance cI lT).
  intros Z HZ. generalize hbar_pos. generalize hbar. intros h Hh.
  assert (0 < 1 / 2 / Z) by (apply Rdiv_lt_0_compat; lra).
  rewrite <- !sqrt_mult_alt by (try apply Rmult_le_pos; lra). f_equal. field. lra.
Qed.

(** Flux: multiplication by phi Phi0 / sqrt hbar. *)
Lemma flux_chi cI lT n x : 0 < cI -> 0 < lT ->
  f_zp (impedance cI lT) * (sqrt (INR (S n)) * chi (Phi0 / len0 cI lT) (S n) x + lower (Phi0 / len0 cI lT) n x) =
  x * Phi0 / sqrt hbar * chi (Phi0 / len0 cI lT) n x.
Proof.
  intros H K. rewrite <- chi_pos. assert (E := f_zp_len _ _ H K). assert (P := len0_pos _ _ H K).
  assert (S : 0 < sqrt hbar) by (apply sqrt_lt_R0, hbar_pos).
  set (c := chi _ _ _). rewrite <- E in P |- *. 
  assert (F : 0 < f_zp (impedance cI lT) * sqrt 2) by (apply (Rmult_lt_reg_r (sqrt hbar)); lra).
  assert (S2 : 0 < sqrt 2) by (apply sqrt_lt_R0; lra).
  assert (F' : 0 < f_zp (impedance cI lT)) by (apply (Rmult_lt_reg_r (sqrt 2)); lra).
  field. repeat split; lra.
Qed.
(** Charge: -i sqrt(hbar) / Phi0 times the derivative. *)
Lemma charge_chi cI lT n (x : R) : 0 < cI -> 0 < lT ->
  q_zp (impedance cI lT) * (lower (Phi0 / len0 cI lT) n x - sqrt (INR (S n)) * chi (Phi0 / len0 cI lT) (S n) x) =
  sqrt hbar / Phi0 * Derive (chi (Phi0 / len0 cI lT) n) x.
Proof.
  intros H K. assert (E := chi_deriv (Phi0 / len0 cI lT) n x). assert (Q := q_zp_len _ _ H K). assert (P := len0_pos _ _ H K).
  assert (F := Phi0_pos). rewrite <- Q.
  replace (q_zp (impedance cI lT) * sqrt 2 * len0 cI lT / Phi0 * Derive (chi (Phi0 / len0 cI lT) n) x)
    with (q_zp (impedance cI lT) * (len0 cI lT / Phi0) * (sqrt 2 * Derive (chi (Phi0 / len0 cI lT) n) x)) by (field; lra).
  rewrite E. field. split; lra.
Qed.

(** The oscillator equation in flux units. *)
Lemma energy_chi cI lT n (x : R) : 0 < cI -> 0 < lT ->
  - (hbar * hbar * cI / 2) * (Derive (Derive (chi (Phi0 / len0 cI lT) n)) x / (Phi0 * Phi0)) +
  lT / 2 * ((x * Phi0) * (x * Phi0)) * chi (Phi0 / len0 cI lT) n x =
  hbar * sqrt (cI * lT) * (INR n + 1 / 2) * chi (Phi0 / len0 cI lT) n x.
Proof.
  intros H K. rewrite (is_derive_unique _ _ _ (chi_ode (Phi0 / len0 cI lT) n x)).
  set (y := chi _ _ _). assert (P := len0_pos _ _ H K). assert (Q := len0_sq _ _ H K). assert (Z := imp_pos _ _ H K).
  assert (F := Phi0_pos). assert (Hh := hbar_pos).
  assert (E1 : cI = sqrt (cI * lT) * impedance cI lT).
  { unfold impedance. rewrite <- sqrt_mult_alt by (apply Rmult_le_pos; lra).
    replace (cI * lT * (cI / lT)) with (cI * cI) by (field; lra). rewrite sqrt_square; lra. }
  assert (E2 : lT * impedance cI lT = sqrt (cI * lT)).
  { unfold impedance. rewrite <- (sqrt_square lT) at 1 by lra. rewrite <- sqrt_mult_alt by (apply Rmult_le_pos; lra).
    f_equal. field. lra. }
  replace (Phi0 / len0 cI lT * (Phi0 / len0 cI lT)) with (Phi0 * Phi0 / (len0 cI lT * len0 cI lT)) by (field; lra).
  replace (Phi0 / len0 cI lT * x * (Phi0 / len0 cI lT * x)) with (Phi0 * Phi0 * x * x / (len0 cI lT * len0 cI lT)) by (field; lra).
  rewrite Q. generalize dependent (impedance cI lT). intros Z Qz Zp Ez E2.
  replace (- (hbar * hbar * cI / 2)) with (- (hbar * hbar * (sqrt (cI * lT) * Z) / 2)) by (rewrite <- Ez; reflexivity).
  rewrite <- E2. clearbody y. field. repeat split; apply Rgt_not_eq; assumption.
Qed.

(** The phase operator multiplies by 2 pi x. *)
Lemma phase_chi cI lT n x : 0 < cI -> 0 < lT ->
  phi_zp cI lT * (sqrt (INR (S n)) * chi (Phi0 / len0 cI lT) (S n) x + lower (Phi0 / len0 cI lT) n x) =
  2 * PI * x * chi (Phi0 / len0 cI lT) n x.
Proof.
  intros H K. assert (E := flux_chi cI lT n x H K). unfold phi_zp.
  assert (S : 0 < sqrt hbar) by (apply sqrt_lt_R0, hbar_pos). assert (F := Phi0_pos).
  replace (sqrt (hbar / 2 * impedance cI lT)) with (sqrt hbar * f_zp (impedance cI lT)).
  - replace (2 * PI / Phi0 * (sqrt hbar * f_zp (impedance cI lT)) * (sqrt (INR (Datatypes.S n)) * chi (Phi0 / len0 cI lT) (Datatypes.S n) x + lower (Phi0 / len0 cI lT) n x))
      with (2 * PI / Phi0 * sqrt hbar * (f_zp (impedance cI lT) * (sqrt (INR (Datatypes.S n)) * chi (Phi0 / len0 cI lT) (Datatypes.S n) x + lower (Phi0 / len0 cI lT) n x))) by ring.
    rewrite E. field. split; lra.
  - unfold f_zp. rewrite <- sqrt_mult_alt by (left; exact hbar_pos). f_equal. field.
Qed.

Lemma offsetE m k x : x * INR k = x * offset m + x * (INR k - offset m).
Proof. ring. Qed.
Lemma charge_atE m k : charge_at m k = INR k - offset m.
Proof. reflexivity. Qed.
Lemma charge_at30 : charge_at 3 0 = -1.
Proof. unfold charge_at. simpl. field. Qed.
Lemma plane_differs : pnorm * cos (PI * INR 0) = pnorm * cos (PI * -1) -> False.
Proof.
  intros H. assert (P : 0 < pnorm) by (apply Rinv_0_lt_compat, sqrt_lt_R0; assert (Q := PI_RGT_0); lra).
  simpl in H. rewrite Rmult_0_r, cos_0 in H. replace (PI * -1) with (- PI) in H by ring. rewrite cos_neg, cos_PI in H. lra.
Qed.
