(** HamConstProofs.v -- real arithmetic of the prefactors. *)
From Coq Require Import Reals Lra Lia.
From Verif.Model Require Import Base Units Accuracy HamConst.
From Verif.Spec Require Import PhysSpec.
Open Scope R_scope.

Lemma imp_pos c l : 0 < c -> 0 < l -> 0 < impedance c l.
Proof. intros. unfold impedance. apply sqrt_lt_R0. apply Rdiv_lt_0_compat; auto. Qed.

(** c q_zp^2 = l f_zp^2 = omega / 2 *)
Lemma q_energy c l : 0 < c -> 0 < l ->
  c * (q_zp (impedance c l) * q_zp (impedance c l)) = sqrt (c * l) / 2.
Proof.
  intros Hc Hl. pose proof (imp_pos c l Hc Hl) as HZ. unfold q_zp.
  rewrite sqrt_sqrt by (left; repeat apply Rdiv_lt_0_compat; lra).
  set (Z := impedance c l) in *.
  assert (E : sqrt (c * l) * Z = c).
  { unfold Z, impedance. rewrite <- sqrt_mult by (try apply Rlt_le; try apply Rdiv_lt_0_compat; nra).
    replace (c * l * (c / l)) with (c * c) by (field; lra). apply sqrt_square. lra. }
  rewrite <- E at 1. field. lra.
Qed.
Lemma f_energy c l : 0 < c -> 0 < l ->
  l * (f_zp (impedance c l) * f_zp (impedance c l)) = sqrt (c * l) / 2.
Proof.
  intros Hc Hl. pose proof (imp_pos c l Hc Hl) as HZ. unfold f_zp.
  rewrite sqrt_sqrt by lra.
  assert (E : l * impedance c l = sqrt (c * l)).
  { unfold impedance. rewrite <- (sqrt_square l) at 1 by lra.
    rewrite <- sqrt_mult by (try apply Rlt_le; try apply Rdiv_lt_0_compat; nra).
    f_equal. field. lra. }
  rewrite <- E. lra.
Qed.

Lemma charge_step m k : charge_at m (S k) = charge_at m k + 1.
Proof. unfold charge_at. rewrite S_INR. lra. Qed.

Lemma charge_range N k : (k < 2 * N + 1)%nat ->
  charge_at (2 * N + 1) k = IZR (Z.of_nat k - Z.of_nat N).
Proof.
  intros _. unfold charge_at. rewrite minus_IZR, <- !INR_IZR_INZ, plus_INR, mult_INR. simpl. lra.
Qed.

Lemma halfR_add x : halfR x + halfR x = x.
Proof. unfold halfR. lra. Qed.

Lemma neg_pos w : w < 0 <-> 0 < - w. Proof. lra. Qed.
Lemma pos_neg w : 0 < w <-> - w < 0. Proof. lra. Qed.

(** A mode of unit impedance (Ohm) has a zero-point phase far above the threshold. *)
Lemma phi_zp_unit : acc_har < phi_zp 1 1.
Proof.
  unfold phi_zp, impedance. replace (1 / 1) with 1 by field. rewrite sqrt_1.
  assert (P : 3 < PI) by (pose proof PI2_3_2; lra).
  assert (S : 1e-18 < sqrt (hbar / 2 * 1)).
  { rewrite <- (sqrt_square 1e-18) by lra. apply sqrt_lt_1; unfold hbar; lra. }
  assert (Q : 1e15 < 2 * PI / Phi0).
  { apply Rmult_lt_reg_r with Phi0; [unfold Phi0; lra|].
    replace (2 * PI / Phi0 * Phi0) with (2 * PI) by (field; unfold Phi0; lra).
    unfold Phi0; lra. }
  apply Rlt_trans with (1e15 * 1e-18); [unfold acc_har; lra|].
  apply Rmult_gt_0_lt_compat; lra.
Qed.

Lemma q_zp_pos Z : 0 < Z -> 0 < q_zp Z.
Proof. intros. unfold q_zp. apply sqrt_lt_R0. apply Rdiv_lt_0_compat; lra. Qed.
Lemma f_zp_pos Z : 0 < Z -> 0 < f_zp Z.
Proof. intros. unfold f_zp. apply sqrt_lt_R0. lra. Qed.

Lemma trig_period (x : R) (k : Z) :
  cos (x + IZR k * (PI + PI)) = cos x /\ sin (x + IZR k * (PI + PI)) = sin x.
Proof.
  replace (PI + PI) with (2 * PI) by ring.
  destruct k as [|p|p].
  - rewrite Rmult_0_l, Rplus_0_r; auto.
  - rewrite <- (positive_nat_Z p), <- INR_IZR_INZ. replace (INR (Pos.to_nat p) * (2 * PI)) with (2 * INR (Pos.to_nat p) * PI) by ring.
    split; [apply cos_period | apply sin_period].
  - replace (IZR (Z.neg p)) with (- INR (Pos.to_nat p)).
    2: { rewrite INR_IZR_INZ, positive_nat_Z, <- opp_IZR. reflexivity. }
    set (n := Pos.to_nat p). split.
    + rewrite <- (cos_period (x + - INR n * (2 * PI)) n). f_equal; ring.
    + rewrite <- (sin_period (x + - INR n * (2 * PI)) n). f_equal; ring.
Qed.

Lemma in_unit_back u x : get_unit_freq u <> 0 -> in_unit u x * (2 * PI * get_unit_freq u) = x.
Proof. intros H. unfold in_unit. field. split; auto. apply PI_neq0. Qed.
Lemma in_unit_rescale u1 u2 x : get_unit_freq u1 <> 0 -> get_unit_freq u2 <> 0 ->
  in_unit u2 x * get_unit_freq u2 = in_unit u1 x * get_unit_freq u1.
Proof. intros H1 H2. unfold in_unit. field. repeat split; auto. apply PI_neq0. Qed.
Lemma in_unit_case u k y : get_unit_freq u <> 0 -> y = k * get_unit_freq u -> in_unit u (2 * PI * y) = k.
Proof. intros H ->. unfold in_unit. field. split; auto. apply PI_neq0. Qed.

(** In coulombs the unit of a charge mode is the Cooper pair. *)
Lemma charge_unit_coulomb x : sqrt hbar * (charge_unit * x) = cooper_pair * x.
Proof.
  unfold charge_unit, e_charge, cooper_pair. field. apply Rgt_not_eq, sqrt_lt_R0. unfold hbar; lra.
Qed.

(** The flux bias of an inductor: the mixed term of (f + phi0)^2 / 2L. *)
Lemma ind_coef_square L phi x : L <> 0 -> let f := sqrt hbar * x in
  hbar * (ind_coef L phi * x) = energy L (f + webers phi) - energy L f - energy L (webers phi).
Proof.
  intros HL f. unfold f, ind_coef, energy, webers. fold Phi0. pose proof PI_RGT_0.
  assert (Hh : sqrt hbar <> 0) by (apply Rgt_not_eq, sqrt_lt_R0; unfold hbar; lra).
  assert (E : hbar = sqrt hbar * sqrt hbar) by (rewrite sqrt_sqrt; [auto|unfold hbar; lra]).
  set (s := sqrt hbar) in *. rewrite E. clearbody s. field. repeat split; lra.
Qed.

(** The displacement parameter: phi_zp a/a+ is the reduced flux in radians. *)
Lemma phi_zp_flux c l : 0 < c -> 0 < l ->
  phi_zp c l = radians_per_flux * f_zp (impedance c l).
Proof.
  intros Hc Hl. pose proof (imp_pos c l Hc Hl). unfold phi_zp, f_zp, radians_per_flux.
  fold Phi0 hbar. rewrite Rmult_assoc, <- sqrt_mult by (try (unfold hbar; lra); lra).
  f_equal. f_equal. lra.
Qed.
