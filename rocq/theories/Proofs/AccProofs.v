(** AccProofs.v -- scalar facts about maxima, rounding and zero-point fluctuations. *)
From Coq Require Import Reals List Lra Lia.
From Verif.Model Require Import Units Accuracy.
Open Scope R_scope.

Lemma rmax_ub m f i : (i < m)%nat -> f i <= rmax m f.
Proof.
  revert i; induction m as [|[|m] IH]; intros i Hi; [lia | replace i with O by lia; simpl; lra |].
  change (rmax (S (S m)) f) with (Rmax (rmax (S m) f) (f (S m))).
  destruct (Nat.eq_dec i (S m)) as [-> | N]; [apply Rmax_r|].
  eapply Rle_trans; [apply IH; lia | apply Rmax_l].
Qed.

Lemma rmax_attained m f : (0 < m)%nat -> exists i, (i < m)%nat /\ rmax m f = f i.
Proof.
  induction m as [|[|m] IH]; intros H; [lia | exists O; split; [lia | reflexivity] |].
  change (rmax (S (S m)) f) with (Rmax (rmax (S m) f) (f (S m))).
  destruct IH as [i [Hi E]]; [lia|].
  unfold Rmax; destruct Rle_dec; [exists (S m) | exists i]; split; auto; lia.
Qed.

Lemma argmax_lt m f : (0 < m)%nat -> (argmax m f < m)%nat.
Proof.
  induction m as [|[|m] IH]; intros H; [lia | simpl; lia |].
  change (argmax (S (S m)) f) with
    (let b := argmax (S m) f in if Rlt_dec (f b) (f (S m)) then S m else b).
  cbv zeta; destruct Rlt_dec; [lia|]; specialize (IH ltac:(lia)); lia.
Qed.

Lemma argmax_rmax m f : f (argmax m f) = rmax m f.
Proof.
  induction m as [|[|m] IH]; try reflexivity.
  change (argmax (S (S m)) f) with
    (let b := argmax (S m) f in if Rlt_dec (f b) (f (S m)) then S m else b).
  change (rmax (S (S m)) f) with (Rmax (rmax (S m) f) (f (S m))).
  cbv zeta; rewrite <- IH; unfold Rmax; destruct Rlt_dec, Rle_dec; auto; lra.
Qed.

Lemma rmax_zero m f : (forall i, (i < m)%nat -> 0 <= f i) -> (0 < m)%nat -> rmax m f = 0 ->
  forall i, (i < m)%nat -> f i = 0.
Proof.
  intros Hp Hm E i Hi; generalize (rmax_ub m f i Hi) (Hp i Hi); lra.
Qed.

Lemma acc_gs_small : 0 < acc_gs < 1/2. Proof. unfold acc_gs; lra. Qed.
Lemma acc_har_pos : 0 < acc_har. Proof. unfold acc_har; lra. Qed.

(** round01 leaves 0, 1, -1 and everything away from them alone. *)
Lemma round01_cases v :
  (Rabs v < acc_gs /\ round01 v = 0) \/
  (Rabs (v - 1) < acc_gs /\ round01 v = 1) \/
  (Rabs (v + 1) < acc_gs /\ round01 v = -1) \/
  (acc_gs <= Rabs v /\ acc_gs <= Rabs (v - 1) /\ acc_gs <= Rabs (v + 1) /\ round01 v = v).
Proof.
  unfold round01; pose proof acc_gs_small as [? ?].
  destruct (Rlt_dec (Rabs v) acc_gs) as [H1|H1].
  - left; split; auto.
    destruct (Rlt_dec (Rabs (0 - 1)) acc_gs) as [H2|H2]; [rewrite Rabs_left in H2; lra|].
    destruct (Rlt_dec (Rabs (0 + 1)) acc_gs) as [H3|H3]; [rewrite Rabs_pos_eq in H3; lra|]; reflexivity.
  - destruct (Rlt_dec (Rabs (v - 1)) acc_gs) as [H2|H2].
    + right; left; split; auto.
      destruct Rlt_dec as [H3|H3]; [rewrite Rabs_pos_eq in H3; lra|]; reflexivity.
    + destruct (Rlt_dec (Rabs (v + 1)) acc_gs) as [H3|H3].
      * right; right; left; auto.
      * right; right; right; repeat split; auto; lra.
Qed.

Lemma round01_0 : round01 0 = 0.
Proof.
  destruct (round01_cases 0) as [[_ H]|[[H _]|[[H _]|(_ & _ & _ & H)]]]; auto;
  exfalso; revert H; pose proof acc_gs_small as [? ?];
  [rewrite Rabs_left by lra | rewrite Rabs_pos_eq by lra]; lra.
Qed.

Lemma phi_zp_pos c l : 0 < c -> 0 < l -> 0 < phi_zp c l.
Proof.
  intros Hc Hl; unfold phi_zp, impedance.
  assert (0 < hbar) by (unfold hbar; lra). assert (0 < Phi0) by (unfold Phi0; lra).
  assert (0 < PI) by apply PI_RGT_0.
  assert (0 < c / l) by (apply Rdiv_lt_0_compat; auto).
  apply Rmult_lt_0_compat; [apply Rdiv_lt_0_compat; lra|].
  apply sqrt_lt_R0, Rmult_lt_0_compat; [lra|]; apply sqrt_lt_R0; auto.
Qed.

Lemma phi_zp_nonneg c l : 0 <= phi_zp c l.
Proof.
  unfold phi_zp; assert (0 < Phi0) by (unfold Phi0; lra).
  assert (0 < PI) by apply PI_RGT_0.
  apply Rmult_le_pos; [apply Rlt_le, Rdiv_lt_0_compat; lra | apply sqrt_pos].
Qed.

(** Scaling a mode by v leaves phi_zp * w unchanged. *)
Lemma phi_zp_scale c l v : 0 < v -> 0 < c -> 0 < l ->
  phi_zp (c / v / v) (l * v * v) * v = phi_zp c l.
Proof.
  intros Hv Hc Hl; unfold phi_zp, impedance.
  assert (0 < hbar) by (unfold hbar; lra).
  assert (0 < c / l) by (apply Rdiv_lt_0_compat; auto).
  assert (Hq : 0 < sqrt (c / l)) by (apply sqrt_lt_R0; auto).
  replace (c / v / v / (l * v * v)) with ((c / l) / (v * v * (v * v))) by (field; lra).
  assert (Hv2 : 0 < v * v) by (apply Rmult_lt_0_compat; auto).
  rewrite sqrt_div; [|lra | apply Rmult_lt_0_compat; auto].
  rewrite (sqrt_square (v * v)) by lra.
  replace (hbar / 2 * (sqrt (c / l) / (v * v))) with ((hbar / 2 * sqrt (c / l)) / (v * v))
    by (field; lra).
  rewrite sqrt_div; [|apply Rmult_le_pos; lra | auto].
  rewrite sqrt_square by lra.
  unfold Phi0; field; lra.
Qed.

Lemma round01_id v : v = 0 \/ v = 1 \/ v = -1 -> round01 v = v.
Proof.
  pose proof acc_gs_small as [Hp Hh].
  destruct (round01_cases v) as [[H E]|[[H E]|[[H E]|(_ & _ & _ & E)]]]; rewrite E; auto;
  intros [-> | [-> | ->]]; auto; exfalso; revert H.
  - rewrite Rabs_pos_eq; lra.
  - rewrite Rabs_left; lra.
  - rewrite Rabs_left; lra.
  - rewrite Rabs_left; lra.
  - rewrite Rabs_pos_eq; lra.
  - rewrite Rabs_pos_eq; lra.
Qed.

Lemma big_minus_one w a : w 0%nat = -1 -> a 0%nat = w 0%nat / (vnorm 1 w + gs_reg) ->
  any_big 1 a = true.
Proof.
  intros Hw Ha. unfold any_big. rewrite Ha, Hw.
  assert (E : vnorm 1 w = 1).
  { unfold vnorm. rewrite Hw. replace (0 + -1 * -1) with 1 by ring. apply sqrt_1. }
  rewrite E. destruct (Rlt_dec acc_gs (Rabs (-1 / (1 + gs_reg)))) as [|N]; auto. exfalso; apply N.
  unfold acc_gs, gs_reg. rewrite Rabs_left.
  - apply Rmult_lt_reg_r with (1 + 1e-9); [lra|]. field_simplify; lra.
  - apply Rmult_lt_reg_r with (1 + 1e-9); [lra|]. field_simplify; lra.
Qed.
