(** LineProofs.v -- linearity of the integrals of LineSpec.v and the plane waves. *)
From Coq Require Import Reals Lra Lia.
From Coquelicot Require Import Coquelicot.
From Verif.Numerics Require Import Gauss HermiteFn.
From Verif.Spec Require Import HermiteSpec LineSpec.
From Verif.Model Require Import PhaseConst.
From Verif.Proofs Require Import PhaseProofs.
Open Scope R_scope.

Lemma line_ext k f g I : (forall x, f x = g x) -> line k f I -> line k g I.
Proof.
  intros E. destruct k; unfold line.
  - apply is_RInt_ext. intros x _. apply E.
  - apply is_RInt_gen_ext. apply filter_forall. intros [a b] x _. apply E.
Qed.
Lemma line_scal k f I c : line k f I -> line k (fun x => c * f x) (c * I).
Proof.
  destruct k; unfold line; intros H.
  - apply (is_RInt_scal f 0 (2 * PI) c I H).
  - apply (is_RInt_gen_scal f c I H).
Qed.
Lemma line_plus k f g I J : line k f I -> line k g J -> line k (fun x => f x + g x) (I + J).
Proof.
  destruct k; unfold line; intros H K.
  - apply (is_RInt_plus f g 0 (2 * PI) I J H K).
  - apply (is_RInt_gen_plus f g I J H K).
Qed.
Lemma line_zero k : line k (fun _ => 0) 0.
Proof.
  destruct k; unfold line.
  - assert (H := is_RInt_const 0 (2 * PI) 0). unfold scal in H; simpl in H. unfold mult in H; simpl in H.
    rewrite Rmult_0_r in H. exact H.
  - apply (over_line_gen (fun _ => 0) 0).
    + intros x. apply continuous_const.
    + exists (fun _ => 0), 0, 0. split; [intros x; apply (is_derive_const 0 x)|].
      split; [apply is_lim_const|split; [apply is_lim_const|ring]].
Qed.

Lemma chi_line c m n : 0 < c ->
  line false (fun x => chi c m x * chi c n x) (if Nat.eqb m n then 1 else 0).
Proof. apply chi_integral. Qed.

(** Plane waves over a turn. *)
Lemma sin_turn k : sin (IZR k * (2 * PI)) = 0.
Proof. apply sin_eq_0_1. exists (2 * k)%Z. rewrite mult_IZR. ring. Qed.
Lemma cos_turn k : cos (IZR k * (2 * PI)) = 1.
Proof.
  replace (IZR k * (2 * PI)) with (2 * (IZR k * PI)) by ring. rewrite cos_2a_sin.
  replace (sin (IZR k * PI)) with 0 by (symmetry; apply sin_eq_0_1; exists k; reflexivity). ring.
Qed.
Lemma norm2 : charge_norm * charge_norm * (2 * PI) = 1.
Proof.
  unfold charge_norm. assert (P := PI_RGT_0). assert (S : 0 < sqrt (2 * PI)) by (apply sqrt_lt_R0; lra).
  assert (E : sqrt (2 * PI) * sqrt (2 * PI) = 2 * PI) by (apply sqrt_sqrt; lra).
  replace (1 / sqrt (2 * PI) * (1 / sqrt (2 * PI)) * (2 * PI)) with (2 * PI / (sqrt (2 * PI) * sqrt (2 * PI))) by (field; lra).
  rewrite E. field. lra.
Qed.
Lemma wave_re a b : line true
  (fun x => charge_norm * cos (x * IZR a) * (charge_norm * cos (x * IZR b)) +
            charge_norm * sin (x * IZR a) * (charge_norm * sin (x * IZR b)))
  (if Z.eqb a b then 1 else 0).
Proof.
  apply line_ext with (fun x => charge_norm * charge_norm * cos (IZR (a - b) * x)).
  { intros x. rewrite minus_IZR, Rmult_minus_distr_r, cos_minus, !(Rmult_comm (IZR _) x). ring. }
  set (k := (a - b)%Z). assert (N := norm2). destruct (Z.eqb_spec a b) as [E|E].
  - replace 1 with (charge_norm * charge_norm * (2 * PI)). apply line_scal.
    apply line_ext with (fun _ => 1). { intros x. unfold k. rewrite E, Z.sub_diag, Rmult_0_l, cos_0. reflexivity. }
    unfold line. assert (H := is_RInt_const 0 (2 * PI) 1). unfold scal in H; simpl in H. unfold mult in H; simpl in H.
    replace ((2 * PI - 0) * 1) with (2 * PI) in H by ring. exact H.
  - assert (K : IZR k <> 0) by (apply not_0_IZR; unfold k; lia).
    replace 0 with (charge_norm * charge_norm * 0) by ring. apply line_scal. unfold line.
    replace 0 with (minus (sin (IZR k * (2 * PI)) / IZR k) (sin (IZR k * 0) / IZR k)) at 2.
    + apply (is_RInt_derive (fun x => sin (IZR k * x) / IZR k) (fun x => cos (IZR k * x))).
      * intros x _. auto_derive; auto. field. exact K.
      * intros x _. apply (ex_derive_continuous (fun x => cos (IZR k * x))). auto_derive. auto.
    + rewrite sin_turn, Rmult_0_r, sin_0. unfold minus, plus, opp; simpl. field. exact K.
Qed.
Lemma wave_im a b : line true
  (fun x => charge_norm * sin (x * IZR a) * (charge_norm * cos (x * IZR b)) -
            charge_norm * cos (x * IZR a) * (charge_norm * sin (x * IZR b))) 0.
Proof.
  apply line_ext with (fun x => charge_norm * charge_norm * sin (IZR (a - b) * x)).
  { intros x. rewrite minus_IZR, Rmult_minus_distr_r, sin_minus, !(Rmult_comm (IZR _) x). ring. }
  replace 0 with (charge_norm * charge_norm * 0) by ring. apply line_scal.
  destruct (Z.eq_dec (a - b) 0) as [E|E].
  - apply line_ext with (fun _ => 0); [|apply line_zero]. intros x. rewrite E, Rmult_0_l, sin_0. reflexivity.
  - set (k := (a - b)%Z) in *. assert (K : IZR k <> 0) by (apply not_0_IZR; exact E). unfold line.
    replace 0 with (minus (- cos (IZR k * (2 * PI)) / IZR k) (- cos (IZR k * 0) / IZR k)) at 2.
    + apply (is_RInt_derive (fun x => - cos (IZR k * x) / IZR k) (fun x => sin (IZR k * x))).
      * intros x _. auto_derive; auto. field. exact K.
      * intros x _. apply (ex_derive_continuous (fun x => sin (IZR k * x))). auto_derive. auto.
    + rewrite cos_turn, Rmult_0_r, cos_0. unfold minus, plus, opp; simpl. field. exact K.
Qed.
