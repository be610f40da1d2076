(** OneNode.v -- the matrices and tables of a circuit with the single edge (0, 1). *)
From Coq Require Import Reals ZArith String List Lia Lra Bool.
From Verif.Model Require Import Base Units Edge Elements LCWB.
From Verif.Spec Require Import GraphSpec CircuitSpec.
From Verif.Proofs Require Import LCWBProofs BookProofs.
Import ListNotations.
Open Scope R_scope.
Open Scope list_scope.

Section One.
Variables (optim : bool) (s : store) (fd : string) (lobj : nat -> lrec) (els : list nat) (c : cst).
Let e : edge := (0%Z, 1%Z).
Hypothesis H : get_LCWB optim s fd 1 lobj [(e, els)] = Ok c.

Lemma o_mats : c_C c 0%nat 0%nat = edge_cap s els /\ c_L c 0%nat 0%nat = edge_invind s els /\
  c_W c = (if existsb (is_jj s) els then [[1%Z]] else []) /\
  c_njwi c = (if junc_without_ind s els then 1 else 0)%nat.
Proof.
  pose proof H as H'. apply get_LCWB_run in H' as [_ H'].
  apply run_edges_mats in H' as (HC & HL & HW & _ & HN).
  rewrite HC, HL, HW, HN. unfold jj_edges. simpl. unfold mrep. simpl.
  unfold entry; simpl. split; [ring|split; [ring|]]. split.
  - destruct (existsb (is_jj s) els); reflexivity.
  - destruct (junc_without_ind s els); reflexivity.
Qed.
Lemma enum_map {A B} (f : A -> B) (l : list A) : enum (map f l) = map (fun bo => (fst bo, f (snd bo))) (enum l).
Proof.
  unfold enum. rewrite map_length. generalize 0%nat. induction l; intros k; simpl; auto. rewrite IHl. reflexivity.
Qed.
Lemma filter_map {A B} (f : A -> B) p (l : list A) : filter p (map f l) = map f (filter (fun x => p (f x)) l).
Proof. induction l; simpl; auto. destruct (p (f a)); simpl; rewrite IHl; reflexivity. Qed.
Lemma o_keys :
  c_keys_ind c = map (fun bo => (e, snd bo, fst bo)) (filter (fun bo => is_ind s (snd bo)) (enum (filter (inductive_el s) els))) /\
  c_keys_jj c = map (fun bo => (e, snd bo, fst bo, 0%nat)) (filter (fun bo => is_jj s (snd bo)) (enum (filter (inductive_el s) els))).
Proof.
  destruct (LCWB_book _ _ _ _ _ _ _ H) as [_ _ _ _ B5 B6 _]. rewrite B5, B6. unfold keys_ind, keys_jj, occs. simpl.
  rewrite app_nil_r, enum_map. rewrite !filter_map, !map_map. split; reflexivity.
Qed.
End One.

Lemma half_sum x : x / 2 + x / 2 = x. Proof. field. Qed.
Lemma charge_sq c y ng : c <> 0 ->
  (/ c / 2) * (2 * e_charge / sqrt hbar * (y - ng) * (2 * e_charge / sqrt hbar * (y - ng))) =
  Rsqr (2 * e_charge) / (2 * c) * Rsqr (y - ng) / hbar.
Proof.
  intros c0. assert (h0 : 0 < hbar) by (unfold hbar; lra).
  assert (s0 : sqrt hbar <> 0) by (apply Rgt_not_eq, sqrt_lt_R0, h0).
  rewrite <- (sqrt_sqrt hbar) at 3 by lra. unfold Rsqr. field. split; auto.
Qed.
Lemma freq_eq c l : 0 < c -> 0 < l -> sqrt (l / c) = / sqrt (/ l * c).
Proof.
  intros c0 l0. rewrite <- sqrt_inv. f_equal. field. lra.
Qed.
Lemma ind_eq L phi sg c l : 
  (/ L * phi * (Phi0 / 2 / PI) / sqrt hbar) * (sg * sqrt (1 / 2 * sqrt (/ c / l))) =
  (phi * (Phi0 / (2 * PI)) / L) * (sg * sqrt (hbar / 2 * sqrt (/ l / c))) / hbar.
Proof.
  assert (h0 : 0 < hbar) by (unfold hbar; lra).
  assert (s0 : sqrt hbar <> 0) by (apply Rgt_not_eq, sqrt_lt_R0, h0).
  replace (/ l / c) with (/ c / l) by (unfold Rdiv; ring).
  replace (hbar / 2 * sqrt (/ c / l)) with (hbar * (1 / 2 * sqrt (/ c / l))) by field.
  rewrite (sqrt_mult_alt hbar) by lra. generalize (sqrt (1 / 2 * sqrt (/ c / l))); intros x.
  assert (e : hbar = sqrt hbar * sqrt hbar) by (symmetry; apply sqrt_sqrt; lra).
  revert e s0. generalize (sqrt hbar). intros q. generalize hbar. intros b -> q0.
  unfold Rdiv. generalize (/ L); intros y. field. split; auto. apply PI_neq0.
Qed.
