(** LossKeys.v -- sums over the capacitors and over the inductors of a circuit. *)
From Coq Require Import Reals ZArith String List Lra.
From Verif.Model Require Import Base Units Noise Edge Elements LCWB.
From Verif.Spec Require Import GraphSpec CircuitSpec.
From Verif.Proofs Require Import LCWBProofs BookProofs.
Import ListNotations.
Open Scope R_scope.

Lemma suml_filter {A} (p : A -> bool) (l : list A) f : suml (filter p l) f = suml l (fun a => if p a then f a else 0).
Proof. induction l; simpl; auto. destruct (p a); simpl; rewrite IHl; ring. Qed.
Lemma suml_flat {A B} (g : A -> list B) (l : list A) f : suml (flat_map g l) f = suml l (fun a => suml (g a) f).
Proof. induction l; simpl; auto. rewrite suml_app, IHl; auto. Qed.

Lemma occs_sum s (f : edge -> R) d : forall wid,
  suml (occs_from s wid d) (fun o => (if is_ind s (occ_el o) then / evalue s (occ_el o) else 0) * f (occ_edge o)) =
  suml d (fun ee => edge_invind s (snd ee) * f (fst ee)).
Proof.
  induction d as [|[e els] d IH]; intros wid; simpl; auto. rewrite suml_app, IH. f_equal.
  rewrite suml_map, suml_filter. unfold edge_invind. rewrite <- suml_scal_r. apply suml_ext. intros el _.
  unfold occ_el, occ_edge, is_ind, inductive_el, invind_of; simpl. destruct (ekind s el); ring.
Qed.

Lemma inductors_sum optim s fd n lobj d c (f : edge -> R) : get_LCWB optim s fd n lobj d = Ok c ->
  suml (c_keys_ind c) (fun k => / evalue s (snd (fst k)) * f (fst (fst k))) =
  suml d (fun ee => edge_invind s (snd ee) * f (fst ee)).
Proof.
  intros H. rewrite (bk_ind _ _ _ _ _ _ (LCWB_book _ _ _ _ _ _ _ H)). unfold keys_ind.
  rewrite suml_map, suml_filter. rewrite <- (occs_sum s f d 0%nat). fold (occs s d).
  rewrite <- (enum_snd (occs s d)) at 2. rewrite suml_map. apply suml_ext. intros [b o] _. simpl.
  destruct (is_ind s (occ_el o)); [reflexivity | ring].
Qed.

Lemma capacitors_sum s (f : edge -> R) d :
  suml (flat_map (fun ee => map (fun el => (fst ee, el)) (snd ee)) d) (fun k => cap_of s (snd k) * f (fst k)) =
  suml d (fun ee => edge_cap s (snd ee) * f (fst ee)).
Proof.
  rewrite suml_flat. apply suml_ext. intros [e els] _. simpl. rewrite suml_map. simpl.
  unfold edge_cap. rewrite suml_scal_r. reflexivity.
Qed.

(** The inductors sit on edges of the dictionary. *)
Lemma occs_edge s d : forall w e el w', In (e, el, w') (occs_from s w d) -> exists els, In (e, els) d.
Proof.
  induction d as [|[e' els] d IH]; simpl; intros w e el w' H; [tauto|].
  apply in_app_iff in H as [H|H].
  - apply in_map_iff in H as (x & [= <- _ _] & _). exists els; auto.
  - destruct (IH _ _ _ _ H) as (els' & H'). exists els'; auto.
Qed.
Lemma ind_edge optim s fd n lobj d c e el b : get_LCWB optim s fd n lobj d = Ok c -> In (e, el, b) (c_keys_ind c) ->
  exists els, In (e, els) d.
Proof.
  intros H Hin. rewrite (bk_ind _ _ _ _ _ _ (LCWB_book _ _ _ _ _ _ _ H)) in Hin.
  unfold keys_ind in Hin. apply in_map_iff in Hin as ([b' o] & [= E1 E2 E3] & Hin); simpl in *.
  apply filter_In in Hin as [Hin _]. apply enum_In in Hin. apply nth_error_In in Hin. simpl in Hin.
  destruct o as [[e0 el0] w0]. unfold occ_edge in *. simpl in *. subst. eapply occs_edge; exact Hin.
Qed.

Lemma photon_rate (a b c k : R) : 2 * a * (b / 2 * c * k) = b * c * a * k.
Proof. field. Qed.
Lemma half_two (a : R) : a / 2 * (1 + 1) = a.
Proof. field. Qed.
