(** FluxBook.v -- what the construction hands to the flux distribution. *)
From Coq Require Import Lia Lra String.
From Verif.Model Require Import Base Elements Edge LCWB.
From Verif.Spec Require Import GraphSpec CircuitSpec FluxSpec.
From Verif.Proofs Require Import EdgeProofs LCWBProofs BookProofs EdgeProofs2.
Open Scope R_scope.
Open Scope list_scope.

Definition ment (f : edge * nat * nat -> list nat) (l : nat) (bo : nat * (edge * nat * nat)) : list nat :=
  repeat (fst bo) (count_occ Nat.eq_dec (f (snd bo)) l).

Lemma ment_range f l D k b :
  In b (flat_map (ment f l) (combine (seq k (length D)) D)) <->
  exists o, nth_error D (b - k) = Some o /\ In l (f o) /\ (k <= b)%nat.
Proof.
  revert k; induction D as [|o D IH]; intros k; simpl.
  - split; [tauto|]. intros (o & H & _). destruct (b - k)%nat; discriminate.
  - rewrite in_app_iff, IH. unfold ment; simpl. split.
    + intros [H|(o' & H1 & H2 & H3)].
      * pose proof (repeat_spec _ _ _ H) as ->. exists o.
        rewrite Nat.sub_diag. split; [reflexivity|]. split; [|lia].
        apply (count_occ_In Nat.eq_dec). destruct (count_occ Nat.eq_dec (f o) l); [destruct H|lia].
      * exists o'. split; [|split; [auto|lia]].
        replace (b - k)%nat with (S (b - S k)) by lia. exact H1.
    + intros (o' & H1 & H2 & H3). destruct (Nat.eq_dec b k) as [->|ne].
      * left. rewrite Nat.sub_diag in H1; simpl in H1. injection H1 as ->.
        apply (count_occ_In Nat.eq_dec) in H2. destruct (count_occ Nat.eq_dec (f o') l); [lia|].
        left; auto.
      * right. exists o'. split; [|split; [auto|lia]].
        replace (b - k)%nat with (S (b - S k)) in H1 by lia. exact H1.
Qed.

Lemma mentions_In s d l b : In b (mentions s d l) <->
  (b < nbranch s d)%nat /\ In l (eloops s (occ_el (branch s d b))).
Proof.
  unfold mentions, enum, nbranch, branch.
  rewrite (ment_range (fun o => eloops s (occ_el o)) l (occs s d) 0 b).
  rewrite Nat.sub_0_r. split.
  - intros (o & H1 & H2 & _). rewrite (nth_error_nth _ _ _ H1). split; auto.
    apply nth_error_Some. congruence.
  - intros [H1 H2]. destruct (nth_error (occs s d) b) as [o|] eqn:E.
    + exists o. rewrite (nth_error_nth _ _ _ E) in H2. split; [auto|]. split; [auto|lia].
    + apply nth_error_None in E. lia.
Qed.

Lemma count_NoDup (l : list nat) x : NoDup l -> (count_occ Nat.eq_dec l x <= 1)%nat.
Proof. intros H. apply (NoDup_count_occ Nat.eq_dec); auto. Qed.

Lemma ment_NoDup f l D : (forall o, In o D -> NoDup (f o)) -> forall k,
  NoDup (flat_map (ment f l) (combine (seq k (length D)) D)).
Proof.
  induction D as [|o D IH]; intros H k; simpl; [constructor|].
  assert (NoDup (flat_map (ment f l) (combine (seq (S k) (length D)) D))).
  { apply IH. intros; apply H; simpl; auto. }
  pose proof (count_NoDup (f o) l (H o (or_introl eq_refl))).
  unfold ment at 1; simpl. destruct (count_occ Nat.eq_dec (f o) l) as [|[|m]]; simpl; [auto| |lia].
  constructor; auto. rewrite ment_range. intros (o' & _ & _ & Hk). lia.
Qed.

Lemma occs_from_In s d : forall k o, In o (occs_from s k d) ->
  exists e els, In (e, els) d /\ occ_edge o = e /\ In (occ_el o) els.
Proof.
  induction d as [|[e els] d IH]; intros k o; simpl; [tauto|].
  rewrite in_app_iff. intros [H|H].
  - apply in_map_iff in H as (el & <- & H). apply filter_In in H as [H _].
    exists e, els; auto.
  - destruct (IH _ _ H) as (e' & els' & A & B & C). exists e', els'; auto.
Qed.

Lemma mentions_NoDup s d l : simple_loops s d -> NoDup (mentions s d l).
Proof.
  intros H. apply (ment_NoDup (fun o => eloops s (occ_el o)) l (occs s d)).
  intros o Ho. destruct (occs_from_In s d 0 o Ho) as (e & els & A & _ & C). eapply H; eauto.
Qed.

Lemma mentions_nonempty s d l : In l (mentioned s d) -> mentions s d l <> [].
Proof.
  unfold mentioned. rewrite in_flat_map. intros (o & Ho & Hl) E.
  destruct (In_nth_error _ _ Ho) as (b & Hb).
  assert (Hin : In b (mentions s d l)).
  { apply mentions_In. unfold nbranch, branch. rewrite (nth_error_nth _ _ _ Hb). split; auto.
    apply nth_error_Some. congruence. }
  rewrite E in Hin. destruct Hin.
Qed.

Lemma dist_weight_ok s fd el : valid_dist fd -> inductive_el s el = true ->
  cap_for_flux_dist (ekind s el) fd (evalue s (ecap s el)) = Some (dist_weight s fd el).
Proof.
  unfold inductive_el, cap_for_flux_dist, dist_weight, very_large_cap, very_small_cap.
  intros [->|[->| ->]] H; simpl; destruct (ekind s el); try discriminate; auto; f_equal; lra.
Qed.

Lemma cedge_nth s fd D b o : valid_dist fd -> (forall o, In o D -> inductive_el s (occ_el o) = true) ->
  (b < length D)%nat -> nth b (cedge_of s fd D) 0 = dist_weight s fd (occ_el (nth b D o)).
Proof.
  intros V. unfold cedge_of. revert b; induction D as [|o' D IH]; intros b H Hb; simpl in *; [lia|].
  rewrite dist_weight_ok by (auto; apply H; auto). destruct b; simpl; auto.
  apply IH; [intros; apply H; auto|lia].
Qed.

Lemma dist_weight_pos s fd el : valid_dist fd -> (fd = "all"%string -> 0 < evalue s (ecap s el)) ->
  0 < dist_weight s fd el.
Proof.
  unfold dist_weight. intros [->|[->| ->]] H; simpl String.eqb; cbv iota; [auto| |];
   destruct (ekind s el); try apply Rinv_0_lt_compat; apply pow_lt; lra.
Qed.

Lemma branch_row optim s fd n lobj d c : get_LCWB optim s fd (Z.of_nat n) lobj d = Ok c ->
  proper_dict n d -> forall b, (b < nbranch s d)%nat ->
  forall x, sumn n (fun j => IZR (nth j (nth b (c_kmat c) []) 0%Z) * x j) = bdrop s d b x.
Proof.
  intros H Hp b Hb x. destruct (LCWB_book _ _ _ _ _ _ _ H) as [_ B2 _ _ _ _ _].
  unfold bdrop, branch. rewrite B2. unfold nbranch in Hb.
  pose proof (nth_In (occs s d) ((0, 0)%Z, 0%nat, 0%nat) Hb) as Ho.
  destruct (occs_from_In s d 0 _ Ho) as (e & els & A & E & _). rewrite E.
  rewrite nth_indep with (d' := wrow (Z.of_nat n) (occ_edge ((0, 0)%Z, 0%nat, 0%nat))) by (rewrite map_length; auto).
  rewrite (map_nth (fun o => wrow (Z.of_nat n) (occ_edge o))), E.
  destruct (w_measures n e (Hp _ _ A)) as (w & Hw & Hm). unfold wrow; rewrite Hw. apply Hm.
Qed.

Lemma grounded_zero es x : (forall e, In e es -> drop e x = 0) ->
  forall k, grounded es k -> pot x k = 0.
Proof.
  intros H k Hk. induction Hk as [|a b _ IH Hin|a b _ IH Hin]; [reflexivity| |];
    specialize (H _ Hin); unfold drop in H; simpl in H; lra.
Qed.

Lemma orient_nz e : orient e <> 0.
Proof. unfold orient. destruct (fst e =? 0)%Z; lra. Qed.

Definition unit_at (j i : nat) : R := if Nat.eqb i j then 1 else 0.

Lemma pot_unit j k : (0 <= k)%Z -> pot (unit_at j) k <> 0 -> k = (Z.of_nat j + 1)%Z.
Proof.
  unfold pot, unit_at. intros Hk. destruct (Z.eqb_spec k 0); [tauto|].
  destruct (Nat.eqb_spec (Z.to_nat k - 1) j); [lia|tauto].
Qed.

Lemma branch_edge_in s d b : (b < nbranch s d)%nat ->
  exists els, In (occ_edge (branch s d b), els) d.
Proof.
  intros Hb. unfold branch. pose proof (nth_In (occs s d) ((0, 0)%Z, 0%nat, 0%nat) Hb) as Ho.
  destruct (occs_from_In s d 0 _ Ho) as (e & els & A & E & _). exists els. rewrite E. auto.
Qed.

Lemma grounded_kernel s d n x : proper_dict n d -> grounded_branches s d ->
  (forall b, (b < nbranch s d)%nat -> bdrop s d b x = 0) ->
  forall b j, (b < nbranch s d)%nat -> bdrop s d b (unit_at j) <> 0 -> x j = 0.
Proof.
  intros Hp Hg Hx b j Hb Hj.
  assert (Hd : forall e, In e (map occ_edge (occs s d)) -> drop e x = 0).
  { intros e He. apply in_map_iff in He as (o & <- & Ho).
    destruct (In_nth _ _ ((0, 0)%Z, 0%nat, 0%nat) Ho) as (i & Hi & Ei).
    assert (Eb : branch s d i = o) by exact Ei.
    specialize (Hx i Hi). unfold bdrop in Hx. rewrite Eb in Hx.
    apply Rmult_integral in Hx as [Hx|Hx]; auto. destruct (orient_nz _ Hx). }
  pose proof (grounded_zero _ _ Hd _ (Hg b Hb)) as P1.
  assert (P2 : pot x (snd (occ_edge (branch s d b))) = 0).
  { assert (Hin : In (occ_edge (branch s d b)) (map occ_edge (occs s d))).
    { apply in_map. apply nth_In. auto. }
    pose proof (Hd _ Hin) as E. unfold drop in E. lra. }
  destruct (branch_edge_in s d b Hb) as (els & Hin). destruct (Hp _ _ Hin) as (A1 & A2 & _).
  unfold bdrop, drop in Hj.
  assert (Hor : pot (unit_at j) (fst (occ_edge (branch s d b))) <> 0 \/
                pot (unit_at j) (snd (occ_edge (branch s d b))) <> 0).
  { destruct (Req_dec (pot (unit_at j) (fst (occ_edge (branch s d b)))) 0) as [E|]; [|auto].
    right. intros E2. apply Hj. rewrite E, E2. ring. }
  assert (G : forall k, (0 <= k)%Z -> pot (unit_at j) k <> 0 -> pot x k = 0 -> x j = 0).
  { intros k Hk H1 H2. apply pot_unit in H1; auto. subst k. unfold pot in H2.
    destruct (Z.eqb_spec (Z.of_nat j + 1) 0); [lia|].
    replace (Z.to_nat (Z.of_nat j + 1) - 1)%nat with j in H2 by lia. auto. }
  destruct Hor as [H|H]; eapply G; eauto; lia.
Qed.
