(** GaugeWitness.v -- two loops between a node and ground: an inductor and a junction,
    and two junctions; their flux distributions. *)
From Coq Require Import Lia Lra String.
From Verif.Model Require Import Base Elements Edge LCWB Rounding.
From Verif.Spec Require Import GraphSpec CircuitSpec FluxSpec.
From Verif.Proofs Require Import EdgeProofs LCWBProofs BookProofs FluxBook FluxWitness RoundProofs.
Open Scope R_scope.
Open Scope list_scope.

(** The elements of [ws] with a junction in place of the inductor. *)
Definition gs : store :=
  mkStore (fun i => match i with 1 | 2 => KJJ | _ => KCap end)%nat
          (fun i => INR (i + 1)) (fun _ => false) (fun _ => true)
          (fun i => i + 10)%nat (fun i => match i with 1 | 2 => [0] | _ => [] end)%nat
          (fun _ => 1) (fun _ => false) (fun _ => true).
Lemma gs_nz els : ~ bad_ind gs els.
Proof.
  intros (el & _ & H & _). revert H. unfold is_ind. simpl. destruct el as [|[|[|el]]]; discriminate.
Qed.
Lemma gs_run optim fd : exists c, get_LCWB optim gs fd 1 wl gd = Ok c.
Proof.
  apply (run_edges_total optim gs fd 1 gd (cst0 wl)); [exact gd_proper|]. intros; apply gs_nz.
Qed.
Lemma gs_facts optim fd c : get_LCWB optim gs fd 1 wl gd = Ok c ->
  c_bid c = 2%nat /\ c_kmat c = [[1]; [1]]%Z /\
  c_loops c = [0%nat] /\ l_kmat (c_lobj c 0%nat) = [[1]; [1]]%Z /\
  l_indices (c_lobj c 0%nat) = [0; 1]%nat.
Proof.
  intros H. destruct (LCWB_book _ _ _ _ _ _ _ H) as [B1 B2 B3 B4 _ _ _].
  rewrite B1, B2, B3, B4. auto.
Qed.
Lemma gs_keys optim fd c : get_LCWB optim gs fd 1 wl gd = Ok c ->
  c_keys_ind c = [] /\ c_keys_jj c = [((0, 1)%Z, 1, 0, 0); ((0, 1)%Z, 2, 1, 0)]%nat.
Proof. intros H. destruct (LCWB_book _ _ _ _ _ _ _ H) as [_ _ _ _ -> -> _]. auto. Qed.
Lemma gs_W optim fd c : get_LCWB optim gs fd 1 wl gd = Ok c -> c_W c = [[1%Z]].
Proof. intros H. destruct (run_edges_mats _ _ _ _ _ _ _ H) as (_ & _ & -> & _). reflexivity. Qed.
Lemma ws_keys optim fd c : get_LCWB optim ws fd 1 wl gd = Ok c ->
  c_keys_ind c = [((0, 1)%Z, 1, 0)%nat] /\ c_keys_jj c = [((0, 1)%Z, 2, 1, 0)%nat].
Proof. intros H. destruct (LCWB_book _ _ _ _ _ _ _ H) as [_ _ _ _ -> -> _]. auto. Qed.
Lemma gs_simple d : simple_loops gs d.
Proof. intros e els el _ _. simpl. destruct el as [|[|[|el]]]; repeat constructor; auto. Qed.
Lemma gs_grounded : grounded_branches gs gd.
Proof. intros b Hb. destruct b as [|[|b]]; [| |unfold nbranch in Hb; simpl in Hb; lia]; simpl; constructor. Qed.

(** The two shares add up to one flux and induce no charge. *)
Lemma ws_shares fd B : no_induced_charge ws fd gd 1 B -> loop_sums ws gd [0%nat] B ->
  dist_weight ws fd 1 * B 0%nat 0%nat + dist_weight ws fd 2 * B 1%nat 0%nat = 0 /\
  B 0%nat 0%nat - B 1%nat 0%nat = 1.
Proof.
  intros N L. split.
  - specialize (N 0%nat (unit_at 0) ltac:(lia)).
    change (0 + dist_weight ws fd 1 * bdrop ws gd 0 (unit_at 0) * B 0%nat 0%nat
              + dist_weight ws fd 2 * bdrop ws gd 1 (unit_at 0) * B 1%nat 0%nat = 0) in N.
    unfold bdrop, orient, drop, pot, unit_at in N; simpl Z.eqb in N; simpl occ_edge in N; simpl in N. nra.
  - specialize (L 0%nat 0%nat (fun b => match b with 0%nat => 1 | 1%nat => -1 | _ => 0 end) ltac:(simpl; lia) ltac:(simpl; lia)).
    simpl in L. rewrite Rplus_0_l in L. replace (B 0%nat 0%nat - B 1%nat 0%nat) with (1 * B 0%nat 0%nat + -1 * B 1%nat 0%nat) by ring.
    apply L. split; [|split].
    + intros [|[|b]] Hb Hn; auto; exfalso; apply Hn; simpl; auto.
    + reflexivity.
    + intros x. unfold bdrop, orient, drop, pot; simpl. lra.
Qed.
Lemma gs_shares fd B : no_induced_charge gs fd gd 1 B -> loop_sums gs gd [0%nat] B ->
  dist_weight gs fd 1 * B 0%nat 0%nat + dist_weight gs fd 2 * B 1%nat 0%nat = 0 /\
  B 0%nat 0%nat - B 1%nat 0%nat = 1.
Proof.
  intros N L. split.
  - specialize (N 0%nat (unit_at 0) ltac:(lia)).
    change (0 + dist_weight gs fd 1 * bdrop gs gd 0 (unit_at 0) * B 0%nat 0%nat
              + dist_weight gs fd 2 * bdrop gs gd 1 (unit_at 0) * B 1%nat 0%nat = 0) in N.
    unfold bdrop, orient, drop, pot, unit_at in N; simpl Z.eqb in N; simpl occ_edge in N; simpl in N. nra.
  - specialize (L 0%nat 0%nat (fun b => match b with 0%nat => 1 | 1%nat => -1 | _ => 0 end) ltac:(simpl; lia) ltac:(simpl; lia)).
    simpl in L. rewrite Rplus_0_l in L. replace (B 0%nat 0%nat - B 1%nat 0%nat) with (1 * B 0%nat 0%nat + -1 * B 1%nat 0%nat) by ring.
    apply L. split; [|split].
    + intros [|[|b]] Hb Hn; auto; exfalso; apply Hn; simpl; auto.
    + reflexivity.
    + intros x. unfold bdrop, orient, drop, pot; simpl. lra.
Qed.

Lemma around5_at x z : Rabs (x * 10 ^ 5 - IZR z) < 1 / 2 -> around5 x = IZR z / 10 ^ 5.
Proof.
  intros H. pose proof (round_even_near (x * 10 ^ 5) z) as N. unfold around5. do 2 f_equal.
  set (r := round_even _) in *. apply Rabs_def2 in H.
  assert (Rabs (x * 10 ^ 5 - IZR r) < 1 / 2) as N2 by (eapply Rle_lt_trans; [exact N|]; apply Rabs_def1; lra).
  apply Rabs_def2 in N2. assert (-1 < IZR r - IZR z < 1) as [H1 H2] by lra.
  rewrite <- minus_IZR in H1, H2. apply lt_IZR in H1, H2. lia.
Qed.
(** "junctions": the flux is on the junction; "inductors": on the inductor. *)
Lemma ws_junctions B : no_induced_charge ws "junctions" gd 1 B -> loop_sums ws gd [0%nat] B ->
  around5 (B 0%nat 0%nat) = 0 /\ around5 (B 1%nat 0%nat) = - (1).
Proof.
  intros N L. destruct (ws_shares _ _ N L) as [H1 H2]. unfold dist_weight in H1. simpl in H1.
  split; [rewrite (around5_at _ 0)|rewrite (around5_at _ (-100000))]; try lra; apply Rabs_def1; lra.
Qed.
Lemma ws_inductors B : no_induced_charge ws "inductors" gd 1 B -> loop_sums ws gd [0%nat] B ->
  around5 (B 0%nat 0%nat) = 1 /\ around5 (B 1%nat 0%nat) = 0.
Proof.
  intros N L. destruct (ws_shares _ _ N L) as [H1 H2]. unfold dist_weight in H1. simpl in H1.
  split; [rewrite (around5_at _ 100000)|rewrite (around5_at _ 0)]; try lra; apply Rabs_def1; lra.
Qed.
(** Two junctions: half and half under "junctions", 13:12 by the capacitances under "all". *)
Lemma gs_junctions B : no_induced_charge gs "junctions" gd 1 B -> loop_sums gs gd [0%nat] B ->
  B 0%nat 0%nat = 1 / 2 /\ B 1%nat 0%nat = - (1 / 2).
Proof. intros N L. destruct (gs_shares _ _ N L) as [H1 H2]. unfold dist_weight in H1. simpl in H1. lra. Qed.
Lemma gs_all B : no_induced_charge gs "all" gd 1 B -> loop_sums gs gd [0%nat] B ->
  B 0%nat 0%nat = 13 / 25 /\ B 1%nat 0%nat = - (12 / 25).
Proof. intros N L. destruct (gs_shares _ _ N L) as [H1 H2]. unfold dist_weight in H1. simpl in H1. lra. Qed.
