(** FluxWitness.v -- two small circuits: a floating loop that the construction
    rejects although its flux distribution exists, and a grounded one. *)
From Coq Require Import Lia Lra String.
From Verif.Model Require Import Base Elements Edge LCWB.
From Verif.Spec Require Import GraphSpec CircuitSpec FluxSpec.
From Verif.Proofs Require Import EdgeProofs LCWBProofs BookProofs FluxBook.
Open Scope R_scope.
Open Scope list_scope.

(** Elements: 0 a capacitor, 1 an inductor, 2 and 5 junctions; the own capacitor
    of element i is i+10; the inductor and junction 2 form loop 0. *)
Definition ws : store :=
  mkStore (fun i => match i with 1 => KInd | 2 | 5 => KJJ | _ => KCap end)%nat
          (fun i => INR (i + 1)) (fun _ => false) (fun _ => true)
          (fun i => i + 10)%nat (fun i => match i with 1 | 2 => [0] | _ => [] end)%nat
          (fun _ => 1) (fun _ => false) (fun _ => true).
(** The loop sits between nodes 1 and 2, coupled to ground by a capacitor; a
    third node carries a grounded junction. *)
Definition wd : list (edge * list nat) :=
  [((1, 2)%Z, [1; 2]%nat); ((0, 3)%Z, [5]%nat); ((0, 1)%Z, [0]%nat); ((2, 3)%Z, [0]%nat)].
(** The loop between node 1 and ground. *)
Definition gd : list (edge * list nat) := [((0, 1)%Z, [1; 2]%nat)].

Definition wl : nat -> lrec := fun _ => mkL [] [].

Lemma wd_proper : proper_dict 3 wd.
Proof.
  intros e els H. simpl in H. unfold proper.
  repeat (destruct H as [[= <- <-]|H]; [simpl; lia|]). destruct H.
Qed.
Lemma gd_proper : proper_dict 1 gd.
Proof.
  intros e els H. simpl in H. unfold proper.
  repeat (destruct H as [[= <- <-]|H]; [simpl; lia|]). destruct H.
Qed.
Lemma ws_nz els : ~ bad_ind ws els.
Proof.
  intros (el & Hel & K & Z). simpl in Z. pose proof (pos_INR el).
  rewrite plus_INR in Z. simpl in Z. lra.
Qed.
Lemma wd_run optim fd : exists c, get_LCWB optim ws fd 3 wl wd = Ok c.
Proof.
  apply (run_edges_total optim ws fd 3 wd (cst0 wl)); [exact wd_proper|]. intros; apply ws_nz.
Qed.
Lemma gd_run optim fd : exists c, get_LCWB optim ws fd 1 wl gd = Ok c.
Proof.
  apply (run_edges_total optim ws fd 1 gd (cst0 wl)); [exact gd_proper|]. intros; apply ws_nz.
Qed.

Definition wK : list (list Z) := [[1; -1; 0]; [1; -1; 0]; [0; 0; 1]]%Z.
Lemma wK_sum b : IZR (nth 0 (nth b wK []) 0%Z) + IZR (nth 1 (nth b wK []) 0%Z) = 0.
Proof. destruct b as [|[|[|[|b]]]]; simpl; lra. Qed.

Lemma wd_facts optim fd c : get_LCWB optim ws fd 3 wl wd = Ok c ->
  c_bid c = 3%nat /\ c_kmat c = wK /\
  c_loops c = [0%nat] /\ l_kmat (c_lobj c 0%nat) = [[1; -1; 0]; [1; -1; 0]]%Z.
Proof.
  intros H. destruct (LCWB_book _ _ _ _ _ _ _ H) as [B1 B2 B3 B4 _ _ _].
  rewrite B1, B2, B3, B4. auto.
Qed.
Lemma gd_facts optim fd c : get_LCWB optim ws fd 1 wl gd = Ok c ->
  c_bid c = 2%nat /\ c_kmat c = [[1]; [1]]%Z /\
  c_loops c = [0%nat] /\ l_kmat (c_lobj c 0%nat) = [[1]; [1]]%Z /\
  l_indices (c_lobj c 0%nat) = [0; 1]%nat.
Proof.
  intros H. destruct (LCWB_book _ _ _ _ _ _ _ H) as [B1 B2 B3 B4 _ _ _].
  rewrite B1, B2, B3, B4. auto.
Qed.

Lemma ws_simple d : simple_loops ws d.
Proof.
  intros e els el _ _. simpl. destruct el as [|[|[|el]]]; repeat constructor; auto.
Qed.

(** The flux distribution of the floating loop. *)
Definition wB (b k : nat) : R := match b with 0%nat => 13 / 25 | 1%nat => - (12 / 25) | _ => 0 end.

Lemma wd_dist_exists : no_induced_charge ws "all" wd 1 wB /\ loop_sums ws wd [0%nat] wB /\
  exists G, closed_walk ws wd 0 G.
Proof.
  split; [|split].
  - intros k x Hk. unfold bdrop, dist_weight, orient, drop, pot, wB; simpl. lra.
  - intros k k' G Hk Hk'. destruct k; [|simpl in Hk; lia]. destruct k'; [|simpl in Hk'; lia].
    simpl nth. intros (G1 & G2 & G3). simpl in G2.
    specialize (G1 2%nat ltac:(unfold nbranch; simpl; lia)).
    assert (G 2%nat = 0) as E2 by (apply G1; simpl; intros [?|[?|[]]]; lia).
    specialize (G3 (unit_at 0)). unfold bdrop, orient, drop, pot, unit_at in G3; simpl in G3.
    simpl. lra.
  - exists (fun b => match b with 0%nat => 1 | 1%nat => -1 | _ => 0 end). split; [|split].
    + intros [|[|b]] Hb Hn; auto; exfalso; apply Hn; simpl; auto.
    + reflexivity.
    + intros x. unfold bdrop, orient, drop, pot; simpl. lra.
Qed.

Lemma wd_connected : connected 3 (map fst wd).
Proof.
  intros k Hk. assert (k = 0 \/ k = 1 \/ k = 2 \/ k = 3)%Z as [->|[->|[->| ->]]] by lia.
  - constructor.
  - apply (g_fwd _ 0); [constructor|simpl; auto].
  - apply (g_fwd _ 1); [apply (g_fwd _ 0); [constructor|simpl; auto]|simpl; auto].
  - apply (g_fwd _ 0); [constructor|simpl; auto].
Qed.

Lemma gd_grounded : grounded_branches ws gd.
Proof. intros b Hb. destruct b as [|[|b]]; [| |unfold nbranch in Hb; simpl in Hb; lia]; simpl; constructor. Qed.
