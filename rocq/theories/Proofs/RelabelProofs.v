(** RelabelProofs.v -- circuit matrices under renumbering of the nodes. *)
From Coq Require Import Reals ZArith List Lia Lra.
From Verif.Model Require Import Base Elements Edge LCWB.
From Verif.Spec Require Import GraphSpec CircuitSpec RelabelSpec.
From Verif.Proofs Require Import EdgeProofs LCWBProofs.
Open Scope R_scope.
Open Scope list_scope.

Lemma pot_coords v k : (0 <= k)%Z -> pot (coords v) k = v k - v 0%Z.
Proof.
  intros H. unfold pot, coords. destruct (Z.eqb_spec k 0) as [->|N]; [lra|].
  f_equal. f_equal. lia.
Qed.
Lemma drop_coords v e : (0 <= fst e)%Z -> (0 <= snd e)%Z -> drop e (coords v) = v (fst e) - v (snd e).
Proof. intros. unfold drop. rewrite !pot_coords by auto. lra. Qed.

Section Relabel.
Variables (n : nat) (p q : Z -> Z).
Hypothesis pq : renumbers n p q.

Lemma relabel_proper e : proper n e -> proper n (relabel p e).
Proof.
  intros (H1 & H2 & H3). unfold relabel, proper; simpl.
  destruct (pq _ H1) as (A1 & _ & B1 & _). destruct (pq _ H2) as (A2 & _ & B2 & _).
  repeat split; try lia. intros E. apply H3. rewrite <- B1, <- B2, E. reflexivity.
Qed.
Lemma relabelled_proper (d : list (edge * list nat)) : proper_dict n d -> proper_dict n (relabelled p d).
Proof.
  intros H e els Hin. apply in_map_iff in Hin as ([e0 els0] & [= <- <-] & Hin). apply relabel_proper. eapply H; eauto.
Qed.
Lemma relabel_drop e v : proper n e -> drop (relabel p e) (coords (fun k => v (q k))) = drop e (coords v).
Proof.
  intros H. destruct (relabel_proper e H) as (R1 & R2 & _). destruct H as (H1 & H2 & _).
  rewrite !drop_coords by (simpl in *; lia). simpl.
  destruct (pq _ H1) as (_ & _ & -> & _). destruct (pq _ H2) as (_ & _ & -> & _). reflexivity.
Qed.
Lemma relabel_suml (d : list (edge * list nat)) (w : list nat -> R) v u : proper_dict n d ->
  suml (relabelled p d) (fun ee => w (snd ee) * (drop (fst ee) (coords (fun k => v (q k))) * drop (fst ee) (coords (fun k => u (q k))))) =
  suml d (fun ee => w (snd ee) * (drop (fst ee) (coords v) * drop (fst ee) (coords u))).
Proof.
  induction d as [|[e els] d IH]; intros H; [reflexivity|].
  unfold relabelled; simpl. fold (relabelled p d). rewrite IH by (intros e' els' Hi; eapply H; right; eauto).
  rewrite !relabel_drop by (eapply H; left; reflexivity). reflexivity.
Qed.
End Relabel.

Lemma renumbers_inv n p q : renumbers n p q -> renumbers n q p.
Proof. intros H k Hk. destruct (H k Hk) as (A & B & C & D). auto. Qed.

(** ** Keys *)
Definition move_occ (p : Z -> Z) (o : edge * nat * nat) : edge * nat * nat := (relabel p (occ_edge o), occ_el o, snd o).
Lemma occs_relabel s p d : forall wid, occs_from s wid (relabelled p d) = map (move_occ p) (occs_from s wid d).
Proof.
  induction d as [|[e xs] d IH]; intros wid; [reflexivity|].
  change (relabelled p ((e, xs) :: d)) with ((relabel p e, xs) :: relabelled p d).
  cbn [occs_from]. rewrite map_app, map_map, IH. reflexivity.
Qed.
Lemma enum_map {A B} (f : A -> B) l : enum (map f l) = map (fun bo => (fst bo, f (snd bo))) (enum l).
Proof.
  unfold enum. rewrite map_length. generalize 0%nat. induction l as [|a l IH]; intros k; [reflexivity|].
  simpl. rewrite IH. reflexivity.
Qed.
Lemma filter_map_comm {A B} (f : A -> B) (P : B -> bool) l : filter P (map f l) = map f (filter (fun a => P (f a)) l).
Proof. induction l as [|a l IH]; [reflexivity|]. simpl. destruct (P (f a)); simpl; rewrite IH; reflexivity. Qed.

(** ** Unit vectors *)
Lemma sumn_unit n i (f : nat -> R) : (i < n)%nat -> sumn n (fun k => (if Nat.eqb k i then 1 else 0) * f k) = f i.
Proof.
  induction n as [|n IH]; intros H; [lia|]. simpl. destruct (Nat.eqb_spec n i) as [->|N].
  - rewrite (sumn_ext i _ (fun _ => 0)); [rewrite sumn_0; lra|].
    intros k Hk. destruct (Nat.eqb_spec k i); [lia|lra].
  - rewrite IH by lia. lra.
Qed.
Lemma bilin_unit n A x y i j : (i < n)%nat -> (j < n)%nat ->
  (forall k, (k < n)%nat -> x k = if Nat.eqb k i then 1 else 0) -> (forall k, (k < n)%nat -> y k = if Nat.eqb k j then 1 else 0) ->
  bilin n A x y = A i j.
Proof.
  intros Hi Hj X Y. unfold bilin.
  rewrite (sumn_ext n _ (fun a => (if Nat.eqb a i then 1 else 0) * A a j)); [exact (sumn_unit n i (fun a => A a j) Hi)|].
  intros a Ha. rewrite (sumn_ext n _ (fun b => (if Nat.eqb b j then 1 else 0) * (x a * A a b))).
  - rewrite (sumn_unit n j (fun b => x a * A a b) Hj). rewrite X by auto. reflexivity.
  - intros b Hb. rewrite Y by auto. ring.
Qed.
