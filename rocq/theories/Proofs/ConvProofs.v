(** ConvProofs.v -- box sums over a mixed-radix index. *)
From Coq Require Import Lra Lia.
From Verif.Model Require Import Base Conv.
From Verif.Spec Require Import RadixSpec ConvSpec.
From Verif.Proofs Require Import TruncProofs.
Open Scope list_scope.
Open Scope Z_scope.

Lemma size_ofE m : size_of m = prodZ m.
Proof. induction m; simpl; congruence. Qed.

Lemma sumn_ext k f g : (forall x, 0 <= x < Z.of_nat k -> f x = g x) -> sumn k f = sumn k g.
Proof.
  induction k as [|k IH]; intros H; [reflexivity|]. cbn [sumn].
  rewrite IH, (H (Z.of_nat k)) by (intros; apply H || lia; lia). reflexivity.
Qed.
Lemma sumn_0 k : sumn k (fun _ => 0%R) = 0%R.
Proof. induction k as [|k IH]; cbn [sumn]; [reflexivity|]. rewrite IH. lra. Qed.
Lemma sumn_add k f g : sumn k (fun x => (f x + g x)%R) = (sumn k f + sumn k g)%R.
Proof. induction k as [|k IH]; cbn [sumn]; [lra|]. rewrite IH. lra. Qed.
Lemma sumn_nonneg k f : (forall x, 0 <= x < Z.of_nat k -> (0 <= f x)%R) -> (0 <= sumn k f)%R.
Proof.
  induction k as [|k IH]; intros H; cbn [sumn]; [lra|].
  assert (0 <= sumn k f)%R by (apply IH; intros; apply H; lia).
  assert (0 <= f (Z.of_nat k))%R by (apply H; lia). lra.
Qed.
Lemma sumn_cat j : forall k f, sumn (j + k) f = (sumn j f + sumn k (fun x => f (Z.of_nat j + x)%Z))%R.
Proof.
  induction k as [|k IH]; intros f.
  - rewrite Nat.add_0_r. cbn [sumn]. lra.
  - rewrite Nat.add_succ_r. cbn [sumn]. rewrite IH.
    replace (Z.of_nat (j + k)) with (Z.of_nat j + Z.of_nat k) by lia. lra.
Qed.
Lemma sumn_block (a b : nat) f :
  sumn (a * b) f = sumn a (fun x => sumn b (fun y => f (x * Z.of_nat b + y))).
Proof.
  induction a as [|a IH]; [reflexivity|].
  replace (S a * b)%nat with (a * b + b)%nat by lia.
  rewrite sumn_cat, IH. cbn [sumn]. f_equal. apply sumn_ext. intros. f_equal. lia.
Qed.
(** A cut-off as a conditional. *)
Lemma sumn_cut (k a : nat) f : (k <= a)%nat ->
  sumn k f = sumn a (fun x => if x <? Z.of_nat k then f x else 0%R).
Proof.
  intros H. replace a with (k + (a - k))%nat by lia. rewrite sumn_cat.
  rewrite (sumn_ext (a - k) _ (fun _ => 0%R)), sumn_0, Rplus_0_r.
  - apply sumn_ext. intros x Hx. destruct (Z.ltb_spec x (Z.of_nat k)); auto; lia.
  - intros x Hx. destruct (Z.ltb_spec (Z.of_nat k + x) (Z.of_nat k)); auto; lia.
Qed.

(** Sum over digit tuples. *)
Fixpoint dsum (m : list Z) (G : list Z -> R) : R :=
  match m with [] => G [] | a :: m' => sumn (Z.to_nat a) (fun x => dsum m' (fun d => G (x :: d))) end.

Lemma dsum_ext m : forall G H, (forall d, digits m d -> G d = H d) -> dsum m G = dsum m H.
Proof.
  induction m as [|a m IH]; intros G H E; cbn [dsum]; [apply E; constructor|].
  apply sumn_ext. intros x Hx. apply IH. intros d Hd. apply E. constructor; auto. lia.
Qed.
Lemma dsum_0 m : dsum m (fun _ => 0%R) = 0%R.
Proof.
  induction m as [|a m IH]; cbn [dsum]; auto. rewrite (sumn_ext _ _ (fun _ => 0%R)); auto. apply sumn_0.
Qed.
Lemma dsum_add m : forall G H, dsum m (fun d => (G d + H d)%R) = (dsum m G + dsum m H)%R.
Proof.
  induction m as [|a m IH]; intros G H; cbn [dsum]; auto.
  rewrite <- sumn_add. apply sumn_ext. intros. apply IH.
Qed.
Lemma dsum_nonneg m : forall G, (forall d, digits m d -> (0 <= G d)%R) -> (0 <= dsum m G)%R.
Proof.
  induction m as [|a m IH]; intros G H; cbn [dsum]; [apply H; constructor|].
  apply sumn_nonneg. intros x Hx. apply IH. intros d Hd. apply H. constructor; auto. lia.
Qed.
Lemma dsum_flat m : Forall (fun x => 1 <= x) m -> forall off f,
  sumn (Z.to_nat (prodZ m)) (fun k => f (off + k)) = dsum m (fun d => f (off + recompose m d)).
Proof.
  induction 1 as [|a m Ha Hm IH]; intros off f.
  - cbn. change (Pos.to_nat 1) with 1%nat. cbn. rewrite Rplus_0_l. reflexivity.
  - cbn [prodZ dsum recompose]. pose proof (prodZ_pos m Hm) as Hp.
    rewrite Z2Nat.inj_mul, sumn_block by lia. apply sumn_ext. intros x Hx.
    rewrite Z2Nat.id by lia.
    erewrite sumn_ext; [|intros y Hy; rewrite Z.add_assoc; reflexivity].
    rewrite (IH (off + x * prodZ m) f). apply dsum_ext. intros d _. f_equal. lia.
Qed.

Lemma dsum_flat0 m f : Forall (fun x => 1 <= x) m ->
  sumn (Z.to_nat (prodZ m)) f = dsum m (fun d => f (recompose m d)).
Proof. intros Hm. exact (dsum_flat m Hm 0 f). Qed.

(** Membership in the box, digit by digit. *)
Fixpoint inb (t : Z) (m d : list Z) : bool :=
  match m, d with
  | a :: m', x :: d' => (x <? slice_stop t a) && inb t m' d'
  | _, _ => true
  end.
Lemma stop_range t a : 0 <= a -> 0 <= slice_stop t a <= a.
Proof. unfold slice_stop. destruct (Z.ltb_spec (-t) 0); lia. Qed.

Lemma box_sumE t m : Forall (fun x => 1 <= x) m -> forall off f,
  box_sum t m off f = dsum m (fun d => if inb t m d then f (off + recompose m d) else 0%R).
Proof.
  induction 1 as [|a m Ha Hm IH]; intros off f.
  - cbn. rewrite Z.add_0_r. reflexivity.
  - cbn [box_sum dsum inb recompose]. pose proof (stop_range t a).
    rewrite (sumn_cut _ (Z.to_nat a)) by lia. apply sumn_ext. intros x Hx.
    rewrite Z2Nat.id by lia. destruct (x <? slice_stop t a) eqn:E; cbn [andb].
    + rewrite IH, size_ofE. apply dsum_ext. intros d _. rewrite Z.add_assoc. reflexivity.
    + symmetry. apply dsum_0.
Qed.

Lemma box_sumE0 t m f : Forall (fun x => 1 <= x) m ->
  box_sum t m 0 f = dsum m (fun d => if inb t m d then f (recompose m d) else 0%R).
Proof. intros Hm. exact (box_sumE t m Hm 0 f). Qed.

Lemma inb_inner t m d : 0 < t -> digits m d -> (inb t m d = true <-> inner t m d).
Proof.
  intros Ht. unfold inner. induction 1 as [|a m x d Hx Hd IH]; cbn [inb].
  - split; auto.
  - unfold slice_stop at 1. destruct (Z.ltb_spec (-t) 0) as [_|]; [|lia].
    rewrite andb_true_iff, IH, Z.ltb_lt. split.
    + intros [A B]. constructor; auto. lia.
    + intros A. inversion A; subst. split; auto. lia.
Qed.

Lemma total_sumn f : forall N, total_weight N f = sumn N (fun k => f (Z.to_nat k)).
Proof.
  unfold total_weight.
  assert (G : forall N k, fold_right Rplus 0%R (map f (seq k N)) = sumn N (fun x => f (k + Z.to_nat x)%nat)).
  { induction N as [|N IH]; intros k; [reflexivity|].
    change (S N) with (1 + N)%nat. rewrite sumn_cat. simpl seq. cbn [map fold_right sumn].
    rewrite IH. replace (f (k + Z.to_nat (Z.of_nat 0))%nat) with (f k)
      by (f_equal; rewrite Nat2Z.id; lia).
    rewrite Rplus_0_l. f_equal. apply sumn_ext. intros x Hx. f_equal. lia. }
  intros N. rewrite G. reflexivity.
Qed.

Lemma sqabs_pos a : (0 <= sqabs a)%R.
Proof. unfold sqabs. nra. Qed.

(** The central identity: what epsilon is. *)
Lemma eps_outside t m v b : Forall (fun x => 1 <= x) m -> 0 < t -> Z.of_nat (length v) = prodZ m ->
  total_weight (length v) (fun k => sqabs (nth k v (0, 0)%R)) = 1%R ->
  decides_box t m b ->
  (1 - box_sum t m 0 (weight_at v))%R =
  total_weight (length v) (fun k => if b k then 0%R else sqabs (nth k v (0, 0)%R)).
Proof.
  intros Hm Ht Hl Hn Hb. rewrite <- Hn.
  assert (EN : length v = Z.to_nat (prodZ m)) by lia.
  rewrite !total_sumn, EN.
  rewrite !dsum_flat0 by auto.
  rewrite box_sumE0 by auto.
  cut (dsum m (fun d => sqabs (nth (Z.to_nat (recompose m d)) v (0, 0)%R)) =
       (dsum m (fun d => if inb t m d then weight_at v (recompose m d) else 0) +
        dsum m (fun d => if b (Z.to_nat (recompose m d)) then 0
                         else sqabs (nth (Z.to_nat (recompose m d)) v (0, 0))))%R); [intros ->; ring|].
  rewrite <- dsum_add. apply dsum_ext. intros d Hd. 
  pose proof (inb_inner t m d Ht Hd) as A. pose proof (Hb d Hd) as B. unfold weight_at.
  destruct (inb t m d), (b (Z.to_nat (recompose m d))); cbv iota; try (rewrite ?Rplus_0_r, ?Rplus_0_l; reflexivity).
  - exfalso. assert (false = true) by (apply B, A; reflexivity). discriminate.
  - exfalso. assert (false = true) by (apply A, B; reflexivity). discriminate.
Qed.

Lemma box_bounds t m v : Forall (fun x => 1 <= x) m -> Z.of_nat (length v) = prodZ m ->
  (0 <= box_sum t m 0 (weight_at v) <= total_weight (length v) (fun k => sqabs (nth k v (0, 0)%R)))%R.
Proof.
  intros Hm Hl. assert (EN : length v = Z.to_nat (prodZ m)) by lia.
  rewrite total_sumn, EN.
  rewrite !dsum_flat0 by auto. rewrite box_sumE0 by auto. split.
  - apply dsum_nonneg. intros d _. destruct (inb t m d); [apply sqabs_pos|lra].
  - match goal with |- (?B <= ?A)%R =>
      cut (A = (B + dsum m (fun d => if inb t m d then 0 else weight_at v (recompose m d)))%R) end.
    + intros ->. assert (0 <= dsum m (fun d => if inb t m d then 0 else weight_at v (recompose m d)))%R.
      { apply dsum_nonneg. intros d _. destruct (inb t m d); [lra|apply sqabs_pos]. } lra.
    + rewrite <- dsum_add. apply dsum_ext. intros d _. unfold weight_at.
      destruct (inb t m d); cbv iota; rewrite ?Rplus_0_r, ?Rplus_0_l; reflexivity.
Qed.

(** An axis cut to nothing leaves nothing. *)
Lemma box_empty t m : Exists (fun a => slice_stop t a <= 0) m -> forall off f, box_sum t m off f = 0%R.
Proof.
  induction 1 as [a m H|a m H IH]; intros off f; cbn [box_sum].
  - replace (Z.to_nat (slice_stop t a)) with O by lia. reflexivity.
  - rewrite (sumn_ext _ _ (fun _ => 0%R)); [apply sumn_0|]. intros. apply IH.
Qed.
